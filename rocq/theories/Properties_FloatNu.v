(** * Double precision: the cosine of the scattering angle. *)
From Coq Require Import ZArith Reals List Bool Lia Lra.
From Flocq Require Import Core IEEE754.BinarySingleNaN.
From Verif Require Import Base M_Float Spec_Float P_Float M_FloatNu Spec_FloatNu P_FloatNu.
Open Scope R_scope.

(** C104 as far as it holds. For all directions, vertical ones included, and all azimuths of
    magnitude up to 2^1000, the result of calculate_nu is a finite number (no square root of a
    negative number, no overflow) of magnitude at most 1 + 2^-49. *)
Theorem C104_range_partial : forall cosf mu phi mu_p phi_p, cos_ok cosf -> cosine mu -> cosine mu_p -> at_most 1000 phi -> at_most 1000 phi_p ->
  ffin (d_nu cosf mu phi mu_p phi_p) = true /\ Rabs (fval (d_nu cosf mu phi mu_p phi_p)) <= 1 + two (-49).
Proof. intros cosf mu phi mu_p phi_p Hc H1 H2 H3 H4. split; [apply (nu_val cosf Hc); assumption|apply (nu_range cosf Hc); assumption]. Qed.
Print Assumptions C104_range_partial.

(** It is accurate: off by at most 2^-37 from the cosine of the angle between the two directions if
    the azimuths differ by at most 8. *)
Theorem C104_accurate : forall cosf mu phi mu_p phi_p, cos_ok cosf -> cosine mu -> cosine mu_p -> at_most 1000 phi -> at_most 1000 phi_p ->
  Rabs (fval phi_p - fval phi) <= 8 ->
  Rabs (fval (d_nu cosf mu phi mu_p phi_p) - angle_cosine (fval mu_p) (fval phi_p) (fval mu) (fval phi)) <= two (-37).
Proof. exact nu_accurate. Qed.
Print Assumptions C104_accurate.

(** Away from the vertical it has full accuracy: if the sines of both polar angles are at least
    [s], the error is at most 2^-48 / s. *)
Theorem C104_accurate_away_from_vertical : forall cosf mu phi mu_p phi_p s, cos_ok cosf -> cosine mu -> cosine mu_p -> at_most 1000 phi -> at_most 1000 phi_p ->
  Rabs (fval phi_p - fval phi) <= 8 -> 0 < s -> s * s <= 1 - fval mu * fval mu -> s * s <= 1 - fval mu_p * fval mu_p ->
  Rabs (fval (d_nu cosf mu phi mu_p phi_p) - angle_cosine (fval mu_p) (fval phi_p) (fval mu) (fval phi)) <= two (-48) / s.
Proof. exact nu_accurate_away. Qed.
Print Assumptions C104_accurate_away_from_vertical.
Example C104_nonvacuous : exists cosf mu phi mu_p phi_p, cos_ok cosf /\ cosine mu /\ cosine mu_p /\ at_most 1000 phi /\ at_most 1000 phi_p /\
  Rabs (fval phi_p - fval phi) <= 8 /\ fval phi <> fval phi_p /\ fval mu <> fval mu_p /\ 0 < / 2 /\
  / 2 * / 2 <= 1 - fval mu * fval mu /\ / 2 * / 2 <= 1 - fval mu_p * fval mu_p.
Proof.
  assert (V2 : 0 < fval mu_over <= / 2).
  { assert (E : flt fzero mu_over = true /\ fle mu_over (fdiv fone (fadd fone fone)) = true) by (split; vm_compute; reflexivity).
      assert (F : ffin mu_over = true) by exact (proj1 mu_over_ok). assert (F2 : ffin (fdiv fone (fadd fone fone)) = true) by (vm_compute; reflexivity).
      assert (V2 : fval (fdiv fone (fadd fone fone)) = / 2).
      { unfold fval. rewrite <- SF2R_B2SF. replace (B2SF (fdiv fone (fadd fone fone))) with (SpecFloat.S754_finite false 4503599627370496 (-53)) by (vm_compute; reflexivity).
        unfold SF2R, F2R. cbn [cond_Zopp Fnum Fexp]. change (bpow radix2 (-53)) with (/ IZR 9007199254740992). lra. }
      split.
      + rewrite <- fzero_val. exact (proj1 (flt_iff fzero mu_over fzero_fin F) (proj1 E)).
      + rewrite <- V2. exact (proj1 (fle_iff mu_over _ F F2) (proj2 E)). }
  exists cos0, mu_over, fzero, fzero, fone.
  split; [exact cos0_ok|]. split; [exact mu_over_ok|]. split; [split; [apply fzero_fin|rewrite fzero_val; lra]|].
  split; [split; [apply fzero_fin|rewrite fzero_val, Rabs_R0; left; apply two_pos]|].
  split; [split; [apply fone_fin|rewrite fone_val, Rabs_R1, <- two_0; apply two_le; lia]|].
  rewrite fzero_val, fone_val. split; [rewrite Rabs_right; lra|]. repeat split; try lra; nra.
Qed.

(** The full property, a result in [-1, 1], is false: for a certain direction the cosine of its
    angle with itself comes out above 1, with any cosine function that is exact at 0, and then its
    arccosine is not a number. *)
Theorem C104_range_refuted : exists mu phi, cosine mu /\ at_most 1000 phi /\
  (exists cosf, cos_ok cosf /\ cosf fzero = fone) /\
  forall cosf, cosf fzero = fone -> 1 < fval (d_nu cosf mu phi mu phi).
Proof.
  exists mu_over, fzero. split; [exact mu_over_ok|]. split; [split; [apply fzero_fin|rewrite fzero_val, Rabs_R0; left; apply two_pos]|].
  split; [exists cos0; split; [exact cos0_ok|exact cos0_0]|exact nu_over].
Qed.
Print Assumptions C104_range_refuted.
