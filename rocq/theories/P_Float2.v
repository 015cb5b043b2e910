(** * Delta-M scaling and optical depths in double precision; what happens below thick layers. *)
From Coq Require Import ZArith Reals List Bool Lia Lra Psatz.
From Flocq Require Import Core Relative Plus_error IEEE754.BinarySingleNaN.
From Verif Require Import Base M_Float Spec_Float P_Float.
Import ListNotations.
Open Scope R_scope.

(** Numerical facts. *)
Lemma tiny_le e : (e <= -53)%Z -> two e <= two (-53).
Proof. intros. apply two_le. lia. Qed.

Lemma two_m50 : two (-50) = 8 * two (-53).
Proof. change (-50)%Z with (3 + -53)%Z. rewrite two_add. reflexivity. Qed.
Lemma two_m51 : two (-51) = 4 * two (-53).
Proof. change (-51)%Z with (2 + -53)%Z. rewrite two_add. reflexivity. Qed.
Lemma two_m52 : two (-52) = 2 * two (-53).
Proof. change (-52)%Z with (1 + -53)%Z. rewrite two_add. reflexivity. Qed.
Lemma two_m1073 : two (-1073) = 4 * two (-1075).
Proof. change (-1073)%Z with (2 + -1075)%Z. rewrite two_add. reflexivity. Qed.
Lemma two_m1074 : two (-1074) = 2 * two (-1075).
Proof. change (-1074)%Z with (1 + -1075)%Z. rewrite two_add. reflexivity. Qed.
Lemma u_small : two (-53) <= / 1024.
Proof.
  replace (/ 1024) with (two (-10)) by reflexivity. apply two_le. lia.
Qed.
Lemma eta_u : two (-1075) <= / 1024 * two (-53).
Proof.
  replace (/ 1024) with (two (-10)) by reflexivity. rewrite <- two_add. apply two_le. lia.
Qed.

Section Atm.
Variable a : fatm.
Hypothesis Ha : atm_ok a.

Lemma thickness_pos r : (r < fa_n a)%nat -> 0 < thickness a r.
Proof.
  intros Hr. destruct r as [|r]; unfold thickness.
  - apply (ao_tau a Ha); exact Hr.
  - pose proof (ao_inc a Ha r Hr). lra.
Qed.

Lemma thick_ok r : (r < fa_n a)%nat ->
  ffin (fa_thick a r) = true /\ fval (fa_thick a r) = rn (thickness a r) /\
  0 < fval (fa_thick a r) <= fval (t_ a r).
Proof.
  intros Hr. pose proof (thickness_pos r Hr) as Hp.
  destruct r as [|r]; unfold fa_thick, thickness in *.
  - split; [apply (ao_fin a Ha); exact Hr|]. rewrite rn_fmt by apply fmt_val.
    split; [reflexivity|]. lra.
  - assert (Hr' : (r < fa_n a)%nat) by lia.
    destruct (ao_fin a Ha _ Hr) as (F1 & _). destruct (ao_fin a Ha _ Hr') as (F2 & _).
    pose proof (ao_tau a Ha _ Hr') as P.
    assert (L : rn (fval (t_ a (S r)) - fval (t_ a r)) <= fval (t_ a (S r)))
      by (apply rn_le_fmt; [apply fmt_val | lra]).
    assert (G : 0 <= rn (fval (t_ a (S r)) - fval (t_ a r)))
      by (apply rn_ge_fmt; [apply fmt_0 | lra]).
    destruct (fsub_ok _ _ F1 F2) as [X1 X2].
    { rewrite Rabs_pos_eq by exact G. eapply Rle_lt_trans; [exact L|].
      eapply Rle_lt_trans; [apply Rle_abs | apply val_lt]. }
    split; [exact X1|]. split; [exact X2|]. rewrite X2. split; [|exact L].
    destruct G as [G|G]; [exact G|]. exfalso. symmetry in G. revert G.
    apply (round_plus_neq_0 radix2 fexp64 ZnearestE (fval (t_ a (S r))) (- fval (t_ a r))).
    + apply fmt_val.
    + apply fmt_opp, fmt_val.
    + lra.
Qed.

Lemma peak_ok r : (r < fa_n a)%nat ->
  ffin (fmul (w_ a r) (f_ a r)) = true /\
  fval (fmul (w_ a r) (f_ a r)) = rn (fval (w_ a r) * fval (f_ a r)) /\
  0 <= fval (fmul (w_ a r) (f_ a r)) <= fval (w_ a r) /\
  fval (fmul (w_ a r) (f_ a r)) <= fval (f_ a r).
Proof.
  intros Hr. destruct (ao_fin a Ha _ Hr) as (_ & F1 & F2).
  pose proof (ao_om a Ha _ Hr) as O. pose proof (ao_pk a Ha _ Hr) as P.
  assert (L : rn (fval (w_ a r) * fval (f_ a r)) <= fval (w_ a r))
    by (apply rn_le_fmt; [apply fmt_val | nra]).
  assert (L2 : rn (fval (w_ a r) * fval (f_ a r)) <= fval (f_ a r))
    by (apply rn_le_fmt; [apply fmt_val | nra]).
  assert (G : 0 <= rn (fval (w_ a r) * fval (f_ a r)))
    by (apply rn_ge_fmt; [apply fmt_0 | nra]).
  destruct (fmul_ok _ _ F1 F2) as [X1 X2].
  { rewrite Rabs_pos_eq by exact G. eapply Rle_lt_trans; [exact L|].
    eapply Rle_lt_trans; [apply Rle_abs | apply val_lt]. }
  split; [exact X1|]. split; [exact X2|]. rewrite X2. repeat split; assumption.
Qed.

Lemma scaling_range r : (r < fa_n a)%nat -> 0 < scaling a r <= 1.
Proof.
  intros Hr. pose proof (ao_om a Ha _ Hr) as O. pose proof (ao_pk a Ha _ Hr) as P.
  unfold scaling. split; nra.
Qed.

Lemma scale_ok r : (r < fa_n a)%nat ->
  ffin (fa_scale a r) = true /\ 0 < fval (fa_scale a r) <= 1 /\
  fval (fa_scale a r) = rn (1 - fval (fmul (w_ a r) (f_ a r))) /\
  scaling a r - two (-51) <= fval (fa_scale a r) <= scaling a r + two (-51).
Proof.
  intros Hr. destruct (peak_ok r Hr) as (F & V & R1 & R2).
  pose proof (ao_om a Ha _ Hr) as O. pose proof (ao_pk a Ha _ Hr) as P.
  set (x := fmul (w_ a r) (f_ a r)) in *.
  assert (L : rn (1 - fval x) <= 1) by (apply rn_le_fmt; [apply fmt_1 | lra]).
  assert (G : 0 <= rn (1 - fval x)) by (apply rn_ge_fmt; [apply fmt_0 | lra]).
  destruct (fsub_ok fone x fone_fin F) as [X1 X2].
  { rewrite fone_val, Rabs_pos_eq by exact G. eapply Rle_lt_trans; [exact L|].
    rewrite <- two_0. apply bpow_lt. lia. }
  rewrite fone_val in X2. unfold fa_scale. fold x. rewrite X2.
  split; [exact X1|]. split; [|split; [reflexivity|]].
  - split; [|exact L]. destruct G as [G|G]; [exact G|]. exfalso. symmetry in G. revert G.
    apply (round_plus_neq_0 radix2 fexp64 ZnearestE 1 (- fval x)).
    + apply fmt_1.
    + apply fmt_opp, fmt_val.
    + lra.
  - pose proof (rn_err (1 - fval x)) as E1. pose proof (rn_err (fval (w_ a r) * fval (f_ a r))) as E2.
    rewrite <- V in E2.
    assert (0 <= fval (w_ a r) * fval (f_ a r) <= 1) by (split; nra).
    apply Rabs_le_inv in E1. apply Rabs_le_inv in E2.
    rewrite (Rabs_pos_eq (1 - fval x)) in E1 by lra.
    rewrite (Rabs_pos_eq (fval (w_ a r) * fval (f_ a r))) in E2 by lra.
    rewrite two_m51. pose proof u_small. pose proof eta_u. pose proof (two_pos (-53)).
    unfold scaling. split; nra.
Qed.

Lemma sthick_ok r : (r < fa_n a)%nat ->
  ffin (fa_sthick a r) = true /\ 0 <= fval (fa_sthick a r) <= fval (t_ a r) /\
  fval (fa_sthick a r) = rn (fval (fa_scale a r) * fval (fa_thick a r)) /\
  (scaling a r - two (-50)) * thickness a r - two (-1073) <= fval (fa_sthick a r) /\
  fval (fa_sthick a r) <= (scaling a r + two (-50)) * thickness a r + two (-1073).
Proof.
  intros Hr. destruct (thick_ok r Hr) as (F1 & V1 & R1). destruct (scale_ok r Hr) as (F2 & R2 & _ & B2).
  pose proof (thickness_pos r Hr) as TP. pose proof (scaling_range r Hr) as SR.
  set (s := fval (fa_scale a r)) in *. set (d := fval (fa_thick a r)) in *.
  assert (L : rn (s * d) <= fval (t_ a r)) by (apply rn_le_fmt; [apply fmt_val | nra]).
  assert (G : 0 <= rn (s * d)) by (apply rn_ge_fmt; [apply fmt_0 | nra]).
  destruct (fmul_ok _ _ F2 F1) as [X1 X2].
  { fold s d. rewrite Rabs_pos_eq by exact G. eapply Rle_lt_trans; [exact L|].
    eapply Rle_lt_trans; [apply Rle_abs | apply val_lt]. }
  fold s d in X2. unfold fa_sthick. rewrite X2. split; [exact X1|]. split; [split; assumption|].
  split; [reflexivity|].
  pose proof (rn_lower (s * d) ltac:(nra)) as E1. pose proof (rn_upper (s * d) ltac:(nra)) as E2.
  pose proof (rn_lower (thickness a r) ltac:(lra)) as E3. pose proof (rn_upper (thickness a r) ltac:(lra)) as E4.
  rewrite <- V1 in E3, E4.
  rewrite two_m50, two_m1073. rewrite two_m51 in B2.
  pose proof u_small as U. pose proof eta_u as W. pose proof (two_pos (-53)) as UP.
  pose proof (two_pos (-1075)) as WP.
  set (u := two (-53)) in *. set (e := two (-1075)) in *. set (D := thickness a r) in *.
  set (sc := scaling a r) in *.
  split.
  - destruct (Rle_or_lt (sc - 4 * u) 0) as [N|N].
    { assert ((sc - 8 * u) * D <= 0) by nra. lra. }
    assert (H1 : (sc - 4 * u) * ((1 - u) * D - e) <= s * d).
    { apply Rle_trans with ((sc - 4 * u) * d); [apply Rmult_le_compat_l; lra|].
      apply Rmult_le_compat_r; lra. }
    assert (H2 : (sc - 4 * u) * D - u * D - e <= (sc - 4 * u) * ((1 - u) * D - e)).
    { assert ((sc - 4 * u) * (u * D + e) <= 1 * (u * D + e)) by (apply Rmult_le_compat_r; nra). lra. }
    assert (H3 : u * ((sc - 4 * u) * D - u * D - e) <= u * D).
    { apply Rmult_le_compat_l; [lra|]. nra. }
    assert (H4 : (1 - u) * ((sc - 4 * u) * D - u * D - e) <= (1 - u) * (s * d))
      by (apply Rmult_le_compat_l; lra).
    lra.
  - assert (H1 : s * d <= s * ((1 + u) * D + e)) by (apply Rmult_le_compat_l; lra).
    assert (H1' : s * ((1 + u) * D + e) <= s * D + (u * D + e)) by nra.
    assert (H2 : (1 + u) * (s * d) <= (1 + u) * (s * D + (u * D + e)))
      by (apply Rmult_le_compat_l; lra).
    assert (H3 : u * (s * D + (u * D + e)) <= 2 * u * D + e).
    { assert (s * D <= D) by nra. assert (u * D <= / 1024 * D) by nra.
      assert (u * e <= e * / 1024) by nra. nra. }
    assert (H4 : s * D <= (sc + 4 * u) * D) by (apply Rmult_le_compat_r; lra).
    lra.
Qed.

Lemma rsum_lower k : (k <= fa_n a)%nat ->
  scaled_depth a (- two (-50)) k - INR k * two (-1073) <= rsum k (fun r => fval (fa_sthick a r)).
Proof.
  unfold scaled_depth. induction k as [|k IH]; intros Hk; cbn [rsum]; [simpl; lra|].
  specialize (IH ltac:(lia)). destruct (sthick_ok k ltac:(lia)) as (_ & _ & _ & B & _).
  rewrite S_INR. lra.
Qed.

Lemma rsum_upper k : (k <= fa_n a)%nat ->
  rsum k (fun r => fval (fa_sthick a r)) <= scaled_depth a (two (-50)) k + INR k * two (-1073).
Proof.
  unfold scaled_depth. induction k as [|k IH]; intros Hk; cbn [rsum]; [simpl; lra|].
  specialize (IH ltac:(lia)). destruct (sthick_ok k ltac:(lia)) as (_ & _ & _ & _ & B).
  rewrite S_INR. lra.
Qed.

Lemma layer_ok l tau : in_layer a l tau -> fa_layer a tau = l.
Proof.
  intros (Hl & Ft & [_ Hle] & Hlt). unfold fa_layer.
  assert (G : forall ts m, (m < length ts)%nat ->
     (forall r, (r <= m)%nat -> ffin (nth r ts fnan) = true) ->
     fval tau <= fval (nth m ts fnan) ->
     (forall r, (r < m)%nat -> fval (nth r ts fnan) < fval tau) -> first_le tau ts = Some m).
  { induction ts as [|y ts IH]; intros m Hm Hf H1 H2; simpl in Hm; [lia|].
    simpl. destruct m as [|m].
    - rewrite (proj2 (fle_iff tau y Ft (Hf 0%nat (le_n _)))); [reflexivity|exact H1].
    - assert (E : fle tau y = false).
      { destruct (fle tau y) eqn:E; [|reflexivity].
        apply (fle_iff tau y Ft (Hf 0%nat (Nat.le_0_l _))) in E.
        specialize (H2 0%nat (Nat.lt_0_succ _)). simpl in H2. lra. }
      rewrite E. rewrite (IH m); [reflexivity|lia| | |].
      + intros r Hr. apply (Hf (S r)). lia.
      + exact H1.
      + intros r Hr. apply (H2 (S r)). lia. }
  rewrite (G (fa_tau a) l); [reflexivity|exact Hl| |exact Hle|exact Hlt].
  intros r Hr. apply (ao_fin a Ha). unfold fa_n in *. lia.
Qed.
End Atm.

(** Reciprocal of a cosine. *)
Lemma cosine_inv mu : cosine_ok mu ->
  ffin (fdiv fone mu) = true /\ 1 <= fval (fdiv fone mu) <= two 40 /\
  (1 - two (-52)) / fval mu <= fval (fdiv fone mu) <= (1 + two (-52)) / fval mu.
Proof.
  intros (F & L & U). pose proof (two_pos (-40)) as P.
  assert (M : 0 < fval mu) by lra.
  assert (I1 : 1 <= 1 / fval mu).
  { apply Rmult_le_reg_r with (fval mu); [lra|]. unfold Rdiv. rewrite Rmult_assoc, Rinv_l; lra. }
  assert (I2 : 1 / fval mu <= two 40).
  { apply Rmult_le_reg_r with (fval mu); [lra|]. unfold Rdiv. rewrite Rmult_assoc, Rinv_l by lra.
    apply Rle_trans with (two 40 * two (-40)); [rewrite <- two_add; change (40 + -40)%Z with 0%Z; rewrite two_0; lra|].
    apply Rmult_le_compat_l; [apply Rlt_le, two_pos|exact L]. }
  assert (G1 : 1 <= rn (1 / fval mu)) by (apply rn_ge_fmt; [apply fmt_1|exact I1]).
  assert (G2 : rn (1 / fval mu) <= two 40) by (apply rn_le_fmt; [apply fmt_two; lia|exact I2]).
  destruct (fdiv_ok fone mu fone_fin ltac:(lra)) as [X1 X2].
  { rewrite fone_val, Rabs_pos_eq by lra. eapply Rle_lt_trans; [exact G2|]. apply bpow_lt. lia. }
  rewrite fone_val in X2. split; [exact X1|]. rewrite X2. split; [lra|].
  pose proof (rn_lower (1 / fval mu) ltac:(lra)). pose proof (rn_upper (1 / fval mu) ltac:(lra)).
  rewrite two_m52. pose proof u_small. pose proof eta_u. pose proof (two_pos (-53)).
  set (q := 1 / fval mu) in *.
  replace ((1 - 2 * two (-53)) / fval mu) with ((1 - 2 * two (-53)) * q) by (unfold q; field; lra).
  replace ((1 + 2 * two (-53)) / fval mu) with ((1 + 2 * two (-53)) * q) by (unfold q; field; lra).
  split; nra.
Qed.
