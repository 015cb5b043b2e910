(** Azimuthal series, their integrals, and the phase function as a series. *)
From Coq Require Import String Reals Lra Lia List Bool Arith ZArith.
From Coquelicot Require Import Coquelicot.
From Verif Require Import Base Tensor Spec Calc M_LinAlg Spec_RTE M_Subroutines M_Assemble M_Pydisort P_Special P_Fourier P_Addition Spec_Sol Spec_Valid P_Valid P_Solve P_Pydisort P_Pydisort2 P_Pydisort4
  P_Pydisort6 P_Pydisort8 P_NT3 Spec_Unique P_Unique2 Spec_Phys Spec_Full.
Import ListNotations.
Local Open Scope R_scope.

Lemma int_sin k c : is_RInt (fun x => sin (INR k * (c - x))) 0 (2 * PI) 0.
Proof.
  destruct k as [|k].
  - apply (is_RInt_ext (V:=R_NormedModule) (fun _ => 0)).
    { intros x _. cbn. rewrite Rmult_0_l, sin_0. reflexivity. }
    assert (X : is_RInt (V:=R_NormedModule) (fun _ => 0) 0 (2 * PI) (scal (2 * PI - 0) 0)) by apply (is_RInt_const (V:=R_NormedModule)).
    eapply (eq_ind _ (fun z : R => is_RInt _ _ _ z) X). unfold scal; simpl. unfold mult; simpl. ring.
  - assert (Hk : INR (S k) <> 0) by (apply not_0_INR; lia). set (q := INR (S k)) in *.
    assert (HI : is_RInt (fun x => sin (q * (c - x))) 0 (2 * PI)
       (minus ((fun x => cos (q * (c - x)) / q) (2 * PI)) ((fun x => cos (q * (c - x)) / q) 0))).
    { apply (is_RInt_derive (V:=R_CompleteNormedModule) (fun x => cos (q * (c - x)) / q)).
      - intros x _. auto_derive; auto. unfold Rminus. field. auto.
      - intros x _. apply (ex_derive_continuous (K:=R_AbsRing) (V:=R_NormedModule)). auto_derive; auto. }
    eapply (eq_ind _ (fun z : R => is_RInt _ _ _ z) HI). unfold minus, plus, opp; simpl. unfold q. rewrite P_Fourier.cos_shift.
    replace (c - 0) with c by ring. ring.
Qed.
Lemma int_sin_cos m k c : is_RInt (fun x => sin (INR m * (c - x)) * cos (INR k * (c - x))) 0 (2 * PI) 0.
Proof.
  set (s := if Nat.leb k m then 1 else -1).
  apply (is_RInt_ext (V:=R_NormedModule) (fun x => / 2 * (sin (INR (m + k) * (c - x)) + s * sin (INR (Nat.max m k - Nat.min m k) * (c - x))))).
  { intros x _. simpl. set (y := c - x). rewrite plus_INR, minus_INR by lia.
    assert (E : s * sin ((INR (Nat.max m k) - INR (Nat.min m k)) * y) = sin (INR m * y - INR k * y)).
    { unfold s. destruct (Nat.leb_spec k m) as [H|H].
      - rewrite Nat.max_l, Nat.min_r by auto. rewrite Rmult_1_l. f_equal. ring.
      - rewrite Nat.max_r, Nat.min_l by lia. replace (INR m * y - INR k * y) with (- ((INR k - INR m) * y)) by ring. rewrite sin_neg. ring. }
    rewrite E. replace ((INR m + INR k) * y) with (INR m * y + INR k * y) by ring. rewrite sin_plus, sin_minus. field. }
  assert (X : is_RInt (V:=R_NormedModule) (fun x => / 2 * (sin (INR (m + k) * (c - x)) + s * sin (INR (Nat.max m k - Nat.min m k) * (c - x)))) 0 (2 * PI) (/ 2 * (0 + s * 0))).
  { apply (is_RInt_scal (V:=R_NormedModule)), (is_RInt_plus (V:=R_NormedModule)); [apply int_sin|]. apply (is_RInt_scal (V:=R_NormedModule)), int_sin. }
  eapply (eq_ind _ (fun z : R => is_RInt _ _ _ z) X). ring.
Qed.
Lemma int_two m k a c : is_RInt (fun x => cos (INR m * (a - x)) * cos (INR k * (c - x))) 0 (2 * PI)
  ((if Nat.eqb m k then (if Nat.eqb m 0 then 2 * PI else PI) else 0) * cos (INR m * (c - a))).
Proof.
  apply (is_RInt_ext (V:=R_NormedModule) (fun x => cos (INR m * (c - a)) * (cos (INR m * (c - x)) * cos (INR k * (c - x))) + sin (INR m * (c - a)) * (sin (INR m * (c - x)) * cos (INR k * (c - x))))).
  { intros x _. simpl. replace (INR m * (a - x)) with (INR m * (c - x) - INR m * (c - a)) by ring. rewrite cos_minus. ring. }
  assert (X : is_RInt (V:=R_NormedModule) (fun x => cos (INR m * (c - a)) * (cos (INR m * (c - x)) * cos (INR k * (c - x))) + sin (INR m * (c - a)) * (sin (INR m * (c - x)) * cos (INR k * (c - x)))) 0 (2 * PI)
    (cos (INR m * (c - a)) * (if Nat.eqb m k then (if Nat.eqb m 0 then 2 * PI else PI) else 0) + sin (INR m * (c - a)) * 0)).
  { apply (is_RInt_plus (V:=R_NormedModule)); apply (is_RInt_scal (V:=R_NormedModule)); [apply int_cos_cos|apply int_sin_cos]. }
  eapply (eq_ind _ (fun z : R => is_RInt _ _ _ z) X). ring.
Qed.
Lemma int_series n (A V : nat -> R) a c : is_RInt (fun x => rsum n (fun m => A m * cos (INR m * (a - x))) * rsum n (fun k => V k * cos (INR k * (c - x)))) 0 (2 * PI)
  (rsum n (fun m => A m * V m * (if Nat.eqb m 0 then 2 * PI else PI) * cos (INR m * (c - a)))).
Proof.
  apply (is_RInt_ext (V:=R_NormedModule) (fun x => rsum n (fun m => rsum n (fun k => A m * V k * (cos (INR m * (a - x)) * cos (INR k * (c - x))))))).
  { intros x _. simpl. rewrite <- rsum_scal_r. apply rsum_ext. intros m Hm. rewrite <- rsum_scal. apply rsum_ext. intros. ring. }
  apply (is_RInt_rsum n (fun m x => rsum n (fun k => A m * V k * (cos (INR m * (a - x)) * cos (INR k * (c - x)))))). intros m Hm.
  assert (X : is_RInt (V:=R_NormedModule) (fun x => rsum n (fun k => A m * V k * (cos (INR m * (a - x)) * cos (INR k * (c - x))))) 0 (2 * PI)
    (rsum n (fun k => A m * V k * ((if Nat.eqb m k then (if Nat.eqb m 0 then 2 * PI else PI) else 0) * cos (INR m * (c - a)))))).
  { apply (is_RInt_rsum n (fun k x => A m * V k * (cos (INR m * (a - x)) * cos (INR k * (c - x))))). intros k Hk. apply (is_RInt_scal (V:=R_NormedModule)), int_two. }
  eapply (eq_ind _ (fun z : R => is_RInt _ _ _ z) X). rewrite (rsum_single n m); [rewrite Nat.eqb_refl; ring|exact Hm|].
  intros k Hk Hne. rewrite (proj2 (Nat.eqb_neq m k)) by auto. ring.
Qed.

Lemma cos_between_eq x phi y psi : cos_between x phi y psi = x * y + sqrt (1 - x ^ 2) * sqrt (1 - y ^ 2) * cos (phi - psi).
Proof. unfold cos_between, dot3, unit_vec. rewrite cos_minus. ring. Qed.

Lemma phase_modes p l x phi y psi : (0 < ncoeffs p)%nat -> -1 <= x <= 1 -> -1 <= y <= 1 ->
  phase_at p l (cos_between x phi y psi) = rsum (ncoeffs p) (fun m => ec m * phase_mode p m l x y * cos (INR m * (phi - psi))).
Proof.
  intros Hn Hx Hy. rewrite cos_between_eq. unfold phase_at. rewrite (rsum_ext _ _ (fun k => rsum (ncoeffs p) (fun m => ec m * (wphase_s p l k * am x y m k) * cos (INR m * (phi - psi))))).
  - rewrite rsum_swap. apply rsum_ext. intros m Hm. rewrite (rsum_ext _ _ (fun k => (ec m * cos (INR m * (phi - psi))) * (if Nat.leb m k then wphase_s p l k * poch_term m k * lpmv m k x * lpmv m k y else 0))).
    + rewrite rsum_scal. unfold phase_mode. ring.
    + intros k Hk. unfold am. destruct (Nat.leb m k); ring.
  - intros k Hk. rewrite (legendre_addition x y Hx Hy (phi - psi) k). rewrite <- (asum_more x y (phi - psi) (pred (ncoeffs p)) k) by lia. unfold asum. replace (S (pred (ncoeffs p))) with (ncoeffs p) by lia.
    rewrite <- rsum_scal. apply rsum_ext. intros m Hm. unfold wphase_s. ring.
Qed.
