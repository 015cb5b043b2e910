(** A family of atmospheres with any number of streams, for the statements about convergence. *)
From Coq Require Import Classical String Reals Lra Lia List Bool Arith ZArith.
From Coquelicot Require Import Coquelicot.
From Verif Require Import Base Tensor Spec M_LinAlg Spec_RTE Calc M_Subroutines M_GenPart M_MathscrV M_Coeffs M_Assemble M_Pydisort
  Spec_Sol Spec_Valid Spec_Calls Spec_Unique Spec_Phys Spec_Mono Spec_Depend Spec_Solved Spec_Lossy Spec_Exact P_Special P_Quad P_Sub P_Pydisort5 P_NT3 P_Gauss P_Lossy2 P_Orth2 P_Conv P_Conv2 P_Conv3 P_Conv4 Examples5.
Import ListNotations.
Local Open Scope R_scope.

(** Two scattering layers over a reflecting surface, [2 n] streams, two coefficients: emission [s],
    radiation [b] on the top and [b'] from the surface. *)
Definition p_cv (n : nat) (s b b' : R) : py_in := {|
  p_tau := [1; 3]; p_omega := [1/2; 9/10]; p_NQuad := Z.of_nat (2 * n);
  p_Leg := mkA2 2 2 (fun l k => match k with O => 1 | _ => match l with O => 1/3 | _ => -1/5 end end);
  p_mu0 := 1/2; p_I0 := 0; p_phi0 := 0; p_NLeg := Some 2%Z; p_NFourier := Some 1%Z;
  p_bpos := t0 b'; p_bneg := t0 b; p_only_flux := false; p_f := [1/10; 0]; p_NT := false;
  p_BDRF := [MScal (1/2)]; p_s := mkA2 2 1 (fun _ _ => s); p_banded := 10; p_autograd := false |}.
Definition rho12 : nat -> R -> R -> R := fun _ _ _ => 1/2.
Section CV.
  Variables (n : nat) (s b b' : R).
  Hypothesis Hn : (2 <= n)%nat.
  Hypothesis Hb : 0 < b.
  Hypothesis Hb' : 0 <= b'.
  Let p := p_cv n s b b'.
  Lemma cv_half : half p = n.
  Proof. unfold half, p, p_cv; cbn [p_NQuad]. rewrite Nat2Z.inj_mul, Z.mul_comm. change (Z.of_nat 2) with 2%Z. rewrite Z.div_mul by lia. apply Nat2Z.id. Qed.
  Lemma cv_sizes : ncoeffs p = 2%nat /\ nmodes p = 1%nat /\ streams p = (2 * n)%nat.
  Proof. unfold ncoeffs, nmodes, streams, p, p_cv; cbn [p_NLeg p_NFourier p_NQuad p_only_flux]. rewrite Nat2Z.id. auto. Qed.
  Lemma cv_valid : valid p.
  Proof.
    constructor; cbn -[Rlt Rle PI pow Z.mul Z.of_nat Z.modulo Z.div Nat.mul].
    - lia.
    - intros [|[|l]] Hl; cbn; [lra|lra|lia].
    - intros [|[|l]] Hl; cbn; [lra|lra|lia].
    - intros w [<-|[<-|[]]]; lra.
    - lia.
    - reflexivity.
    - reflexivity.
    - reflexivity.
    - reflexivity.
    - intros [|[|l]] k Hl Hk; [| |lia]; destruct k as [|k]; try lia; lra.
    - lia.
    - rewrite Nat2Z.inj_mul, Z.mul_comm. change (Z.of_nat 2) with 2%Z. apply Z_mod_mult.
    - unfold NFourierZ, NLegZ; cbn. lia.
    - unfold NLegZ; cbn -[Z.of_nat Nat.mul]. lia.
    - lra.
    - intros H. lra.
    - intros H. lra.
    - right; left; reflexivity.
    - right; left; reflexivity.
    - intros f [<-|[<-|[]]]; lra.
    - lia.
  Qed.
  Lemma cv_wf : well_formed p rho12.
  Proof.
    constructor.
    - apply cv_valid.
    - exists (fun _ => b'). apply bc_scal; auto.
    - exists (fun _ => b). apply bc_scal; auto.
    - intros [|m] Hm; [|cbn in Hm; lia]. left. exists (1/2). auto.
    - intros _. right. reflexivity.
    - intros _. right; right. exists []. split; [exact I|exact Hb].
    - intros H. discriminate.
  Qed.
  Lemma cv_bd mu : boundary_data p (fun i => (fun _ : R => b) (nth i mu 0)) (fun i => (fun _ : R => b') (nth i mu 0)) rho12.
  Proof.
    constructor.
    - apply bc_scal; auto.
    - apply bc_scal; auto.
    - intros [|m] Hm; [|cbn in Hm; lia]. left. exists (1/2). auto.
    - left. split; intros idx _; cbn; lra.
  Qed.
  Lemma cv_solved jk : exists out, pydisort p gauss_rule la_full jk = Ok out.
  Proof.
    apply (enough_iff p rho12); [apply cv_wf| | |apply gauss_rule_ok|exact la_full_ok|exact la_full_unique|exact la_full_complete|exact la_full_total|].
    - destruct cv_sizes as (-> & _ & ->). lia.
    - intros mu w HD. apply (lambert_gain _ mu w rho12 (1/2)); [apply cv_valid|exact HD|cbn; lia|lra|reflexivity].
    - intros H. cbn in H. lra.
  Qed.
  Lemma cv_kept : scattering_kept p.
  Proof. intros [|[|l]] Hl; [| |cbn in Hl; lia]; unfold albedo_s, scl, albedo, fwd; cbn -[Rle Rlt]; split; try lra; right; lra. Qed.
  Lemma cv_sc l : (l < 2)%nat -> scattering p l 0 = (if Nat.eqb l 0 then 9/20 else 9/10) /\ scattering p l 1 = (if Nat.eqb l 0 then 7/60 else -9/50).
  Proof. intros Hl. destruct l as [|[|l]]; [| |lia]; unfold scattering, albedo, fwd, phase; cbn; split; field. Qed.
  Lemma cv_scatters l x y : (l < 2)%nat -> scatters p l x y = / 2 * scattering p l 0 + 3 / 2 * scattering p l 1 * x * y.
  Proof. intros Hl. unfold scatters. rewrite (proj1 cv_sizes). cbn [rsum INR]. rewrite !legendre_0, !legendre_1. field. Qed.
  Lemma cv_phase l x y : (l < nlayers p)%nat -> -1 <= x <= 1 -> -1 <= y <= 1 -> 0 <= phase_mode p 0 l x y.
  Proof.
    intros Hl Hx Hy. cbn in Hl. unfold phase_mode. rewrite (proj1 cv_sizes). cbn [rsum Nat.leb INR]. rewrite !poch_0, !lpmv_0, !legendre_0, !legendre_1.
    assert (-1 <= x * y <= 1) by nra. destruct l as [|[|l]]; [| |lia]; unfold wphase_s, phase_s, fwd, phase; cbn -[Rle Rlt]; lra.
  Qed.
  Lemma cv_source l t : (l < 2)%nat -> source p l t = s.
  Proof. intros Hl. unfold source. cbn [p_s p p_cv nrow ncol at2]. destruct (Nat.ltb_spec l 2); [|lia]. cbn. ring. Qed.
End CV.
Lemma cv_same n m s b b' : same_problem (p_cv n s b b') (p_cv m s b b'). Proof. constructor; reflexivity. Qed.
Lemma ucont_const c : ucont1 (fun _ => c). Proof. intros e He. exists 1. split; [lra|]. intros. rewrite Rminus_eq_0, Rabs_R0. lra. Qed.
Lemma ucont2_const c : ucont2 (fun _ _ => c). Proof. intros e He. exists 1. split; [lra|]. intros. rewrite Rminus_eq_0, Rabs_R0. lra. Qed.
Lemma RInt_ext1 (f g : R -> R) : (forall x : R, f x = g x) -> RInt f 0 1 = RInt g 0 1.
Proof. intros H. apply RInt_ext. intros x _. apply H. Qed.
Lemma int_affine (a c : R) : is_RInt (fun y => a + c * y) 0 1 (a + c / 2).
Proof.
  replace (a + c / 2) with (minus (a * 1 + c * 1 ^ 2 / 2) (a * 0 + c * 0 ^ 2 / 2)) by (unfold minus, plus, opp; cbn; field).
  apply (is_RInt_derive (V := R_CompleteNormedModule) (fun y => a * y + c * y ^ 2 / 2)).
  - intros x _. auto_derive; [auto|]. field.
  - intros x _. apply (continuous_plus (V := R_NormedModule)); [apply continuous_const|]. apply (continuous_mult (K := R_AbsRing)); [apply continuous_const|apply continuous_id].
Qed.
Lemma cv_surface x : 0 < x <= 1 -> 2 * RInt (fun y => rho12 0%nat x y * y) 0 1 <= 1 / 2.
Proof.
  intros _. unfold rho12. rewrite (RInt_ext1 (fun y => 1/2 * y) (fun y => 0 + 1/2 * y)) by (intros; ring). rewrite (is_RInt_unique _ _ _ _ (int_affine 0 (1/2))). lra.
Qed.
(** In equilibrium the radiation is the same everywhere. *)
Lemma cv_equilibrium n : (2 <= n)%nat -> exact_field (p_cv n 2 2 1) (fun _ => 2) (fun _ => 1) (rho12 0%nat) (fun _ _ => 2).
Proof.
  intros Hn. set (p := p_cv n 2 2 1). constructor.
  - exists 2. intros. rewrite Rabs_pos_eq; lra.
  - intros g t Hg Ht. assert (ex_RInt (fun y => g y * 2) 0 1); [|split; assumption]. apply (ex_RInt_ext (fun y => scal 2 (g y))); [intros; unfold scal; cbn; unfold mult; cbn; ring|]. apply (ex_RInt_scal (V := R_NormedModule)), cont_int, Hg.
  - intros x _. apply cont_on_const.
  - intros l x t Hl Hx Ht. refine (der_eq _ _ _ _ _ (der_const 2 t)). cbn in Hl. set (s0 := scattering p l 0). set (s1 := scattering p l 1).
    rewrite (RInt_ext1 (fun y => scatters p l x y * 2) (fun y => s0 + 3 * s1 * x * y)) by (intros; unfold p; rewrite cv_scatters by (exact Hl || exact Hn); unfold s0, s1, p; field).
    rewrite (RInt_ext1 (fun y => scatters p l x (- y) * 2) (fun y => s0 + - (3 * s1 * x) * y)) by (intros; unfold p; rewrite cv_scatters by (exact Hl || exact Hn); unfold s0, s1, p; field).
    rewrite (is_RInt_unique _ _ _ _ (int_affine s0 (3 * s1 * x))), (is_RInt_unique _ _ _ _ (int_affine s0 (- (3 * s1 * x)))). unfold p. rewrite cv_source by (exact Hl || exact Hn). cbn [p_I0 p_cv]. destruct (cv_sc n 2 2 1 Hn l Hl) as [E0 _]. fold p in E0. fold s0 in E0.
    assert (Ez : scl p l * 2 - (s0 + 3 * s1 * x / 2 + (s0 + - (3 * s1 * x) / 2)) - (1 - albedo p l) * 2 = 0).
    { rewrite E0. unfold scl, albedo, fwd. destruct l as [|[|l]]; [| |lia]; cbn; field. }
    fold p. destruct Hx as [_ Hx]. unfold Rdiv in *. rewrite Rmult_0_l.
 match goal with |- _ = ?e * / x => replace e with (scl p l * 2 - (s0 + 3 * s1 * x * / 2 + (s0 + - (3 * s1 * x) * / 2)) - (1 - albedo p l) * 2) by ring end. rewrite Ez. ring.
  - reflexivity.
  - intros x Hx. cbn [p_BDRF p p_cv length Nat.ltb Nat.leb p_I0]. unfold rho12. rewrite (RInt_ext1 (fun y => 1/2 * y * 2) (fun y => 0 + 1 * y)) by (intros; field). rewrite (is_RInt_unique _ _ _ _ (int_affine 0 1)). rewrite Rmult_0_r. unfold Rdiv. rewrite !Rmult_0_l. lra.
Qed.
