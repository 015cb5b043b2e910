(** Consequences for the exact radiation: its average over azimuth, its symmetry about the sun. *)
From Coq Require Import String Reals Lra Lia List Bool Arith ZArith.
From Coquelicot Require Import Coquelicot.
From Verif Require Import Base Tensor Spec M_LinAlg Spec_RTE Calc M_Subroutines M_GenPart M_MathscrV M_Coeffs M_Assemble M_Pydisort
  Spec_Sol Spec_Valid Spec_Calls Spec_Unique Spec_Phys Spec_Mono Spec_Depend Spec_Exact P_Special P_Addition P_Quad P_Fourier P_Sub P_Pydisort2 P_Pydisort3 P_Pydisort4 P_Max P_Max2 P_Max3 P_Mono P_Depend P_Depend2 Spec_Full Spec_Azimuth Spec_Solved Spec_Sun Spec_Lossy P_Full P_Gauss P_Conv P_Conv2 P_Conv3 P_Exist P_Exist4 P_Az1 P_Az2 P_Az3 P_Az4 P_Az5 P_Conv4 P_Conv5 P_Az6 Examples5.
Import ListNotations.
Local Open Scope R_scope.

Section Mean.
  Variables (p : py_in) (V : valid p) (bn bp : R -> R) (rho : nat -> R -> R -> R) (r : R).
  Hypothesis Hf : forall l, (l < nlayers p)%nat -> fwd p l < 1.
  Hypothesis Hph : phase_positive p.
  Hypothesis AS : absorbing_surface p rho r.
  Hypothesis Cn : ucont1 bn.
  Hypothesis Cp : ucont1 bp.

  Lemma mode0_field J : gfield p (Km p 0) (Gm p 0) (bnm bn 0) (bpm p bp rho 0) (Rm p rho 0) J -> exact_field p bn bp (rho 0%nat) J.
  Proof.
    intros [(M & HM & F1 & F2) F3 F4 F5 F6]. constructor.
    - exists M. exact F1.
    - exact F2.
    - exact F3.
    - intros l x t Hl Hx Ht. refine (der_eq _ _ _ _ _ (F4 l x t Hl Hx Ht)). f_equal. unfold gsrc, gin, Gm, ec. cbn [Nat.eqb]. rewrite (scatters_K p V l x (- p_mu0 p) Hl (Hf l Hl)).
      rewrite (RInt_ext1 (fun y => scatters p l x y * J y t) (fun y => Km p 0 l x y * J y t)) by (intros; rewrite (scatters_K p V) by auto; reflexivity).
      rewrite (RInt_ext1 (fun y => scatters p l x (- y) * J (- y) t) (fun y => Km p 0 l x (- y) * J (- y) t)) by (intros; rewrite (scatters_K p V) by auto; reflexivity). ring.
    - exact F5.
    - intros x Hx. rewrite (F6 x Hx). pose proof (bottom_pos p V) as HT. pose proof (ucont2_c (Rm p rho 0) x (Rm_uc p rho (as_continuous _ _ _ AS) 0) ltac:(lra)) as CR. destruct (F2 (Rm p rho 0 x) (bottom p) CR ltac:(lra)) as [_ XR]. unfold bpm. cbn [Nat.eqb]. destruct (Nat.ltb 0 (length (p_BDRF p))) eqn:EB.
      + rewrite (RInt_ext1 (fun y => rho 0%nat x y * y * J (- y) (bottom p)) (fun y => scal (1 / 2) (Rm p rho 0 x y * J (- y) (bottom p)))) by (intros; unfold Rm; rewrite EB; cbn [Nat.eqb]; unfold scal; cbn; unfold mult; cbn; field).
        assert (E : RInt (fun y => scal (1 / 2) (Rm p rho 0 x y * J (- y) (bottom p))) 0 1 = 1 / 2 * RInt (fun y => Rm p rho 0 x y * J (- y) (bottom p)) 0 1) by exact (RInt_scal (V := R_CompleteNormedModule) _ _ _ _ XR).
        rewrite E. field. apply PI_neq0.
      + rewrite (RInt_ext1 (fun y => Rm p rho 0 x y * J (- y) (bottom p)) (fun _ => 0)) by (intros; unfold Rm; rewrite EB; ring). rewrite RInt_const. unfold scal; cbn; unfold mult; cbn. ring.
  Qed.
  Lemma Fsum_mean N J x t : (0 < N)%nat -> is_RInt (fun a => Fsum p N J x t a) 0 (2 * PI) (2 * PI * J 0%nat x t).
  Proof.
    intros HN. pose proof (int_series N (fun m => J m x t) (fun m => if Nat.eqb m 0 then 1 else 0) (p_phi0 p) 0) as X.
    eapply (is_RInt_ext (V:=R_NormedModule)) in X.
    - eapply (eq_ind _ (fun z : R => is_RInt _ _ _ z) X). rewrite (rsum_single N 0); [cbn [Nat.eqb INR]; rewrite ?Rmult_0_l, ?cos_0; ring|lia|]. intros m Hm Hne. rewrite (proj2 (Nat.eqb_neq m 0)) by auto. ring.
    - intros z _. cbv beta. rewrite (rsum_single N 0 (fun k => (if Nat.eqb k 0 then 1 else 0) * _)); [|lia|intros m Hm Hne; rewrite (proj2 (Nat.eqb_neq m 0)) by auto; ring]. cbn [Nat.eqb INR]. rewrite Rmult_0_l, cos_0, !Rmult_1_r. unfold Fsum. apply rsum_ext. intros m Hm. ring.
  Qed.
  Theorem intensity_mean f : exact_intensity p bn bp rho f -> exists J, exact_field p bn bp (rho 0%nat) J /\
    forall x t, direction x -> 0 <= t <= bottom p -> is_RInt (fun a => f x t a) 0 (2 * PI) (2 * PI * J x t).
  Proof.
    intros EF. set (N := (ncoeffs p + length (p_BDRF p))%nat). pose proof (nc0 p V) as N0. destruct (modes_ex p V bn bp rho r Hf Hph AS Cn Cp N) as (J & HJ).
    pose proof (Fsum_exact p V bn bp rho r AS N J ltac:(lia) ltac:(lia) HJ) as EF'. exists (J 0%nat). split; [apply mode0_field, HJ; lia|].
    intros x t Hx Ht. eapply (is_RInt_ext (V:=R_NormedModule)); [|apply (Fsum_mean N J x t); lia]. intros a _. symmetry. apply (intensity_unique p V bn bp rho r Hf Hph AS f _ EF EF'); auto.
  Qed.
  Theorem intensity_mirror f : exact_intensity p bn bp rho f -> forall x t a, direction x -> 0 <= t <= bottom p -> f x t (p_phi0 p + a) = f x t (p_phi0 p - a) /\ f x t (a + 2 * PI) = f x t a.
  Proof.
    intros EF x t a Hx Ht. set (N := (ncoeffs p + length (p_BDRF p))%nat). destruct (modes_ex p V bn bp rho r Hf Hph AS Cn Cp N) as (J & HJ).
    pose proof (Fsum_exact p V bn bp rho r AS N J ltac:(lia) ltac:(lia) HJ) as EF'. rewrite !(intensity_unique p V bn bp rho r Hf Hph AS f _ EF EF') by auto. split; [|apply F_turn].
    unfold Fsum. apply rsum_ext. intros m Hm. f_equal. replace (INR m * (p_phi0 p - (p_phi0 p + a))) with (- (INR m * (p_phi0 p - (p_phi0 p - a)))) by ring. apply cos_neg.
  Qed.
  Theorem intensity_determined : (exists f, exact_intensity p bn bp rho f) /\ forall f f', exact_intensity p bn bp rho f -> exact_intensity p bn bp rho f' ->
    forall x t phi, direction x -> 0 <= t <= bottom p -> f x t phi = f' x t phi.
  Proof. split; [exact (intensity_exists p V bn bp rho r Hf Hph AS Cn Cp)|exact (intensity_unique p V bn bp rho r Hf Hph AS)]. Qed.
End Mean.
