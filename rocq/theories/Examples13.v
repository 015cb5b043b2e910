(** Corrected intensities with several beams: examples. *)
From Coq Require Import String Reals Lra Lia List Bool Arith ZArith.
From Coquelicot Require Import Coquelicot.
From Verif Require Import Base Tensor Spec M_LinAlg Spec_RTE M_Subroutines M_Assemble M_Pydisort Spec_Sol Spec_Valid Spec_Calls Spec_Phys Spec_Solved Spec_Sun Spec_Rates Spec_Lossy Spec_NT Spec_NTMean
  P_Gauss P_Sub P_Pydisort2 P_Pydisort3 P_Pydisort4 P_Rates2 P_Lossy2 P_Lossy3 P_Orth3 Examples5 Examples6.
Import ListNotations.
Local Open Scope R_scope.

(** Two layers with forward peaks, corrections on; the beam [x] and the light [c] from above. *)
Definition p_sp (x c ph : R) : py_in := {|
  p_tau := [1; 3]; p_omega := [1/2; 1/4]; p_NQuad := 2;
  p_Leg := mkA2 2 3 (fun l k => match k with 0%nat => 1 | 1%nat => 1/2 | _ => 1/3 end);
  p_mu0 := 1/5; p_I0 := x; p_phi0 := ph; p_NLeg := None; p_NFourier := None;
  p_bpos := t0 0; p_bneg := t0 c; p_only_flux := false; p_f := [1/4; 1/4]; p_NT := true;
  p_BDRF := [MScal (3/4)]; p_s := mkA2 2 1 (fun _ _ => 0); p_banded := 10; p_autograd := false |}.
Section Sp.
  Variables x c ph : R.
  Hypothesis Hx : 0 <= x.
  Hypothesis Hph : 0 <= ph < 2 * PI.
  Local Notation p := (p_sp x c ph).
  Lemma sp_valid : valid p.
  Proof.
    constructor; cbn -[Rlt Rle PI pow].
    - lia.
    - intros [|[|l]] Hl; cbn; [lra|lra|lia].
    - intros [|[|l]] Hl; cbn; [lra|lra|lia].
    - intros w [<-|[<-|[]]]; lra.
    - lia.
    - reflexivity.
    - reflexivity.
    - reflexivity.
    - reflexivity.
    - intros l k Hl Hk. destruct k as [|[|k]]; [lia| |]; cbn; lra.
    - lia.
    - reflexivity.
    - lia.
    - lia.
    - exact Hx.
    - intros _. lra.
    - intros _. exact Hph.
    - right; left; reflexivity.
    - right; left; reflexivity.
    - intros f [<-|[<-|[]]]; lra.
    - lia.
  Qed.
  Lemma sp_wf : well_formed p rho34.
  Proof.
    constructor.
    - apply sp_valid.
    - exists (fun _ => 0). apply bc_zero; auto.
    - exists (fun _ => c). apply bc_scal; auto.
    - intros [|m] Hm; [|cbn in Hm; lia]. left. exists (3/4). auto.
    - intros _. right. reflexivity.
    - intros (l & j & _ & _ & H). exfalso. apply H. reflexivity.
    - intros _ mu w i HD Hi. change (half p) with 1%nat in HD, Hi. destruct (dg_one mu w HD) as (-> & _). assert (i = 0%nat) as -> by lia. cbn. rewrite Rabs_right; lra.
  Qed.
  Lemma sp_opt : (albedo_s p 0 = 3/7 /\ phase_s p 0 1 = 1/3) /\ albedo_s p 1 = 1/5 /\ phase_s p 1 1 = 1/3.
  Proof. unfold albedo_s, phase_s, scl, albedo, fwd, phase; cbn -[Rle Rlt]. repeat split; field. Qed.
  Lemma sp_answer jk : exists out, pydisort p gauss_rule la_full jk = Ok out.
  Proof.
    apply (two_iff p rho34 gauss_rule la_full jk); [apply sp_wf|reflexivity| |apply gauss_rule_ok|exact la_full_ok|exact la_full_unique|exact la_full_complete|exact la_full_total|].
    - intros m _ _. unfold rho34. rewrite Rabs_right by lra. destruct (Nat.eqb m 0); lra.
    - intros m l Hm Hl _. destruct sp_opt as ((E1 & E2) & E3 & E4).
      unfold rate2. change (ncoeffs p) with 2%nat. cbv zeta. change (p_mu0 p) with (1/5). cbn [Nat.eqb].
      destruct l as [|[|l]]; [rewrite E1, E2|rewrite E3, E4|cbn in Hl; lia]; destruct (Nat.eqb m 0); (split; [lra|intros _; lra]).
  Qed.
  Lemma sp_data : boundary_data p (fun _ => c) (fun _ => 0) rho34 \/ c < 0.
  Proof.
    destruct (Rlt_le_dec c 0) as [H|H]; [right; exact H|left]. constructor.
    - apply bc_scal; auto.
    - apply bc_zero; auto.
    - intros [|m] Hm; [|cbn in Hm; lia]. left. exists (3/4). auto.
    - left. split; intros idx _; cbn; lra.
  Qed.
  Lemma sp_mu jk out : pydisort p gauss_rule la_full jk = Ok out -> po_mu out = [1/2; -1/2].
  Proof.
    intros H. destruct (pydisort_parts _ _ _ _ _ H) as (V & ss & r & sv & _ & _ & _ & E & _). rewrite E.
    pose proof (mu_arr_gauss p gauss_rule (proj1 (gauss_rule_ok _))) as D. change (half p) with 1%nat in D. exact (proj1 (dg_one _ _ D)).
  Qed.
  Lemma sp_finite : 0 < x -> nt_finite p [1/2; -1/2].
  Proof.
    intros H. split; [|split].
    - split; [reflexivity|]. split; [reflexivity|]. split; [exact H|]. split; [exists (1/4); cbn; split; [auto|lra]|]. split; [cbn; lia|]. exists (1/2). cbn. split; [auto|lra].
    - exists 0%nat. split; [cbn; lia|]. unfold fwd, albedo. cbn. lra.
    - intros i Hi. change (half p) with 1%nat in Hi. assert (i = 0%nat) as -> by lia. unfold mu0_s, wavg, favg, albedo, fwd, bot_of. cbn -[Rle]. intros E. field_simplify in E. lra.
  Qed.
  Lemma sp_args : nt_args p [1/2; 2] [0].
  Proof.
    split; [discriminate|]. split; [intros t [<-|[<-|[]]]; unfold bottom; cbn; lra|]. split; [|right; reflexivity].
    intros t _. unfold fwd. change (p_f p) with [1/4; 1/4]. generalize (lay p t). intros [|[|[|n]]]; cbn; lra.
  Qed.
End Sp.
(** The mean of the source lost in the upper layer. *)
Lemma sp_mean c ph : mean_missing (p_sp 1 c ph) 0 (nth 0 [1/2; -1/2] 0) <> 0.
Proof.
  unfold mean_missing. destruct (sp_opt 1 c ph) as ((-> & _) & _). change (fwd (p_sp 1 c ph) 0) with (1/4). change (p_I0 (p_sp 1 c ph)) with 1. change (ncol (p_Leg (p_sp 1 c ph))) with 3%nat. change (p_mu0 (p_sp 1 c ph)) with (1/5).
  unfold removed. change (ncoeffs (p_sp 1 c ph)) with 2%nat. change (fwd (p_sp 1 c ph) 0) with (1/4). cbn [rsum Nat.ltb Nat.leb nth].
  change (phase (p_sp 1 c ph) 0 2) with (1/3). rewrite !P_Special.legendre_0, !P_Special.legendre_1.
  assert (E : forall x, legendre 2 x = (3 * x ^ 2 - 1) / 2).
  { intros x. pose proof (P_Special.legendre_rec 0 x) as H. rewrite P_Special.legendre_0, P_Special.legendre_1 in H. cbn [INR] in H. lra. }
  rewrite !E. cbn [INR]. pose proof PI_RGT_0. apply Rmult_integral_contrapositive_currified; [|lra].
  unfold Rdiv. apply Rmult_integral_contrapositive_currified; [lra|]. apply Rinv_neq_0_compat. nra.
Qed.
