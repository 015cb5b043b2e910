(** A layer that scatters weakly, with its thickness and albedo as parameters. Models no function of /repo. *)
From Coq Require Import String Reals Lra Lia List Bool Arith ZArith.
From Coquelicot Require Import Coquelicot.
From Verif Require Import Base Tensor Spec M_LinAlg Spec_RTE Calc M_Subroutines M_Assemble M_Pydisort P_Sub3 P_Special Spec_Sol Spec_Valid P_Valid P_Pydisort P_Pydisort2 P_Pydisort4 P_Pydisort6 P_Pydisort8 P_Unique2 P_Max3 P_Max4
  Spec_Calls Spec_Phys Spec_Solved Spec_Mono Spec_Depend P_Spec6 P_Spec7 Spec_Full P_Addition P_Full P_Full2 P_Full3 Examples Examples2 Examples3 Examples5 Examples6.
Import ListNotations.
Local Open Scope R_scope.

(** One layer of thickness [T] that scatters the share [a] equally in all directions, lit from above, over a black surface. *)
Definition p_wk (T a : R) : py_in := {|
  p_tau := [T]; p_omega := [a]; p_NQuad := 2;
  p_Leg := mkA2 1 2 (fun l k => match k with 0%nat => 1 | _ => 0 end);
  p_mu0 := 0; p_I0 := 0; p_phi0 := 0; p_NLeg := None; p_NFourier := None;
  p_bpos := t0 0; p_bneg := t0 1; p_only_flux := false; p_f := [0]; p_NT := false;
  p_BDRF := []; p_s := mkA2 1 1 (fun _ _ => 0); p_banded := 10; p_autograd := false |}.

Section Wk.
  Variables (T a : R).
  Hypothesis HT : 0 < T.
  Hypothesis Ha : 0 <= a < 1.
  Let p := p_wk T a.

  Lemma wk_valid : valid p.
  Proof.
    constructor; cbn -[Rlt Rle PI INR].
    - lia.
    - intros [|l] Hl; cbn; try lra; lia.
    - intros [|l] Hl; cbn; try lra; lia.
    - intros w [<-|[]]; lra.
    - lia.
    - reflexivity.
    - reflexivity.
    - reflexivity.
    - reflexivity.
    - intros [|l] [|[|k]] Hl Hk; try lia; lra.
    - lia.
    - reflexivity.
    - lia.
    - lia.
    - lra.
    - intros H. lra.
    - intros H. lra.
    - right; left; reflexivity.
    - right; left; reflexivity.
    - intros f [<-|[]]; lra.
    - lia.
  Qed.
  Lemma wk_scl l : (l < 1)%nat -> scl p l = 1 /\ albedo_s p l = a /\ fwd p l = 0 /\ albedo p l = a.
  Proof. intros Hl. destruct l as [|l]; [|lia]. unfold albedo_s, scl, albedo, fwd. cbn. repeat split; field. Qed.
  Lemma wk_wphase l k : (l < 1)%nat -> wphase_s p l k = if Nat.eqb k 0 then 1 else 0.
  Proof.
    intros Hl. unfold wphase_s, phase_s. destruct (wk_scl l Hl) as (_ & _ & -> & _). unfold phase. destruct l as [|l]; [|lia]. destruct k as [|k]; cbn -[INR]; [cbn; field|].
    destruct k; cbn -[INR]; field.
  Qed.
  Lemma wk_D wg x y : (forall k, (1 <= k)%nat -> wg k = 0) -> D_spec a wg 2 0 x y = a / 2 * wg 0%nat.
  Proof. intros H. unfold D_spec. cbn [rsum Nat.leb]. rewrite (H 1%nat) by lia. unfold poch_term, lpmv. cbn. field. Qed.
  Lemma wk_phase l x y : (l < 1)%nat -> phase_mode p 0 l x y = 1.
  Proof. intros Hl. unfold phase_mode. change (ncoeffs p) with 2%nat. cbn [rsum Nat.leb]. rewrite !wk_wphase by exact Hl. unfold poch_term, lpmv. cbn. field. Qed.
  Lemma wk_phase_at l z : (l < 1)%nat -> phase_at p l z = 1.
  Proof.
    intros Hl. pose proof (wk_wphase l 0 Hl) as E0. pose proof (wk_wphase l 1 Hl) as E1. unfold wphase_s in E0, E1. cbn in E0, E1. unfold phase_at. change (ncoeffs p) with 2%nat. cbn [rsum]. unfold legendre, legendre_poly. cbn. nra.
  Qed.
  Lemma wk_refl mu w rho i : reflectance p mu w rho i = 0.
  Proof. reflexivity. Qed.
  Lemma wk_physical mu w rho : double_gauss (half p) mu w -> physical p mu w rho.
  Proof.
    intros HD. constructor.
    - intros l i j phi Hl _ Hi Hj. pose proof (node p wk_valid mu w HD i) as Ni. pose proof (node p wk_valid mu w HD j) as Nj. change (half p) with 1%nat in Ni, Nj. change (streams p) with 2%nat in Hi, Hj.
      pose proof (phase_modes p l (nth i mu 0) phi (nth j mu 0) 0 ltac:(cbn; lia) (proj1 (Ni Hi)) (proj1 (Nj Hj))) as X. rewrite Rminus_0_r in X.
      unfold phase_fn. unfold ec in X. rewrite <- X. rewrite wk_phase_at by exact Hl. lra.
    - intros i j phi Hi Hj. unfold surface_fn. cbn [length p_BDRF p p_wk rsum]. lra.
    - intros i Hi. rewrite wk_refl. lra.
  Qed.
  Lemma wk_input rho : physical_input p rho.
  Proof.
    constructor.
    - exact wk_valid.
    - exists (fun _ => 0). apply bc_scal; auto.
    - exists (fun _ => 1). apply bc_scal; auto.
    - intros m Hm. cbn in Hm. lia.
    - intros _. right. reflexivity.
    - intros (i & j & _ & _ & H). destruct H. reflexivity.
    - discriminate.
    - intros mu w. apply wk_physical.
  Qed.
  Lemma wk_ok jk : exists out, pydisort p lg_12 la_full jk = Ok out.
  Proof. apply (posed_iff p (fun _ _ _ => 0) lg_12 la_full jk (wk_input _) lg_12_ok1 la_full_ok la_full_unique la_full_complete la_full_total). intros H. cbn in H. lra. Qed.
  Lemma wk_bd rho : boundary_data p (fun _ => 1) (fun _ => 0) rho.
  Proof.
    constructor.
    - apply bc_scal; reflexivity.
    - apply bc_scal; reflexivity.
    - intros m Hm. cbn in Hm. lia.
    - left. split; intros idx _; cbn; lra.
  Qed.
  Lemma wk_source l t : source p l t = 0.
  Proof. unfold source. destruct (Nat.ltb l (nrow (p_s p))); [|reflexivity]. cbn. lra. Qed.
  Lemma wk_nonneg mu : phase_nonneg p mu /\ beam_phase_nonneg p mu.
  Proof.
    split; [|intros H; cbn in H; lra].
    intros l i j Hl Hi Hj. rewrite wk_phase by exact Hl. lra.
  Qed.
  Lemma wk_passive mu w : passive_surface p mu w (fun _ _ => 0).
  Proof. constructor; intros; rewrite ?wk_refl; lra. Qed.

  (** The mean intensity upwards and downwards. *)
  Lemma wk_system lg la jk out U : linalg_ok la -> leggauss_ok (half p) (lg (half p)) -> pydisort p lg la jk = Ok out -> modes_of p out U ->
    let k := if Rle_dec a (2 / 100000000) then 0 else a in
    cont_on 0 T (U 0%nat 0%nat) /\ cont_on 0 T (U 0%nat 1%nat) /\ U 0%nat 1%nat 0 = 1 /\ U 0%nat 0%nat T = 0 /\
    (forall t, 0 < t < T -> is_derive (U 0%nat 0%nat) t (2 * U 0%nat 0%nat t - k * (U 0%nat 0%nat t + U 0%nat 1%nat t))) /\
    (forall t, 0 < t < T -> is_derive (U 0%nat 1%nat) t (- 2 * U 0%nat 1%nat t + k * (U 0%nat 0%nat t + U 0%nat 1%nat t))) /\
    (forall i t, (i < 2)%nat -> 0 <= t <= T -> 0 <= U 0%nat i t).
  Proof.
    intros Hla Hlg H HU k. destruct (call_rte p lg la jk out Hla Hlg H U HU) as (w & HD & HR). destruct (dg_one _ _ HD) as (Em & Ew).
    pose proof (bd_bvp p lg la jk out Hla Hlg H w _ _ _ HD (wk_bd (fun _ _ _ => 0)) U 0 HU (seen_0 p wk_valid)) as [B1 B2 B3 B4].
    assert (HW : is_cutoff (albedo_s p 0) (wphase_s p 0) (ncoeffs p) 0 (fun j => if Nat.eqb j 0 then (if Rle_dec a (2 / 100000000) then 0 else 1) else 0)).
    { destruct (wk_scl 0 ltac:(lia)) as (_ & -> & _). assert (N : negligible a (wphase_s p 0) (ncoeffs p) 0 <-> a <= 2 / 100000000).
      { unfold negligible. change (ncoeffs p) with 2%nat. split.
        - intros X. specialize (X 0%nat ltac:(lia)). rewrite wk_wphase in X by lia. cbn [Nat.eqb] in X. rewrite Rabs_right in X by lra. lra.
        - intros X j Hj. rewrite wk_wphase by lia. destruct (Nat.eqb j 0); [rewrite Rabs_right by lra; lra|]. rewrite Rmult_0_r, Rabs_R0. lra. }
      split; intros X j; rewrite N in X.
      - destruct (Nat.eqb j 0); [|reflexivity]. destruct (Rle_dec a (2 / 100000000)); [reflexivity|tauto].
      - rewrite wk_wphase by lia. destruct (Nat.eqb j 0); [|reflexivity]. destruct (Rle_dec a (2 / 100000000)); [tauto|reflexivity]. }
    assert (HX : forall i t, (i < 2)%nat -> 0 < t < T -> is_derive (U 0%nat i) t ((U 0%nat i t - k / 2 * (U 0%nat 0%nat t + U 0%nat 1%nat t)) / nth i [1/2; -1/2] 0)).
    { intros i t Hi Ht. specialize (B1 0%nat i _ t ltac:(cbn; lia) Hi Ht HW). rewrite Em in B1. refine (der_eq _ _ _ _ _ B1). f_equal. unfold rte. cbn [Nat.eqb].
      destruct (wk_scl 0 ltac:(lia)) as (-> & -> & _ & _). rewrite wk_source. unfold X_spec. change (p_I0 p) with 0. change (streams p) with 2%nat. change (ncoeffs p) with 2%nat. cbn [rsum]. rewrite !wk_D by (intros [|j] Hj; [lia|reflexivity]).
      unfold wnode. change (half p) with 1%nat. cbn [Nat.ltb Nat.leb Nat.sub Nat.eqb]. rewrite Ew. unfold k. destruct (Rle_dec a (2 / 100000000)); field; apply PI_neq0. }
    split; [exact (B2 0%nat ltac:(cbn; lia))|]. split; [exact (B2 1%nat ltac:(cbn; lia))|].
    split; [exact (B3 0%nat ltac:(cbn; lia))|]. split; [|split; [|split]].
    - pose proof (B4 0%nat ltac:(cbn; lia)) as X. cbn [length p_BDRF p p_wk Nat.ltb Nat.leb Nat.eqb] in X. rewrite Rplus_0_r in X. exact X.
    - intros t Ht. refine (der_eq _ _ _ _ _ (HX 0%nat t ltac:(lia) Ht)). cbn [nth]. field.
    - intros t Ht. refine (der_eq _ _ _ _ _ (HX 1%nat t ltac:(lia) Ht)). cbn [nth]. field.
    - intros i t Hi Ht. destruct (wk_nonneg (po_mu out)) as (P1 & P2).
      apply (modes_nonneg p lg la jk out Hla Hlg H w _ _ _ HD (wk_bd (fun _ _ _ => 0)) P1 (wk_passive _ _) U P2); auto; intros; rewrite ?wk_source; lra.
  Qed.
End Wk.
