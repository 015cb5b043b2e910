(** Anisotropic atmospheres that differ in the albedo of the upper layer, of which every azimuthal mode is reported. Models no function of /repo. *)
From Coq Require Import String Reals Lra Lia List Bool Arith ZArith.
From Coquelicot Require Import Coquelicot.
From Verif Require Import Base Tensor Spec M_LinAlg Spec_RTE Calc M_Subroutines M_Assemble M_Pydisort P_Sub3 P_Special Spec_Sol Spec_Valid P_Valid P_Pydisort P_Pydisort2 P_Pydisort6 P_Pydisort8 P_Unique2 P_Max4
  Spec_Calls Spec_Phys Spec_Solved P_Spec6 P_Spec7 Spec_Full P_Addition P_Full P_Full2 P_Full3 Spec_Depend Spec_DependAz Examples Examples2 Examples3 Examples5 Examples6.
Import ListNotations.
Local Open Scope R_scope.

(** Two layers that scatter forward, over a reflecting surface, lit by a beam, by diffuse sources
    from above and below and by the emission of the layers. *)
Definition p_da (om I0 bp bn s : R) : py_in := {|
  p_tau := [1; 3]; p_omega := [om; 9/10]; p_NQuad := 2;
  p_Leg := mkA2 2 3 (fun l k => match k with 0%nat => 1 | 1%nat => (match l with 0%nat => 2/5 | _ => 1/4 end) | _ => 1/10 end);
  p_mu0 := 1/5; p_I0 := I0; p_phi0 := 0; p_NLeg := None; p_NFourier := None;
  p_bpos := t0 bp; p_bneg := t0 bn; p_only_flux := false; p_f := [1/4; 0]; p_NT := false;
  p_BDRF := [MScal (1/2)]; p_s := mkA2 2 1 (fun _ _ => s); p_banded := 10; p_autograd := false |}.

Section Da.
  Variables (om I0 bp bn s : R).
  Hypothesis Hom : 4/5 <= om <= 81/100.
  Hypothesis HI : 0 <= I0.
  Hypothesis Hbp : 0 < bp.
  Hypothesis Hbn : 0 < bn.
  Let p := p_da om I0 bp bn s.

  Lemma da_valid : valid p.
  Proof.
    constructor; cbn -[Rlt Rle PI INR].
    - lia.
    - intros [|[|l]] Hl; cbn; try lra; lia.
    - intros [|[|l]] Hl; cbn; try lra; lia.
    - intros w [<-|[<-|[]]]; lra.
    - lia.
    - reflexivity.
    - reflexivity.
    - reflexivity.
    - reflexivity.
    - intros [|l] [|[|k]] Hl Hk; try lia; lra.
    - lia.
    - reflexivity.
    - lia.
    - lia.
    - exact HI.
    - intros _. lra.
    - intros _. pose proof PI_RGT_0. lra.
    - right; left; reflexivity.
    - right; left; reflexivity.
    - intros f [<-|[<-|[]]]; lra.
    - lia.
  Qed.
  Lemma da_ab l : (l < 2)%nat -> 1/2 <= albedo_s p l <= 9/10 /\ 1/5 <= phase_s p l 1 <= 1/4 /\ phase_s p l 0 = 1.
  Proof.
    intros Hl. destruct l as [|[|l]]; [| |lia]; unfold albedo_s, phase_s, scl, albedo, fwd, phase; cbn -[Rle Rlt].
    - split; [|split; [|field]]; try lra. replace ((1 - 1 / 4) * om / (1 - om * (1 / 4))) with (3 * om / (4 - om)) by (field; lra).
      split; apply (Rmult_le_reg_r (4 - om)); try lra; replace (3 * om / (4 - om) * (4 - om)) with (3 * om) by (field; lra); lra.
    - split; [|split; [|field]]; lra.
  Qed.
  Lemma da_phase_at l c : (l < 2)%nat -> phase_at p l c = 1 + 3 * phase_s p l 1 * c.
  Proof. intros Hl. destruct (da_ab l Hl) as (_ & _ & H0). unfold phase_at. change (ncoeffs p) with 2%nat. cbn [rsum]. rewrite H0. unfold legendre, legendre_poly. cbn. field. Qed.
  Lemma da_positive : phase_positive p.
  Proof. intros l c Hl _ Hc. change (nlayers p) with 2%nat in Hl. rewrite da_phase_at by exact Hl. destruct (da_ab l Hl) as (_ & H & _). nra. Qed.
  Lemma da_physical mu w : double_gauss (half p) mu w -> physical p mu w (fun _ _ _ => 1/2).
  Proof.
    intros HD. pose proof HD as HD'. change (half p) with 1%nat in HD'. destruct (dg_one mu w HD') as (E & Ew). constructor.
    - intros l i j phi Hl Ha Hi Hj. pose proof (node p da_valid mu w HD i) as Ni. pose proof (node p da_valid mu w HD j) as Nj. change (half p) with 1%nat in Ni, Nj. change (streams p) with 2%nat in Hi, Hj.
      pose proof (phase_modes p l (nth i mu 0) phi (nth j mu 0) 0 ltac:(cbn; lia) (proj1 (Ni Hi)) (proj1 (Nj Hj))) as X. rewrite Rminus_0_r in X.
      unfold phase_fn. unfold ec in X. rewrite <- X. apply da_positive; auto. apply nu_range; [apply Ni|apply Nj]; auto.
    - intros i j phi Hi Hj. unfold surface_fn. cbn [length p_BDRF p p_da rsum INR]. rewrite Rmult_0_l, cos_0. lra.
    - intros [|i] Hi; [|change (half p) with 1%nat in Hi; lia]. unfold reflectance. change (half p) with 1%nat. cbn. rewrite E, Ew. cbn. lra.
  Qed.
  Lemma da_input : physical_input p (fun _ _ _ => 1/2).
  Proof.
    constructor.
    - exact da_valid.
    - exists (fun _ => bp). apply bc_scal; auto.
    - exists (fun _ => bn). apply bc_scal; auto.
    - intros [|m] Hm; [|cbn in Hm; lia]. left. exists (1/2). auto.
    - intros _. right. reflexivity.
    - intros _. right; right. exists []. split; [exact I|]. cbn. exact Hbn.
    - discriminate.
    - exact da_physical.
  Qed.
  Lemma da_free : no_resonance p.
  Proof.
    intros _ mu w m l HD Hm Hl. apply (far_free p mu w (fun _ _ _ => 1/2) l da_valid HD (da_physical mu w HD)); [cbn; lra|exact Hl|].
    intros i Hi. change (half p) with 1%nat in *. destruct (dg_one mu w HD) as (-> & _). destruct i as [|i]; [|lia]. destruct (da_ab l Hl) as ((_ & H) & _).
    cbn [nth p_mu0 p p_da]. rewrite Rabs_left; lra.
  Qed.
  Lemma da_ok jk : exists out, pydisort p lg_12 la_full jk = Ok out.
  Proof. apply (posed_iff p (fun _ _ _ => 1/2) lg_12 la_full jk da_input lg_12_ok1 la_full_ok la_full_unique la_full_complete la_full_total). exact da_free. Qed.
  Lemma da_modes : all_modes p.
  Proof.
    constructor.
    - intros (E & _). discriminate.
    - reflexivity.
    - cbn. lia.
    - intros l k Hl Hk. change (nlayers p) with 2%nat in Hl. change (ncoeffs p) with 2%nat in Hk. destruct (da_ab l Hl) as (H1 & H2 & H0). right. unfold wphase_s.
      destruct k as [|[|k]]; [rewrite H0; cbn [INR]; rewrite Rabs_right; nra|cbn [INR]; rewrite Rabs_right; nra|lia].
  Qed.
  Lemma da_surface mu w : double_gauss (half p) mu w -> surface_positive p mu w (fun _ _ _ => 1/2) /\ forall i, (i < half p)%nat -> reflectance p mu w (fun _ _ => 1/2) i = 1/2.
  Proof.
    intros HD. change (half p) with 1%nat in HD. destruct (dg_one mu w HD) as (E & Ew).
    assert (R : forall i, (i < half p)%nat -> reflectance p mu w (fun _ _ => 1/2) i = 1/2).
    { intros [|i] Hi; [|change (half p) with 1%nat in Hi; lia]. unfold reflectance. change (half p) with 1%nat. cbn. rewrite E, Ew. cbn. lra. }
    split; [|exact R]. constructor.
    - intros i j x y _ _. unfold surface_at. cbn [length p_BDRF p p_da rsum INR]. rewrite Rmult_0_l, cos_0. lra.
    - intros _ i x _. unfold surface_at. cbn [length p_BDRF p p_da rsum INR]. rewrite Rmult_0_l, cos_0. lra.
    - intros i Hi. rewrite R by exact Hi. lra.
  Qed.
  Lemma da_bd : boundary_data p (fun _ => bn) (fun _ => bp) (fun _ _ _ => 1/2).
  Proof.
    constructor.
    - apply bc_scal; auto.
    - apply bc_scal; auto.
    - intros [|m] Hm; [|cbn in Hm; lia]. left. exists (1/2). auto.
    - left. split; intros idx _; cbn; lra.
  Qed.
  Lemma da_source l t : (l < nlayers p)%nat -> source p l t = s.
  Proof. intros Hl. unfold source. change (nrow (p_s p)) with 2%nat. change (nlayers p) with 2%nat in Hl. rewrite (proj2 (Nat.ltb_lt _ _) Hl). cbn. ring. Qed.
  Lemma da_facts jk out : pydisort p lg_12 la_full jk = Ok out -> exists u w, po_u out = Some u /\ double_gauss (half p) (po_mu out) w /\ surface_positive p (po_mu out) w (fun _ _ _ => 1/2) /\
    forall i, (i < half p)%nat -> reflectance p (po_mu out) w (fun _ _ => 1/2) i = 1/2.
  Proof.
    intros H. destruct (pydisort_parts _ _ _ _ _ H) as (_ & ss & r & sv & _ & _ & _ & Em & _ & _ & _ & Hu). pose proof (mu_arr_gauss p lg_12 lg_12_ok1) as HD. rewrite <- Em in HD.
    eexists. exists (quad_W p lg_12). split; [exact Hu|split; [exact HD|apply da_surface; exact HD]].
  Qed.
  Lemma da_forward : not_all_forward p.
  Proof. intros [|[|l]] Hl; [| |cbn in Hl; lia]; unfold fwd; cbn -[Rle Rlt]; lra. Qed.
End Da.
