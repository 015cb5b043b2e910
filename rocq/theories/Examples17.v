(** A family of atmospheres with the depths of the layers as parameters. Models no function of /repo. *)
From Coq Require Import String Reals Lra Lia List Bool Arith ZArith.
From Coquelicot Require Import Coquelicot.
From Verif Require Import Base Tensor Spec M_LinAlg Spec_RTE Calc M_Subroutines M_Assemble M_Pydisort P_Sub3 P_Special Spec_Sol Spec_Valid P_Valid P_Pydisort P_Pydisort2 P_Pydisort6 P_Pydisort8 P_Unique2 P_Max3 P_Max4
  Spec_Calls Spec_Phys Spec_Solved Spec_Mono Spec_Depend Spec_Stretch Spec_DependAz Spec_StretchAz P_Stretch P_Spec6 P_Spec7 Spec_Full P_Addition P_Full P_Full2 P_Full3 Examples Examples2 Examples3 Examples5 Examples6.
Import ListNotations.
Local Open Scope R_scope.

(** Two layers that end at the depths [c] and [e], the upper one with the albedo [om], which emit more at greater depths, over a reflecting surface and under a beam; [h] lowers and turns the sun, makes it brighter and the surface darker. *)
Definition p_st (om c e h : R) : py_in := {|
  p_tau := [c; e]; p_omega := [om; 9/10]; p_NQuad := 2;
  p_Leg := mkA2 2 3 (fun l k => match k with 0%nat => 1 | 1%nat => (match l with 0%nat => 2/5 | _ => 1/4 end) | _ => 1/10 end);
  p_mu0 := 1/5 - h; p_I0 := 3 + h; p_phi0 := h; p_NLeg := None; p_NFourier := None;
  p_bpos := t0 1; p_bneg := t0 2; p_only_flux := false; p_f := [1/4; 0]; p_NT := false;
  p_BDRF := [MScal (1/2 - h)]; p_s := mkA2 2 2 (fun _ j => match j with 0%nat => 1 | _ => 1/4 end); p_banded := 10; p_autograd := false |}.

Section St.
  Variables (om c e h : R).
  Hypothesis Hom : 0 <= om <= 9/10.
  Hypothesis Hce : 0 < c < e.
  Hypothesis Hh : 0 <= h <= 1/10.
  Let p := p_st om c e h.

  Lemma st_valid : valid p.
  Proof.
    constructor; cbn -[Rlt Rle PI INR].
    - lia.
    - intros [|[|l]] Hl; cbn; try lra; lia.
    - intros [|[|l]] Hl; cbn; try lra; lia.
    - intros w [<-|[<-|[]]]; lra.
    - lia.
    - reflexivity.
    - reflexivity.
    - reflexivity.
    - reflexivity.
    - intros [|l] [|[|k]] Hl Hk; try lia; lra.
    - lia.
    - reflexivity.
    - lia.
    - lia.
    - lra.
    - intros _. lra.
    - intros _. pose proof PI2_3_2. lra.
    - right; left; reflexivity.
    - right; left; reflexivity.
    - intros f [<-|[<-|[]]]; lra.
    - lia.
  Qed.
  Lemma st_ab l : (l < 2)%nat -> 0 <= albedo_s p l <= 9/10 /\ 1/5 <= phase_s p l 1 <= 1/4 /\ phase_s p l 0 = 1.
  Proof.
    intros Hl. assert (HA : 0 <= albedo_s p l <= 9/10).
    { pose proof (albedo_s_range p st_valid l Hl). split; [lra|]. destruct l as [|[|l]]; [| |lia]; unfold albedo_s, scl, albedo, fwd in *; cbn -[Rle Rlt] in *; [|lra].
      apply (Rmult_le_reg_r (1 - om * (1/4))); [lra|]. unfold Rdiv. rewrite Rmult_assoc, Rinv_l by lra. lra. }
    split; [exact HA|]. destruct l as [|[|l]]; [| |lia]; unfold phase_s, fwd, phase; cbn -[Rle Rlt]; split; try field; lra.
  Qed.
  Lemma st_phase_at l z : (l < 2)%nat -> phase_at p l z = 1 + 3 * phase_s p l 1 * z.
  Proof. intros Hl. destruct (st_ab l Hl) as (_ & _ & H0). unfold phase_at. change (ncoeffs p) with 2%nat. cbn [rsum]. rewrite H0. unfold legendre, legendre_poly. cbn. field. Qed.
  Lemma st_phase l x y : (l < 2)%nat -> phase_mode p 0 l x y = 1 + 3 * phase_s p l 1 * x * y.
  Proof.
    intros Hl. destruct (st_ab l Hl) as (_ & _ & H0). unfold phase_mode. change (ncoeffs p) with 2%nat. cbn [rsum Nat.leb]. unfold wphase_s. rewrite H0.
    unfold poch_term, lpmv. cbn. field.
  Qed.
  Lemma st_positive : phase_positive p.
  Proof. intros l z Hl _ Hz. change (nlayers p) with 2%nat in Hl. rewrite st_phase_at by exact Hl. destruct (st_ab l Hl) as (_ & H & _). nra. Qed.
  Lemma st_refl mu w i : double_gauss (half p) mu w -> (i < half p)%nat -> reflectance p mu w (fun _ _ => 1/2 - h) i = 1/2 - h.
  Proof.
    intros HD Hi. change (half p) with 1%nat in HD. destruct (dg_one mu w HD) as (E & Ew). destruct i as [|i]; [|change (half p) with 1%nat in Hi; lia].
    unfold reflectance. change (half p) with 1%nat. cbn. rewrite E, Ew. cbn. field.
  Qed.
  Lemma st_physical mu w : double_gauss (half p) mu w -> physical p mu w (fun _ _ _ => 1/2 - h).
  Proof.
    intros HD. constructor.
    - intros l i j phi Hl Ha Hi Hj. pose proof (node p st_valid mu w HD i) as Ni. pose proof (node p st_valid mu w HD j) as Nj. change (half p) with 1%nat in Ni, Nj. change (streams p) with 2%nat in Hi, Hj.
      pose proof (phase_modes p l (nth i mu 0) phi (nth j mu 0) 0 ltac:(cbn; lia) (proj1 (Ni Hi)) (proj1 (Nj Hj))) as X. rewrite Rminus_0_r in X.
      unfold phase_fn. unfold ec in X. rewrite <- X. apply st_positive; auto. apply nu_range; [apply Ni|apply Nj]; auto.
    - intros i j phi Hi Hj. unfold surface_fn. cbn [length p_BDRF p p_st rsum INR]. rewrite Rmult_0_l, cos_0. lra.
    - intros i Hi. rewrite (st_refl mu w) by auto. lra.
  Qed.
  Lemma st_input : physical_input p (fun _ _ _ => 1/2 - h).
  Proof.
    constructor.
    - exact st_valid.
    - exists (fun _ => 1). apply bc_scal; auto.
    - exists (fun _ => 2). apply bc_scal; auto.
    - intros [|m] Hm; [|cbn in Hm; lia]. left. exists (1/2 - h). auto.
    - intros _. right. reflexivity.
    - intros _. right; right. exists []. split; [exact I|]. cbn. lra.
    - discriminate.
    - exact st_physical.
  Qed.
  Lemma st_free : no_resonance p.
  Proof.
    intros _ mu w m l HD Hm Hl. apply (far_free p mu w (fun _ _ _ => 1/2 - h) l st_valid HD (st_physical mu w HD)); [cbn; lra|exact Hl|].
    intros i Hi. change (half p) with 1%nat in *. destruct (dg_one mu w HD) as (-> & _). destruct i as [|i]; [|lia]. destruct (st_ab l Hl) as ((_ & H) & _).
    cbn [nth p_mu0 p p_st]. assert (H5 : 5 <= / (1/5 - h)) by (replace 5 with (/ (1/5)) by field; apply Rinv_le_contravar; lra). unfold Rdiv at 2. rewrite Rabs_left; lra.
  Qed.
  Lemma st_ok jk : exists out, pydisort p lg_12 la_full jk = Ok out.
  Proof. apply (posed_iff p (fun _ _ _ => 1/2 - h) lg_12 la_full jk st_input lg_12_ok1 la_full_ok la_full_unique la_full_complete la_full_total). exact st_free. Qed.
  Lemma st_bd : boundary_data p (fun _ => 2) (fun _ => 1) (fun _ _ _ => 1/2 - h).
  Proof.
    constructor.
    - apply bc_scal; reflexivity.
    - apply bc_scal; reflexivity.
    - intros [|m] Hm; [|cbn in Hm; lia]. left. exists (1/2 - h). auto.
    - left. split; intros idx _; cbn; lra.
  Qed.
  Lemma st_source l t : (l < nlayers p)%nat -> source p l t = 1 + t / 4.
  Proof. intros Hl. unfold source. change (nlayers p) with 2%nat in Hl. destruct l as [|[|l]]; [| |lia]; cbn; field. Qed.
  Lemma st_facts jk out : pydisort p lg_12 la_full jk = Ok out -> exists w, double_gauss (half p) (po_mu out) w /\
    phase_nonneg p (po_mu out) /\ beam_phase_nonneg p (po_mu out) /\ passive_surface p (po_mu out) w (fun _ _ => 1/2 - h) /\
    (forall i, (i < half p)%nat -> reflectance p (po_mu out) w (fun _ _ => 1/2 - h) i = 1/2 - h).
  Proof.
    intros H. destruct (modes_exist p lg_12 la_full jk out la_full_ok lg_12_ok1 H) as (U & HU).
    destruct (call_fluxes p lg_12 la_full jk out la_full_ok lg_12_ok1 H U HU) as (w & Hw & _). exists w. split; [exact Hw|].
    assert (Hm : forall l x y, (l < 2)%nat -> -1 <= x <= 1 -> -1 <= y <= 1 -> 0 <= phase_mode p 0 l x y).
    { intros l x y Hl Hx Hy. rewrite st_phase by exact Hl. destruct (st_ab l Hl) as (_ & H1 & _). assert (-1 <= x * y <= 1) by nra. nra. }
    assert (Hn : forall i, (i < streams p)%nat -> -1 <= nth i (po_mu out) 0 <= 1) by (intros i Hi; pose proof (node p st_valid _ w Hw i Hi); lra).
    split; [intros l i j Hl Hi Hj; apply Hm; auto|]. split; [intros _ l i Hl Hi; apply Hm; auto; cbn; lra|].
    pose proof (st_refl (po_mu out) w) as R. split; [|intros i Hi; apply R; auto]. constructor; [intros; lra|intros; lra|intros i Hi; rewrite R by auto; lra].
  Qed.
  Lemma st_kept : 1/10 <= om -> scattering_kept p.
  Proof.
    intros Hm [|[|l]] Hl; [| |cbn in Hl; lia]; unfold albedo_s, scl, albedo, fwd; cbn -[Rle Rlt]; split; try lra; right; try lra.
    apply (Rmult_lt_reg_r (1 - om * (1 / 4))); [lra|]. replace ((1 - 1 / 4) * om / (1 - om * (1 / 4)) * (1 - om * (1 / 4))) with ((1 - 1 / 4) * om) by (field; lra). lra.
  Qed.
  Lemma st_modes : 4/5 <= om -> all_modes p.
  Proof.
    intros Hm. constructor.
    - intros (E & _). discriminate.
    - reflexivity.
    - cbn. lia.
    - intros l k Hl Hk. change (nlayers p) with 2%nat in Hl. change (ncoeffs p) with 2%nat in Hk. destruct (st_ab l Hl) as (_ & H2 & H0). right. unfold wphase_s.
      assert (H1 : 1/2 <= albedo_s p l <= 9/10).
      { destruct (st_ab l Hl) as (H1 & _). split; [|lra]. destruct l as [|[|l]]; [| |lia]; unfold albedo_s, scl, albedo, fwd in *; cbn -[Rle Rlt] in *; [|lra].
        apply (Rmult_le_reg_r (1 - om * (1/4))); [lra|]. replace ((1 - 1 / 4) * om / (1 - om * (1 / 4)) * (1 - om * (1 / 4))) with ((1 - 1 / 4) * om) by (field; lra). lra. }
      destruct k as [|[|k]]; [rewrite H0; cbn [INR]; rewrite Rabs_right; nra|cbn [INR]; rewrite Rabs_right; nra|lia].
  Qed.
  Lemma st_forward : not_all_forward p.
  Proof. intros [|[|l]] Hl; [| |cbn in Hl; lia]; unfold fwd; cbn -[Rle Rlt]; lra. Qed.
  Lemma st_surface mu w : double_gauss (half p) mu w -> surface_positive p mu w (fun _ _ _ => 1/2 - h).
  Proof.
    intros HD. constructor.
    - intros i j x y _ _. unfold surface_at. cbn [length p_BDRF p p_st rsum INR]. rewrite Rmult_0_l, cos_0. lra.
    - intros _ i x _. unfold surface_at. cbn [length p_BDRF p p_st rsum INR]. rewrite Rmult_0_l, cos_0. lra.
    - intros i Hi. rewrite (st_refl mu w i HD Hi). lra.
  Qed.
  Lemma st_u jk out : pydisort p lg_12 la_full jk = Ok out -> exists u, po_u out = Some u.
  Proof. intros H. destruct (pydisort_parts _ _ _ _ _ H) as (_ & ss & r & sv & _ & _ & _ & _ & _ & _ & _ & Hu). eexists. exact Hu. Qed.
End St.



(** A thicker upper layer, another albedo, a lower and brighter sun and a darker surface. *)
Lemma st_near om c e om' h d mu : 0 <= om <= 9/10 -> 0 <= om' <= 9/10 -> 0 < c < e -> 0 < h <= 1/10 -> h <= d -> Rabs (om - om') <= d ->
  near_deformed d (p_st om c e 0) (p_st om' (c + h) (e + h) h) mu (fun _ => 2) (fun _ => 1) (fun _ => 2) (fun _ => 1) (fun _ _ => 1/2 - 0) (fun _ _ => 1/2 - h).
Proof.
  intros Hom Hom' Hce Hh Hd Ho. constructor.
  - intros [|[|l]] Hl; [| |cbn in Hl; lia]; unfold bot_of; cbn -[Rle Rlt Rabs]; apply Rabs_le; lra.
  - intros [|[|l]] Hl; [| |cbn in Hl; lia]; unfold albedo; cbn -[Rle Rlt Rabs]; [exact Ho|apply Rabs_le; lra].
  - intros l k Hl Hk. unfold phase. cbn -[Rle Rlt Rabs Rminus]. rewrite Rminus_eq_0, Rabs_R0. lra.
  - intros l Hl. unfold fwd. cbn -[Rle Rlt Rabs Rminus]. rewrite Rminus_eq_0, Rabs_R0. lra.
  - intros l s Hl Hs. rewrite !st_source by exact Hl.
    pose proof (place_near (p_st om c e 0) (p_st om' (c + h) (e + h) h) (st_valid om' (c + h) (e + h) h ltac:(lra) ltac:(lra) ltac:(lra)) l s Hl Hs) as K.
    assert (T : thickness_dist (p_st om c e 0) (p_st om' (c + h) (e + h) h) = h).
    { unfold thickness_dist, thickness, bot_of, top_of. cbn -[Rabs]. replace (c - 0 - (c + h - 0)) with (- h) by ring. replace (e - c - (e + h - (c + h))) with 0 by ring. rewrite Rabs_Ropp, Rabs_R0, Rabs_pos_eq by lra. ring. }
    rewrite T in K. revert K. unfold Rabs. repeat destruct (Rcase_abs _); lra.
  - intros i Hi. rewrite Rminus_eq_0, Rabs_R0. lra.
  - intros i Hi. rewrite Rminus_eq_0, Rabs_R0. lra.
  - cbn -[Rabs Rle]. apply Rabs_le. lra.
  - cbn -[Rabs Rle]. apply Rabs_le. lra.
  - intros i j _ _. unfold reflects. cbn -[Rabs Rle]. apply Rabs_le. lra.
  - intros i _. unfold reflects. cbn -[Rabs Rle]. apply Rabs_le. lra.
Qed.
Lemma st_corr om om' h : 0 < h -> Forall2 (corresponds (p_st om 1 3 0) (p_st om' (1 + h) (3 + h) h)) [1/2; 2] [bot_of (p_st om' (1 + h) (3 + h) h) 0 / 2; bot_of (p_st om' (1 + h) (3 + h) h) 0 + 1].
Proof.
  intros Hh. constructor; [|constructor; [|constructor]].
  - exists 0%nat. unfold same_place, thicker, thickness, bot_of, top_of. cbn -[Rle Rlt]. split; [lia|]. split; [lra|]. field. lra.
  - exists 1%nat. unfold same_place, thicker, thickness, bot_of, top_of. cbn -[Rle Rlt]. split; [lia|]. split; [lra|]. field. lra.
Qed.
Lemma st_near_sky om c e om' h d mu : 0 <= om <= 9/10 -> 0 <= om' <= 9/10 -> 0 < c < e -> 0 < h <= 1/10 -> h <= d -> Rabs (om - om') <= d ->
  near_sky d (p_st om c e 0) (p_st om' (c + h) (e + h) h) mu (fun _ => 2) (fun _ => 1) (fun _ => 2) (fun _ => 1) (fun _ _ _ => 1/2 - 0) (fun _ _ _ => 1/2 - h).
Proof.
  intros Hom Hom' Hce Hh Hd Ho. constructor.
  - apply st_near; assumption.
  - cbn -[Rabs Rle]. apply Rabs_le. lra.
  - intros m i j _ _ _. apply Rabs_le. lra.
  - intros m i _ _. apply Rabs_le. lra.
Qed.
