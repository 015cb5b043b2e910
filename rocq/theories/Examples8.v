(** A family of atmospheres with the albedo of a layer and the surface as parameters. Models no function of /repo. *)
From Coq Require Import String Reals Lra Lia List Bool Arith ZArith.
From Coquelicot Require Import Coquelicot.
From Verif Require Import Base Tensor Spec M_LinAlg Spec_RTE Calc M_Subroutines M_Assemble M_Pydisort P_Sub3 P_Special Spec_Sol Spec_Valid P_Valid P_Pydisort P_Pydisort2 P_Pydisort6 P_Pydisort8 P_Unique2 P_Max3 P_Max4
  Spec_Calls Spec_Phys Spec_Solved Spec_Mono P_Spec6 P_Spec7 Spec_Full P_Addition P_Full P_Full2 P_Full3 Examples Examples2 Examples3 Examples5 Examples6.
Import ListNotations.
Local Open Scope R_scope.

(** Two layers that scatter forward, the upper one with the albedo [om], over a surface of albedo [r]. *)
Definition p_mo (om r I0 bp bn s : R) : py_in := {|
  p_tau := [1; 3]; p_omega := [om; 9/10]; p_NQuad := 2;
  p_Leg := mkA2 2 3 (fun l k => match k with 0%nat => 1 | 1%nat => (match l with 0%nat => 2/5 | _ => 1/4 end) | _ => 1/10 end);
  p_mu0 := 1/5; p_I0 := I0; p_phi0 := 0; p_NLeg := None; p_NFourier := None;
  p_bpos := t0 bp; p_bneg := t0 bn; p_only_flux := false; p_f := [1/4; 0]; p_NT := false;
  p_BDRF := [MScal r]; p_s := mkA2 2 1 (fun _ _ => s); p_banded := 10; p_autograd := false |}.

Section Mo.
  Variables (om r I0 bp bn s : R).
  Hypothesis Hom : 0 <= om <= 9/10.
  Hypothesis Hr : 0 <= r <= 1.
  Hypothesis HI : 0 <= I0.
  Hypothesis Hbp : 0 < bp.
  Hypothesis Hbn : 0 < bn.
  Let p := p_mo om r I0 bp bn s.

  Lemma mo_valid : valid p.
  Proof.
    constructor; cbn -[Rlt Rle PI INR].
    - lia.
    - intros [|[|l]] Hl; cbn; try lra; lia.
    - intros [|[|l]] Hl; cbn; try lra; lia.
    - intros w [<-|[<-|[]]]; lra.
    - lia.
    - reflexivity.
    - reflexivity.
    - reflexivity.
    - reflexivity.
    - intros [|l] [|[|k]] Hl Hk; try lia; lra.
    - lia.
    - reflexivity.
    - lia.
    - lia.
    - exact HI.
    - intros _. lra.
    - intros _. pose proof PI_RGT_0. lra.
    - right; left; reflexivity.
    - right; left; reflexivity.
    - intros f [<-|[<-|[]]]; lra.
    - lia.
  Qed.
  Lemma mo_ab l : (l < 2)%nat -> 0 <= albedo_s p l <= 9/10 /\ 1/5 <= phase_s p l 1 <= 1/4 /\ phase_s p l 0 = 1.
  Proof.
    intros Hl. assert (HA : 0 <= albedo_s p l <= 9/10).
    { pose proof (albedo_s_range p mo_valid l Hl). split; [lra|]. destruct l as [|[|l]]; [| |lia]; unfold albedo_s, scl, albedo, fwd in *; cbn -[Rle Rlt] in *; [|lra].
      apply (Rmult_le_reg_r (1 - om * (1/4))); [lra|]. unfold Rdiv. rewrite Rmult_assoc, Rinv_l by lra. lra. }
    split; [exact HA|]. destruct l as [|[|l]]; [| |lia]; unfold phase_s, fwd, phase; cbn -[Rle Rlt]; split; try field; lra.
  Qed.
  Lemma mo_phase_at l c : (l < 2)%nat -> phase_at p l c = 1 + 3 * phase_s p l 1 * c.
  Proof. intros Hl. destruct (mo_ab l Hl) as (_ & _ & H0). unfold phase_at. change (ncoeffs p) with 2%nat. cbn [rsum]. rewrite H0. unfold legendre, legendre_poly. cbn. field. Qed.
  Lemma mo_phase l x y : (l < 2)%nat -> phase_mode p 0 l x y = 1 + 3 * phase_s p l 1 * x * y.
  Proof.
    intros Hl. destruct (mo_ab l Hl) as (_ & _ & H0). unfold phase_mode. change (ncoeffs p) with 2%nat. cbn [rsum Nat.leb]. unfold wphase_s. rewrite H0.
    unfold poch_term, lpmv. cbn. field.
  Qed.
  Lemma mo_positive : phase_positive p.
  Proof. intros l c Hl _ Hc. change (nlayers p) with 2%nat in Hl. rewrite mo_phase_at by exact Hl. destruct (mo_ab l Hl) as (_ & H & _). nra. Qed.
  Lemma mo_refl mu w i : double_gauss (half p) mu w -> (i < half p)%nat -> reflectance p mu w (fun _ _ => r) i = r.
  Proof.
    intros HD Hi. change (half p) with 1%nat in HD. destruct (dg_one mu w HD) as (E & Ew). destruct i as [|i]; [|change (half p) with 1%nat in Hi; lia].
    unfold reflectance. change (half p) with 1%nat. cbn. rewrite E, Ew. cbn. field.
  Qed.
  Lemma mo_physical mu w : double_gauss (half p) mu w -> physical p mu w (fun _ _ _ => r).
  Proof.
    intros HD. constructor.
    - intros l i j phi Hl Ha Hi Hj. pose proof (node p mo_valid mu w HD i) as Ni. pose proof (node p mo_valid mu w HD j) as Nj. change (half p) with 1%nat in Ni, Nj. change (streams p) with 2%nat in Hi, Hj.
      pose proof (phase_modes p l (nth i mu 0) phi (nth j mu 0) 0 ltac:(cbn; lia) (proj1 (Ni Hi)) (proj1 (Nj Hj))) as X. rewrite Rminus_0_r in X.
      unfold phase_fn. unfold ec in X. rewrite <- X. apply mo_positive; auto. apply nu_range; [apply Ni|apply Nj]; auto.
    - intros i j phi Hi Hj. unfold surface_fn. cbn [length p_BDRF p p_mo rsum INR]. rewrite Rmult_0_l, cos_0. lra.
    - intros i Hi. rewrite (mo_refl mu w) by auto. lra.
  Qed.
  Lemma mo_input : physical_input p (fun _ _ _ => r).
  Proof.
    constructor.
    - exact mo_valid.
    - exists (fun _ => bp). apply bc_scal; auto.
    - exists (fun _ => bn). apply bc_scal; auto.
    - intros [|m] Hm; [|cbn in Hm; lia]. left. exists r. auto.
    - intros _. right. reflexivity.
    - intros _. right; right. exists []. split; [exact I|]. cbn. exact Hbn.
    - discriminate.
    - exact mo_physical.
  Qed.
  Lemma mo_free : no_resonance p.
  Proof.
    intros _ mu w m l HD Hm Hl. apply (far_free p mu w (fun _ _ _ => r) l mo_valid HD (mo_physical mu w HD)); [cbn; lra|exact Hl|].
    intros i Hi. change (half p) with 1%nat in *. destruct (dg_one mu w HD) as (-> & _). destruct i as [|i]; [|lia]. destruct (mo_ab l Hl) as ((_ & H) & _).
    cbn [nth p_mu0 p p_mo]. rewrite Rabs_left; lra.
  Qed.
  Lemma mo_ok jk : exists out, pydisort p lg_12 la_full jk = Ok out.
  Proof. apply (posed_iff p (fun _ _ _ => r) lg_12 la_full jk mo_input lg_12_ok1 la_full_ok la_full_unique la_full_complete la_full_total). exact mo_free. Qed.
  Lemma mo_bd : boundary_data p (fun _ => bn) (fun _ => bp) (fun _ _ _ => r).
  Proof.
    constructor.
    - apply bc_scal; reflexivity.
    - apply bc_scal; reflexivity.
    - intros [|m] Hm; [|cbn in Hm; lia]. left. exists r. auto.
    - left. split; intros idx _; cbn; lra.
  Qed.
  Lemma mo_source l t : (l < nlayers p)%nat -> source p l t = s.
  Proof. intros Hl. unfold source. change (nlayers p) with 2%nat in Hl. destruct l as [|[|l]]; [| |lia]; cbn; ring. Qed.
  Lemma mo_facts jk out : pydisort p lg_12 la_full jk = Ok out -> exists w, double_gauss (half p) (po_mu out) w /\
    phase_nonneg p (po_mu out) /\ beam_phase_nonneg p (po_mu out) /\ passive_surface p (po_mu out) w (fun _ _ => r) /\
    (forall i, (i < half p)%nat -> reflectance p (po_mu out) w (fun _ _ => r) i = r).
  Proof.
    intros H. destruct (modes_exist p lg_12 la_full jk out la_full_ok lg_12_ok1 H) as (U & HU).
    destruct (call_fluxes p lg_12 la_full jk out la_full_ok lg_12_ok1 H U HU) as (w & Hw & _). exists w. split; [exact Hw|].
    assert (Hm : forall l x y, (l < 2)%nat -> -1 <= x <= 1 -> -1 <= y <= 1 -> 0 <= phase_mode p 0 l x y).
    { intros l x y Hl Hx Hy. rewrite mo_phase by exact Hl. destruct (mo_ab l Hl) as (_ & H1 & _). assert (-1 <= x * y <= 1) by nra. nra. }
    assert (Hn : forall i, (i < streams p)%nat -> -1 <= nth i (po_mu out) 0 <= 1) by (intros i Hi; pose proof (node p mo_valid _ w Hw i Hi); lra).
    split; [intros l i j Hl Hi Hj; apply Hm; auto|]. split; [intros _ l i Hl Hi; apply Hm; auto; cbn; lra|].
    pose proof (mo_refl (po_mu out) w) as R. split; [|intros i Hi; apply R; auto]. constructor; [intros; lra|intros; lra|intros i Hi; rewrite R by auto; lra].
  Qed.
End Mo.

(** Two different layers without a surface or a beam, with sources from above, below and inside. *)
Definition p_ud (c om1 om2 g1 g2 bp bn s1 s2 : R) : py_in := {|
  p_tau := [c; 3]; p_omega := [om1; om2]; p_NQuad := 2;
  p_Leg := mkA2 2 3 (fun l k => match k with 0%nat => 1 | 1%nat => (match l with 0%nat => g1 | _ => g2 end) | _ => 1/10 end);
  p_mu0 := 1/5; p_I0 := 0; p_phi0 := 0; p_NLeg := None; p_NFourier := None;
  p_bpos := t0 bp; p_bneg := t0 bn; p_only_flux := false; p_f := [0; 0]; p_NT := false;
  p_BDRF := []; p_s := mkA2 2 1 (fun l _ => match l with 0%nat => s1 | _ => s2 end); p_banded := 10; p_autograd := false |}.
Section Ud.
  Variables (c om1 om2 g1 g2 bp bn s1 s2 : R).
  Hypothesis Hc : 0 < c < 3.
  Hypothesis Hom1 : 0 <= om1 < 1.
  Hypothesis Hom2 : 0 <= om2 < 1.
  Hypothesis Hg1 : 0 <= g1 <= 1/4.
  Hypothesis Hg2 : 0 <= g2 <= 1/4.
  Hypothesis Hbp : 0 < bp.
  Hypothesis Hbn : 0 < bn.
  Let p := p_ud c om1 om2 g1 g2 bp bn s1 s2.
  Lemma ud_valid : valid p.
  Proof.
    constructor; cbn -[Rlt Rle PI INR].
    - lia.
    - intros [|[|l]] Hl; cbn; try lra; lia.
    - intros [|[|l]] Hl; cbn; try lra; lia.
    - intros w [<-|[<-|[]]]; lra.
    - lia.
    - reflexivity.
    - reflexivity.
    - reflexivity.
    - reflexivity.
    - intros [|l] [|[|k]] Hl Hk; try lia; lra.
    - lia.
    - reflexivity.
    - lia.
    - lia.
    - lra.
    - intros _. lra.
    - intros _. pose proof PI_RGT_0. lra.
    - right; left; reflexivity.
    - right; left; reflexivity.
    - intros f [<-|[<-|[]]]; lra.
    - lia.
  Qed.
  Lemma ud_phase_s l : (l < 2)%nat -> 0 <= phase_s p l 1 <= 1/4 /\ phase_s p l 0 = 1.
  Proof. intros Hl. destruct l as [|[|l]]; [| |lia]; unfold phase_s, fwd, phase; cbn -[Rle Rlt]; split; try field; lra. Qed.
  Lemma ud_positive : phase_positive p.
  Proof.
    intros l x Hl _ Hx. change (nlayers p) with 2%nat in Hl. destruct (ud_phase_s l Hl) as (H & H0). unfold phase_at. change (ncoeffs p) with 2%nat. cbn [rsum]. rewrite H0.
    unfold legendre, legendre_poly. cbn. nra.
  Qed.
  Lemma ud_physical mu w : double_gauss (half p) mu w -> physical p mu w (fun _ _ _ => 0).
  Proof.
    intros HD. constructor.
    - intros l i j phi Hl Ha Hi Hj. pose proof (node p ud_valid mu w HD i) as Ni. pose proof (node p ud_valid mu w HD j) as Nj. change (half p) with 1%nat in Ni, Nj. change (streams p) with 2%nat in Hi, Hj.
      pose proof (phase_modes p l (nth i mu 0) phi (nth j mu 0) 0 ltac:(cbn; lia) (proj1 (Ni Hi)) (proj1 (Nj Hj))) as X. rewrite Rminus_0_r in X.
      unfold phase_fn. unfold ec in X. rewrite <- X. apply ud_positive; auto. apply nu_range; [apply Ni|apply Nj]; auto.
    - intros i j phi Hi Hj. unfold surface_fn. cbn. lra.
    - intros i Hi. unfold reflectance. cbn. lra.
  Qed.
  Lemma ud_ok jk : exists out, pydisort p lg_12 la_full jk = Ok out.
  Proof.
    apply (posed_iff p (fun _ _ _ => 0) lg_12 la_full jk); [|exact lg_12_ok1|exact la_full_ok|exact la_full_unique|exact la_full_complete|exact la_full_total|intros H; cbn in H; lra].
    constructor.
    - exact ud_valid.
    - exists (fun _ => bp). apply bc_scal; auto.
    - exists (fun _ => bn). apply bc_scal; auto.
    - intros m Hm. cbn in Hm. lia.
    - intros _. right. reflexivity.
    - intros _. right; right. exists []. split; [exact I|]. cbn. exact Hbn.
    - discriminate.
    - exact ud_physical.
  Qed.
  Lemma ud_bd : boundary_data p (fun _ => bn) (fun _ => bp) (fun _ _ _ => 0).
  Proof.
    constructor.
    - apply bc_scal; reflexivity.
    - apply bc_scal; reflexivity.
    - intros m Hm. cbn in Hm. lia.
    - left. split; intros idx _; cbn; lra.
  Qed.
End Ud.
