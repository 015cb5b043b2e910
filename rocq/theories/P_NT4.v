(** Two weakly scattering layers with the corrections switched on. *)
From Coq Require Import String Reals Lra Lia List Bool Arith ZArith.
From Coquelicot Require Import Coquelicot.
From Verif Require Import Base Tensor Spec M_LinAlg Spec_RTE Calc M_Subroutines M_GenPart M_MathscrV M_Coeffs M_Assemble M_Pydisort
  P_Sub P_Sub3 Spec_Sol Spec_Valid P_Valid P_Pydisort P_Pydisort2 P_Pydisort4 P_Absorb P_Refute Examples Spec_NT P_NT3.
Import ListNotations.
Local Open Scope R_scope.

Section Two.
  Variables a b : R.
  Hypothesis Ha : 0 < a <= 2 / 1000000000.
  Hypothesis Hb : 0 < b <= 2 / 1000000000.
  Definition p_tms : py_in := p_abs [1; 2] [a; b] [1 / 2; 1 / 2] 1 1 0 0 [] true.
  Local Notation p := p_tms.

  Lemma tms_valid : valid p.
  Proof.
    apply abs_valid; cbn; try lra; try lia.
    - intros [|[|l]] Hl; unfold bot_of, top_of; cbn; try lra; lia.
    - split; auto. intros w [<-|[<-|[]]]; lra.
    - split; auto. intros w [<-|[<-|[]]]; lra.
  Qed.
  Lemma tms_albedo l : (l < 2)%nat -> 0 < albedo p l <= 2 / 1000000000 /\ fwd p l = 1 / 2.
  Proof. intros Hl. destruct l as [|[|l]]; [| |lia]; unfold albedo, fwd; cbn; split; auto. Qed.
  Lemma tms_albedo_s l : (l < 2)%nat -> 0 < albedo_s p l <= 2 / 1000000000.
  Proof.
    intros Hl. destruct (tms_albedo l Hl) as [H1 H2]. unfold albedo_s, scl. rewrite H2. set (x := albedo p l) in *. clearbody x. clear H2 Hl l.
    assert (Hd : 0 < 1 - x * (1 / 2)) by lra. split.
    - apply Rdiv_lt_0_compat; lra.
    - apply Rmult_le_reg_r with (1 - x * (1 / 2)); [exact Hd|]. unfold Rdiv at 1. rewrite Rmult_assoc, Rinv_l by lra. nra.
  Qed.
  Lemma tms_phase l k : (l < 2)%nat -> (k < 2)%nat -> wphase_s p l k = match k with 0%nat => 1 | _ => - (12 / 5) end.
  Proof.
    intros Hl Hk. unfold wphase_s, phase_s, phase. destruct (tms_albedo l Hl) as [_ ->]. destruct k as [|[|k]]; [| |lia]; cbn; field.
  Qed.
  Lemma tms_ok jk : exists out, pydisort p lg_12 la_id jk = Ok out.
  Proof.
    apply negligible_ok.
    - exact tms_valid.
    - exact leggauss1_ok.
    - apply la_id_complete.
    - intros m l Hm Hl k Hk. change (ncoeffs p) with 2%nat in Hk. change (nlayers p) with 2%nat in Hl. rewrite tms_phase by lia. pose proof (tms_albedo_s l Hl).
      destruct k as [|k]; [rewrite Rabs_pos_eq; lra|]. rewrite Rabs_left; lra.
    - exists (fun _ => 0). apply bc_scal; auto.
    - exists (fun _ => 0). apply bc_scal; auto.
    - intros m Hm. cbn in Hm. lia.
    - intros _. right. reflexivity.
    - intros (i & j & _ & Hj & _). cbn in Hj. lia.
    - intros _ x Hx. cbn in Hx. destruct Hx as [<-|[]]. unfold transform_interval. cbn. rewrite Rabs_right; lra.
  Qed.
  Lemma tms_nosource : ~ has_source p.
  Proof. intros (i & j & _ & Hj & _). cbn in Hj. lia. Qed.
  Lemma tms_mu jk out : pydisort p lg_12 la_id jk = Ok out -> po_mu out = [1 / 2; - (1 / 2)].
  Proof.
    intros H. destruct (pydisort_parts _ _ _ _ _ H) as (V & ss & r & sv & Hss & Hr & Hsv & -> & _).
    unfold mu_arr, quad_mu. change (pN p) with 1%nat. cbn [seq map app Gauss_Legendre_quad fst lg_12 of_list nth].
    unfold transform_interval. cbn [map nth]. replace ((0 - -1) * (1 - 0) / (1 - -1) + 0) with (1 / 2) by field. reflexivity.
  Qed.
  Lemma tms_finite jk out : pydisort p lg_12 la_id jk = Ok out -> nt_finite p (po_mu out).
  Proof.
    intros H. rewrite (tms_mu jk out H). split; [|split].
    - split; [reflexivity|]. split; [reflexivity|]. split; [cbn; lra|]. split; [exists (1 / 2); split; [left; reflexivity|lra]|].
      split; [cbn; lia|]. exists a. split; [left; reflexivity|lra].
    - exists 0%nat. split; [cbn; lia|]. destruct (tms_albedo 0 ltac:(lia)) as [H1 H2]. rewrite H2. lra.
    - intros [|i] Hi; [|cbn in Hi; lia]. cbn [nth]. unfold mu0_s, wavg, favg. cbn. unfold fwd, albedo, bot_of. cbn.
      set (A := 0 + a * 1 + b * 2). assert (HA : 0 < A <= 6 / 1000000000) by (unfold A; lra).
      replace (0 + 1 / 2 * a * 1 + 1 / 2 * b * 2) with (1 / 2 * A) by (unfold A; ring).
      replace (A / (0 + 1 + 2) * (1 / 2 * A / A)) with (A / 6) by (field; lra). clearbody A. intros E.
      assert (1 / 4 = 1 / 2 * (1 - A / 6)); [|lra]. rewrite E. field. lra.
  Qed.
  (** The lost source in direction 0 at right angles to the plane of the beam. *)
  Lemma tms_missing l : (l < 2)%nat -> missing p l (1 / 2) (PI / 2) = albedo_s p l / (4 * PI) * (19 / 128).
  Proof.
    intros Hl. unfold missing, p_exact, p_trunc, scat_cos, dot3, unit_vec. change (ncoeffs p) with 2%nat. change (ncol (p_Leg p)) with 3%nat.
    change (p_mu0 p) with (1 / 4). change (p_phi0 p) with 0. change (p_I0 p) with 1. rewrite cos_PI2, sin_PI2, cos_0, sin_0, !Rmult_0_r, !Rmult_0_l, !Rplus_0_l.
    destruct (tms_albedo l Hl) as [_ ->]. set (c := 1 / 2 * - (1 / 4)). cbn [rsum]. rewrite !tms_phase by lia.
    assert (E0 : phase p l 0 = 1) by (unfold phase; cbn; reflexivity).
    assert (E1 : phase p l 1 = 1 / 10) by (unfold phase; cbn; reflexivity).
    assert (E2 : phase p l 2 = 1 / 10) by (unfold phase; cbn; reflexivity).
    rewrite E0, E1, E2. cbn [legendre INR]. unfold c. cbn. field. apply PI_neq0.
  Qed.
  Lemma tms_missing_ne l : (l < 2)%nat -> missing p l (1 / 2) (PI / 2) <> 0.
  Proof.
    intros Hl. rewrite (tms_missing l Hl). pose proof (tms_albedo_s l Hl). pose proof PI_RGT_0. apply Rgt_not_eq. apply Rmult_lt_0_compat; [|lra]. apply Rdiv_lt_0_compat; lra.
  Qed.
  Lemma tms_differ : a <> b -> missing p 0 (1 / 2) (PI / 2) <> missing p 1 (1 / 2) (PI / 2) /\ scl p 0 <> scl p 1.
  Proof.
    intros Hab. split.
    - rewrite !tms_missing by lia. intros E. apply Rmult_eq_reg_r in E; [|lra]. unfold Rdiv in E. apply Rmult_eq_reg_r in E; [|apply Rinv_neq_0_compat; pose proof PI_RGT_0; lra].
      apply Hab. unfold albedo_s, scl, fwd, albedo in E. cbn in E.
      assert (E' : a * (1 - b * (1 / 2)) = b * (1 - a * (1 / 2))); [|lra].
      apply (f_equal (fun x => 2 * x * (1 - a * (1 / 2)) * (1 - b * (1 / 2)))) in E. field_simplify in E; [|lra|lra].  nra.
    - unfold scl, fwd, albedo. cbn. lra.
  Qed.
End Two.

(** Two layers that are alike but for their thickness: the same lost source. *)
Lemma tms_alike a l x phi : 0 < a <= 2 / 1000000000 -> (l < 2)%nat -> missing (p_tms a a) l x phi = missing (p_tms a a) 0 x phi.
Proof. intros Ha Hl. destruct l as [|[|l]]; [reflexivity|reflexivity|lia]. Qed.
