(** Calls that share Leg_coeffs_all: an earlier call does not change what a later one returns. *)
From Coq Require Import String Reals Lra Lia List Bool Arith ZArith FunctionalExtensionality.
From Verif Require Import Base Tensor Spec M_LinAlg M_Subroutines M_GenPart M_MathscrV M_Coeffs M_Assemble M_Pydisort M_Warn Spec_Shared M_Shared.
Import ListNotations.
Local Open Scope R_scope.

(** ** The solver sees the phase function multiplied by the albedo only *)
Definition gp_with (g : gp_in) (w : nat -> vec) : gp_in :=
  mkGP (gp_NFourier g) (gp_omega g) (gp_mu g) (gp_M_inv g) (gp_W g) (gp_N g) (gp_NLeg g) (gp_NLayers g) w
       (gp_mu0 g) (gp_I0_div_4pi g) (gp_beam g) (gp_iso g).
Section Gp.
  Variable g : gp_in.
  Variable w : nat -> vec.
  Hypothesis H : forall l k, gp_omega g l * gp_wLeg g l k = gp_omega g l * w l k.
  Lemma om_leg_with : om_leg (gp_with g w) = om_leg g.
  Proof.
    apply functional_extensionality; intros m. apply functional_extensionality; intros l. apply functional_extensionality; intros k.
    unfold om_leg. cbn [gp_with gp_omega gp_wLeg]. specialize (H l (m + k)%nat). lra.
  Qed.
  Lemma X_temp_with : X_temp (gp_with g w) = X_temp g.
  Proof.
    apply functional_extensionality; intros m. apply functional_extensionality; intros l. apply functional_extensionality; intros k.
    unfold X_temp. change (fac_mu0 (gp_with g w) m k) with (fac_mu0 g m k). cbn [gp_with gp_omega gp_wLeg]. rewrite !Rmult_assoc, <- (H l). reflexivity.
  Qed.
  Lemma gp_step_with : gp_step (gp_with g w) = gp_step g.
  Proof.
    unfold gp_step, scatters, alpha, beta, D_pos, D_neg, D_temp, X_pos, X_neg. rewrite om_leg_with, X_temp_with. reflexivity.
  Qed.
  Lemma gen_with la a b c d e : gen_and_part_sols (gp_with g w) la a b c d e = gen_and_part_sols g la a b c d e.
  Proof.
    unfold gen_and_part_sols, gp_loop. rewrite gp_step_with. reflexivity.
  Qed.
End Gp.

(** ** One call *)
Section One.
  Variable p : py_in.
  Variable L : arr2.
  Let q := with_phase p L.
  Hypothesis Hcol : ncol L = ncol (p_Leg p).
  Hypothesis HL : forall l, omega_at p l = 0 \/ forall k, Leg_all q l k = Leg_all p l k.

  Lemma some_omega l : scaled_omega p l = 0 \/ forall k, Leg_all q l k = Leg_all p l k.
  Proof.
    destruct (HL l) as [E|E]; [left|right; exact E]. unfold scaled_omega. rewrite E. destruct (delta_M p); ring.
  Qed.
  Lemma weighted_with l k : scaled_omega p l * weighted_scaled_Leg p l k = scaled_omega p l * weighted_scaled_Leg q l k.
  Proof.
    destruct (some_omega l) as [E|E]; [rewrite E; ring|]. unfold weighted_scaled_Leg, scaled_Leg. rewrite E. reflexivity.
  Qed.
  Lemma solve_with lg r ss la jk : solve_all (assemble_args q lg r ss) la jk = solve_all (assemble_args p lg r ss) la jk.
  Proof.
    unfold solve_all. change (gp_of (assemble_args q lg r ss)) with (gp_with (gp_of (assemble_args p lg r ss)) (weighted_scaled_Leg q)).
    rewrite gen_with by exact weighted_with. reflexivity.
  Qed.
  Lemma mathscr_with lg a : mathscr_B q lg a = mathscr_B p lg a.
  Proof.
    apply functional_extensionality; intros nu. apply functional_extensionality; intros l. apply functional_extensionality; intros i. apply functional_extensionality; intros j.
    unfold mathscr_B. change (scaled_omega q l) with (scaled_omega p l). destruct (some_omega l) as [E|E]; [rewrite E; ring|].
    assert (E1 : weighted_Leg_all q l = weighted_Leg_all p l) by (apply functional_extensionality; intros k; unfold weighted_Leg_all; rewrite E; reflexivity).
    assert (E2 : weighted_scaled_Leg q l = weighted_scaled_Leg p l) by (apply functional_extensionality; intros k; unfold weighted_scaled_Leg, scaled_Leg; rewrite E; reflexivity).
    unfold NLeg_all. change (ncol (p_Leg q)) with (ncol L). rewrite E1, E2, Hcol. reflexivity.
  Qed.
  Lemma residue_with : Leg_residue_avg q = Leg_residue_avg p.
  Proof.
    apply functional_extensionality; intros k. unfold Leg_residue_avg. change (sum2 q) with (sum2 p). change (pNL q) with (pNL p). f_equal.
    induction (pNL p) as [|n IH]; [reflexivity|]. cbn [rsum]. rewrite IH. f_equal. change (omega_at q n) with (omega_at p n). change (tau_at q n) with (tau_at p n).
    destruct (HL n) as [E|E]; [rewrite E; ring|]. unfold Leg_residue. rewrite E. reflexivity.
  Qed.
  Lemma corrected_with lg r ss us :
    u_corrected q lg (assemble_args q lg r ss) us = u_corrected p lg (assemble_args p lg r ss) us.
  Proof.
    unfold u_corrected, NT_corrections, TMS_correction, IMS_correction.
    change (mathscr_B q lg (assemble_args q lg r ss)) with (mathscr_B q lg (assemble_args p lg r ss)). rewrite mathscr_with, residue_with.
    unfold NLeg_all. change (ncol (p_Leg q)) with (ncol L). rewrite Hcol. reflexivity.
  Qed.
  Lemma one_call lg la jk : validate q = validate p -> same_answer (pydisort q lg la jk) (pydisort p lg la jk).
  Proof.
    intros Ev. unfold pydisort. rewrite Ev. destruct (validate p); cbn [bind]; [|reflexivity].
    change (NT_angle_ok q) with (NT_angle_ok p).
    match goal with |- same_answer (bind ?a _) (bind ?a _) => destruct a end; cbn [bind]; [|reflexivity].
    change (scaled_s q) with (scaled_s p). destruct (scaled_s p) as [ss|]; cbn [bind]; [|reflexivity].
    change (rescale q) with (rescale p). destruct (rescale p ss) as [r|]; cbn [bind]; [|reflexivity].
    rewrite solve_with. destruct (solve_all _ _ _) as [sv|]; cbn [bind]; [|reflexivity].
    set (A := assemble_args p lg r ss). set (A' := assemble_args q lg r ss).
    cbn [same_answer po_mu po_flux_up po_flux_down po_u0 po_u].
    change (cl_flux_up A' sv) with (cl_flux_up A sv).
    change (cl_flux_down A' sv) with (cl_flux_down A sv).
    change (cl_u0 A' sv) with (cl_u0 A sv).
    change (cl_u A' sv) with (cl_u A sv).
    change (mu_arr q lg) with (mu_arr p lg).
    do 4 (split; [reflexivity|]).
    change (p_only_flux q) with (p_only_flux p). destruct (p_only_flux p); [reflexivity|]. f_equal.
    assert (En : NT_active q = NT_active p).
    { unfold NT_active, NLeg_all. change (ncol (p_Leg q)) with (ncol L). rewrite Hcol. reflexivity. }
    rewrite En. destruct (NT_active p); [|reflexivity]. unfold A, A'. apply corrected_with.
  Qed.
End One.
