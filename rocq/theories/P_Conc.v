(** Concurrent calls that share Leg_coeffs_all: what a call computes from what it has read. *)
From Coq Require Import String Reals Lra Lia List Bool Arith ZArith FunctionalExtensionality.
From Verif Require Import Base Tensor Spec M_LinAlg M_Subroutines M_GenPart M_MathscrV M_Coeffs M_Assemble M_Pydisort M_Warn Spec_Valid P_Valid Spec_Shared M_Shared M_Conc P_Shared P_Shared2.
Import ListNotations.
Local Open Scope R_scope.

Section Finished.
  Variable p : py_in.
  Variables A3 A4 : arr2.
  Hypothesis H3 : forall l, omega_at p l = 0 \/ forall k, at2 A3 l k = Leg_all p l k.
  Hypothesis H4 : forall l, omega_at p l = 0 \/ forall k, at2 A4 l k = Leg_all p l k.

  Lemma zero_omega l : omega_at p l = 0 -> scaled_omega p l = 0.
  Proof. intros E. unfold scaled_omega. rewrite E. destruct (delta_M p); ring. Qed.
  Lemma raw_w l k : scaled_omega p l * weighted_scaled_Leg p l k = scaled_omega p l * raw_weighted p A4 l k.
  Proof.
    destruct (H4 l) as [E|E]; [rewrite zero_omega by exact E; ring|]. unfold weighted_scaled_Leg, raw_weighted, scaled_Leg, raw_scaled. rewrite E. reflexivity.
  Qed.
  Lemma solve_raw lg r ss la jk : solve_all (as_with (assemble_args p lg r ss) (raw_weighted p A4)) la jk = solve_all (assemble_args p lg r ss) la jk.
  Proof.
    unfold solve_all. change (gp_of (as_with (assemble_args p lg r ss) (raw_weighted p A4))) with (gp_with (gp_of (assemble_args p lg r ss)) (raw_weighted p A4)).
    rewrite gen_with by exact raw_w. reflexivity.
  Qed.
  Lemma B_raw lg a : conc_B p A3 A4 lg a = mathscr_B p lg a.
  Proof.
    apply functional_extensionality; intros nu. apply functional_extensionality; intros l. apply functional_extensionality; intros i. apply functional_extensionality; intros j.
    unfold conc_B, mathscr_B. destruct (H3 l) as [E3|E3]; [rewrite zero_omega by exact E3; ring|]. destruct (H4 l) as [E4|E4]; [rewrite zero_omega by exact E4; ring|].
    assert (E1 : raw_all A3 l = weighted_Leg_all p l) by (apply functional_extensionality; intros k; unfold raw_all, weighted_Leg_all; rewrite E3; reflexivity).
    assert (E2 : raw_weighted p A4 l = weighted_scaled_Leg p l) by (apply functional_extensionality; intros k; unfold raw_weighted, weighted_scaled_Leg, raw_scaled, scaled_Leg; rewrite E4; reflexivity).
    rewrite E1, E2. reflexivity.
  Qed.
  Lemma corrected_raw lg r ss us :
    conc_corrected p A3 A4 lg (as_with (assemble_args p lg r ss) (raw_weighted p A4)) us = u_corrected p lg (assemble_args p lg r ss) us.
  Proof.
    unfold conc_corrected, conc_NT, conc_TMS.
    change (conc_B p A3 A4 lg (as_with (assemble_args p lg r ss) (raw_weighted p A4))) with (conc_B p A3 A4 lg (assemble_args p lg r ss)). rewrite B_raw. reflexivity.
  Qed.
  Lemma finished lg la jk : validate p = Ok tt -> same_answer (finish p A3 A4 lg la jk) (pydisort p lg la jk).
  Proof.
    intros Ev. unfold finish, pydisort. rewrite Ev. cbn [bind].
    match goal with |- same_answer (bind ?a _) (bind ?a _) => destruct a end; cbn [bind]; [|reflexivity].
    destruct (scaled_s p) as [ss|]; cbn [bind]; [|reflexivity].
    destruct (rescale p ss) as [r|]; cbn [bind]; [|reflexivity].
    rewrite solve_raw. destruct (solve_all _ _ _) as [sv|]; cbn [bind]; [|reflexivity].
    rewrite corrected_raw.
    set (A := assemble_args p lg r ss). set (A' := as_with A _).
    cbn [same_answer po_mu po_flux_up po_flux_down po_u0 po_u].
    change (cl_flux_up A' sv) with (cl_flux_up A sv).
    change (cl_flux_down A' sv) with (cl_flux_down A sv).
    change (cl_u0 A' sv) with (cl_u0 A sv).
    change (cl_u A' sv) with (cl_u A sv).
    do 4 (split; [reflexivity|]). reflexivity.
  Qed.
End Finished.

(** The column as read after the check and what the model of a single call takes. *)
Lemma read_settled p L c : validate (with_phase p L) = Ok tt -> (forall l, (l < nrow L)%nat -> omega_at p l = 0 \/ nth l c 0 = 1) ->
  forall l, omega_at (with_phase p L) l = 0 \/ forall k, at2 (with_column L c) l k = Leg_all (with_phase p L) l k.
Proof.
  intros Ev H l. set (q := with_phase p L) in *. pose proof (proj1 (validate_iff q) Ev) as V. change (omega_at q l) with (omega_at p l).
  destruct (Req_dec (omega_at p l) 0) as [E|E]; [left; exact E|]. right.
  assert (Hl : (l < pNL q)%nat).
  { destruct (Nat.lt_ge_cases l (length (p_omega p))) as [A|A]; [|exfalso; apply E; apply nth_overflow; auto]. pose proof (v_nom _ V) as B. cbn in B. change (pNL q) with (length (p_tau p)). lia. }
  assert (Hr : nrow L = pNL q) by exact (v_nrow _ V).
  destruct (H l) as [A|A]; [rewrite Hr; exact Hl|contradiction|].
  assert (H0 : Leg_all q l 0%nat = 1).
  { unfold Leg_all. destruct (leg0_bad q) eqn:Eb; [reflexivity|]. unfold leg0_bad in Eb. apply negb_false_iff in Eb. rewrite forallb_forall in Eb. specialize (Eb l). cbn beta in Eb.
    change (omega_at q l) with (omega_at p l) in Eb. unfold Reqb in Eb. destruct (Req_EM_T _ _) as [B|B]; [nra|]. discriminate Eb. apply in_seq. lia. }
  intros [|k]; [cbn [with_column at2 Nat.eqb]; rewrite A, H0; reflexivity|]. cbn [with_column at2 Nat.eqb]. rewrite all_later. reflexivity.
Qed.
