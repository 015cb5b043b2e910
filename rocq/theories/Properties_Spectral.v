(** Properties of the eigen-solver stage (src/PythonicDISORT/_solve_for_gen_and_part_sols.py). *)
From Coq Require Import String Reals Lra Lia List Bool Arith ZArith.
From Verif Require Import Base Tensor Spec M_LinAlg Spec_RTE P_Special M_GenPart P_GenPart P_GenPart2 P_GenPart3 P_GenPart4 Examples.
Import ListNotations.
Local Open Scope R_scope.

(** C20: the matrices built from the upward nodes and alternating signs are the documented
    kernels at both hemispheres. *)
Theorem C20_scattering_matrix_parity : forall (g : gp_in) (m l i j : nat),
  let D := D_spec (gp_omega g l) (gp_wLeg g l) (gp_NLeg g) m in
  let X := X_spec (gp_I0_div_4pi g) (gp_omega g l) (gp_wLeg g l) (gp_NLeg g) m (gp_mu0 g) in
  let mu := gp_mu g in
  D_pos g m l i j = D (mu i) (mu j) /\ D_pos g m l i j = D (- mu i) (- mu j) /\
  D_neg g m l i j = D (mu i) (- mu j) /\ D_neg g m l i j = D (- mu i) (mu j) /\
  X_pos g m l i = X (mu i) /\ X_neg g m l i = X (- mu i).
Proof.
  intros g m l i j D X mu.
  exact (conj (D_pos_eq g m l i j)
        (conj (eq_trans (D_pos_eq g m l i j) (eq_sym (D_spec_negneg _ _ _ _ _ _)))
        (conj (D_neg_eq g m l i j)
        (conj (eq_trans (D_neg_eq g m l i j) (eq_sym (D_spec_neg _ _ _ _ _ _)))
        (conj (X_pos_eq g m l i) (X_neg_eq g m l i)))))).
Qed.
Print Assumptions C20_scattering_matrix_parity.
Example C20_nonvacuous : D_pos (g_ex 1 true true) 0 0 0%nat 0%nat = 3 / 8.
Proof. rewrite D_pos_eq. unfold D_spec. cbn -[lpmv poch_term]. rewrite lpmv_00, poch_0. field. Qed.

(** C21: eigenvalues and eigenvectors of the coefficient matrix of  u' = A u  for every mode
    and layer; [wg'] are the phase-function coefficients after the code's 1e-8 cut-off. *)
Theorem C21_eigenvector_assembly :
  forall (g : gp_in) (la : linalg) jG jK jA jX jGi (o : gp_out),
  (forall i, (i < gp_N g)%nat -> 0 < gp_mu g i /\ gp_M_inv g i = 1 / gp_mu g i) ->
  linalg_ok la ->
  gen_and_part_sols g la jG jK jA jX jGi = Ok o ->
  forall m l wg', (m < gp_NFourier g)%nat -> (l < gp_NLayers g)%nat ->
  is_cutoff (gp_omega g l) (gp_wLeg g l) (gp_NLeg g) m wg' ->
  let NQ := (2 * gp_N g)%nat in
  let A := A_spec (gp_N g) (gp_mu g) (gp_W g) (gp_omega g l) wg' (gp_NLeg g) m in
  (forall i j, (i < NQ)%nat -> (j < NQ)%nat ->
     rsum NQ (fun p => A i p * o_G o m l p j) = o_G o m l i j * o_K o m l j) /\
  (forall j, (j < gp_N g)%nat ->
     0 < o_K o m l (gp_N g + j)%nat /\ o_K o m l j = - o_K o m l (gp_N g + j)%nat).
Proof.
  intros g la jG jK jA jX jGi o Hmu Hla Ho m l wg' Hm Hl Hc.
  exact (eigen_pairs g Hmu la Hla jG jK jA jX jGi o Ho m l wg' Hm Hl Hc).
Qed.
Print Assumptions C21_eigenvector_assembly.
(** A scattering layer over a shortcut layer, two Fourier modes, beam and isotropic source. *)
Example C21_nonvacuous :
  (forall i, (i < gp_N (g_ex 2 true true))%nat -> 0 < gp_mu (g_ex 2 true true) i /\ gp_M_inv (g_ex 2 true true) i = 1 / gp_mu (g_ex 2 true true) i) /\
  linalg_ok (la_ex []) /\
  (forall jG jK jA jX jGi, exists o, gen_and_part_sols (g_ex 2 true true) (la_ex []) jG jK jA jX jGi = Ok o) /\
  scatters (g_ex 2 true true) 0 0 = true /\ scatters (g_ex 2 true true) 0 1 = false /\
  is_cutoff (3 / 4) (fun _ => 1) 1 0 (fun _ => 1).
Proof.
  split; [intros i Hi; cbn; lra|]. split; [apply la_ex_ok|]. split; [intros; apply gp_total, g_ex_good|].
  split; [apply (g_ex_scatters 2 true true 0)|]. split; [apply (g_ex_scatters 2 true true 1)|].
  split; [|reflexivity]. intros H. specialize (H 0%nat ltac:(lia)). rewrite Rabs_right in H by lra. lra.
Qed.

(** C22: the particular solution for the direct beam, whichever path computed it. *)
Theorem C22_beam_particular_solution :
  forall (g : gp_in) (la : linalg) jG jK jA jX jGi (o : gp_out),
  (forall i, (i < gp_N g)%nat -> 0 < gp_mu g i /\ gp_M_inv g i = 1 / gp_mu g i) ->
  linalg_ok la ->
  gen_and_part_sols g la jG jK jA jX jGi = Ok o ->
  gp_beam g = true ->
  forall m l wg', (m < gp_NFourier g)%nat -> (l < gp_NLayers g)%nat ->
  is_cutoff (gp_omega g l) (gp_wLeg g l) (gp_NLeg g) m wg' ->
  let NQ := (2 * gp_N g)%nat in
  let nu := node (gp_N g) (gp_mu g) in
  let A := A_spec (gp_N g) (gp_mu g) (gp_W g) (gp_omega g l) wg' (gp_NLeg g) m in
  let X := X_spec (gp_I0_div_4pi g) (gp_omega g l) wg' (gp_NLeg g) m (gp_mu0 g) in
  (forall i, (i < NQ)%nat ->
     rsum NQ (fun j => (A i j + delta i j / gp_mu0 g) * o_B o m l j) = X (nu i) / nu i) /\
  (negligible (gp_omega g l) (gp_wLeg g l) (gp_NLeg g) m -> forall i, o_B o m l i = 0).
Proof.
  intros g la jG jK jA jX jGi o Hmu Hla Ho Hb m l wg' Hm Hl Hc.
  exact (beam_particular g Hmu la Hla jG jK jA jX jGi o Ho m l wg' Hb Hm Hl Hc).
Qed.
Print Assumptions C22_beam_particular_solution.
(** Both code paths are reached: with an isotropic source (inverse) and without (solve). *)
Example C22_nonvacuous :
  (forall jG jK jA jX jGi, exists o, gen_and_part_sols (g_ex 2 true true) (la_ex []) jG jK jA jX jGi = Ok o) /\
  (forall jG jK jA jX jGi, exists o, gen_and_part_sols (g_ex 2 true false) (la_ex []) jG jK jA jX jGi = Ok o) /\
  X_spec 1 (3 / 4) (fun _ => 1) 1 0 (1 / 2) (1 / 2) = 3 / 4 /\
  negligible 0 (fun _ => 1) 1 0.
Proof.
  split; [intros; apply gp_total, g_ex_good|]. split; [intros; apply gp_total, g_ex_good|]. split.
  - unfold X_spec. cbn -[lpmv poch_term]. rewrite !lpmv_00, poch_0. field.
  - intros e He. replace (0 / 2 * 1) with 0 by lra. rewrite Rabs_R0. lra.
Qed.

(** C23: whatever the np.empty buffers initially contain, the stage fails in the same way or
    returns the same entries. *)
Theorem C23_no_uninitialised_memory :
  forall (g : gp_in) (la : linalg) jG jK jA jX jGi jG' jK' jA' jX' jGi',
  match gen_and_part_sols g la jG jK jA jX jGi, gen_and_part_sols g la jG' jK' jA' jX' jGi' with
  | Ok o1, Ok o2 => forall m l, (m < gp_NFourier g)%nat -> (l < gp_NLayers g)%nat ->
      let NQ := (2 * gp_N g)%nat in
      (forall i j, (i < NQ)%nat -> (j < NQ)%nat -> o_G o1 m l i j = o_G o2 m l i j) /\
      (forall i, (i < NQ)%nat -> o_K o1 m l i = o_K o2 m l i) /\
      (gp_beam g = true -> forall i, (i < NQ)%nat -> o_B o1 m l i = o_B o2 m l i) /\
      (gp_iso g = true -> forall i j, (i < NQ)%nat -> (j < NQ)%nat -> o_Ginv o1 l i j = o_Ginv o2 l i j)
  | Err e1, Err e2 => e1 = e2
  | _, _ => False
  end.
Proof. exact junk_indep. Qed.
Print Assumptions C23_no_uninitialised_memory.
Example C23_nonvacuous :
  forall jG jK jA jX jGi, exists o, gen_and_part_sols (g_ex 2 true true) (la_ex []) jG jK jA jX jGi = Ok o.
Proof. intros; apply gp_total, g_ex_good. Qed.
