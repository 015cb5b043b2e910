(** Properties C89 and C90: how an atmosphere is written down does not matter. *)
From Coq Require Import String Reals Lra Lia List Bool Arith ZArith.
From Coquelicot Require Import Coquelicot.
From Verif Require Import Base Tensor Spec M_LinAlg Spec_RTE M_Subroutines M_Assemble M_Pydisort Spec_Sol Spec_Valid Spec_Calls Spec_Unique Spec_Phys Spec_Solved Spec_Rates Spec_Lossy Spec_Physics
  P_Gauss P_Lossy3 P_Pydisort2 P_Scaled P_Physics P_Physics2 Examples5 Examples6.
Import ListNotations.
Local Open Scope R_scope.

(** C89: answered calls for two descriptions of the same atmosphere report the same values. *)
Theorem C89_same_values :
  forall p q g lg la la' jk jk' out out' rho rho', linalg_ok la -> linalg_unique la -> linalg_ok la' -> linalg_unique la' -> leggauss_ok (half p) (lg (half p)) ->
  same_physics p q g rho rho' -> surface_is p rho -> surface_is q rho' -> pydisort p lg la jk = Ok out -> pydisort q lg la' jk' = Ok out' ->
  ordinary_sources p -> ordinary_sources q -> same_reports (same_azimuths p q) out out'.
Proof. exact physics_same. Qed.
Print Assumptions C89_same_values.
(** C89: if the atmosphere loses, for linear algebra that only verifies its answers. *)
Theorem C89_same_values_lossy :
  forall p q g lg la la' jk jk' out out' rho rho', lossy_input p rho -> well_formed q rho' -> same_physics p q g rho rho' -> nmodes q = nmodes p ->
  leggauss_ok (half p) (lg (half p)) -> linalg_ok la -> linalg_ok la' -> pydisort p lg la jk = Ok out -> pydisort q lg la' jk' = Ok out' ->
  ordinary_sources p -> ordinary_sources q -> same_reports (same_azimuths p q) out out'.
Proof. exact physics_lossy. Qed.
Print Assumptions C89_same_values_lossy.
Example C89_nonvacuous jk jk' : exists out out', pydisort (p_hgd 9) gauss_rule la_full jk = Ok out /\ pydisort p_hgd' gauss_rule la_full jk' = Ok out' /\
  linalg_ok la_full /\ linalg_unique la_full /\ leggauss_ok (half (p_hgd 9)) (gauss_rule (half (p_hgd 9))) /\
  same_physics (p_hgd 9) p_hgd' (fun _ => 0%nat) rho34 rho34_0 /\ surface_is (p_hgd 9) rho34 /\ surface_is p_hgd' rho34_0 /\ lossy_input (p_hgd 9) rho34 /\ well_formed p_hgd' rho34_0 /\
  ordinary_sources (p_hgd 9) /\ ordinary_sources p_hgd' /\ same_azimuths (p_hgd 9) p_hgd' /\
  nlayers (p_hgd 9) = 1%nat /\ nlayers p_hgd' = 2%nat /\ length (p_BDRF (p_hgd 9)) = 1%nat /\ length (p_BDRF p_hgd') = 2%nat.
Proof.
  destruct (hgd'_solved jk jk') as (out & out' & H & H'). exists out, out'. assert (Hn : (2 <= 9)%nat) by lia.
  split; [exact H|]. split; [exact H'|]. split; [exact la_full_ok|]. split; [exact la_full_unique|]. split; [apply gauss_rule_ok|]. split; [exact (hgd_same 9 Hn)|].
  split; [exact (wf_rho _ _ (hgd_wf 9 Hn))|]. split; [exact (wf_rho _ _ hgd'_wf)|]. split; [exact (hgd_lossy 9 Hn)|]. split; [exact hgd'_wf|].
  split; [left; left; cbn; lra|]. split; [left; left; cbn; lra|]. split; [|repeat split].
  split; [intros (E & _); discriminate|]. split; [intros (E & _); discriminate|]. split; [reflexivity|]. split; reflexivity.
Qed.

(** C90, as hoped: of two descriptions of the same atmosphere the one is solved if and only if the
    other is. Refuted: without a beam its elevation is not used, but with NT_cor a call is rejected
    if the unused elevation is at a quadrature angle. *)
Theorem C90_solved_together_refuted :
  exists p q, valid p /\ valid q /\ same_physics p q (fun l => l) (fun _ _ _ => 0) (fun _ _ _ => 0) /\ nmodes q = nmodes p /\ ordinary_sources p /\ ordinary_sources q /\
  (forall lg la jk, leggauss_ok (half p) (lg (half p)) -> linalg_complete la -> exists out, pydisort p lg la jk = Ok out) /\
  (forall lg la jk, leggauss_ok (half q) (lg (half q)) -> pydisort q lg la jk = Err (EValue "Some quadrature angles come too close to `mu0`. Perturb `NQuad` or `mu0` to rectify this error.")).
Proof. exact dark_apart. Qed.
Print Assumptions C90_solved_together_refuted.
(** C90, the proved part: for well-formed descriptions of an atmosphere that loses. *)
Theorem C90_solved_together_partial :
  forall p q g lg la la' jk jk' rho rho', lossy_input p rho -> well_formed q rho' -> same_physics p q g rho rho' -> nmodes q = nmodes p ->
  leggauss_ok (half p) (lg (half p)) -> linalg_ok la -> linalg_unique la -> linalg_complete la -> linalg_total la -> linalg_ok la' -> linalg_unique la' -> linalg_complete la' -> linalg_total la' ->
  (exists out, pydisort p lg la jk = Ok out) <-> (exists out', pydisort q lg la' jk' = Ok out').
Proof. exact physics_solved. Qed.
Print Assumptions C90_solved_together_partial.
Example C90_nonvacuous : lossy_input (p_hgd 9) rho34 /\ well_formed p_hgd' rho34_0 /\ same_physics (p_hgd 9) p_hgd' (fun _ => 0%nat) rho34 rho34_0 /\ nmodes p_hgd' = nmodes (p_hgd 9) /\
  leggauss_ok (half (p_hgd 9)) (gauss_rule (half (p_hgd 9))) /\ linalg_ok la_full /\ linalg_unique la_full /\ linalg_complete la_full /\ linalg_total la_full.
Proof.
  assert (Hn : (2 <= 9)%nat) by lia. split; [exact (hgd_lossy 9 Hn)|]. split; [exact hgd'_wf|]. split; [exact (hgd_same 9 Hn)|]. split; [reflexivity|]. split; [apply gauss_rule_ok|].
  split; [exact la_full_ok|]. split; [exact la_full_unique|]. split; [exact la_full_complete|exact la_full_total].
Qed.

(** C34, the check made after the quadrature is known: with the corrections asked for, a call is rejected if an upward
    direction is within 1e-8 of the sun's, and no answered call has such a direction. *)
Theorem C34_angle_check :
  forall p lg la jk mu w, valid p -> leggauss_ok (half p) (lg (half p)) -> double_gauss (half p) mu w -> p_NT p = true ->
  ((exists i, (i < half p)%nat /\ Rabs (nth i mu 0 - p_mu0 p) < 1 / 100000000) ->
   pydisort p lg la jk = Err (EValue "Some quadrature angles come too close to `mu0`. Perturb `NQuad` or `mu0` to rectify this error.")) /\
  ((exists out, pydisort p lg la jk = Ok out) -> forall i, (i < half p)%nat -> 1 / 100000000 <= Rabs (nth i mu 0 - p_mu0 p)).
Proof. exact call_angle. Qed.
Print Assumptions C34_angle_check.
Example C34_angle_nonvacuous : valid (p_dark (1/2)) /\ leggauss_ok (half (p_dark (1/2))) (gauss_rule (half (p_dark (1/2)))) /\ p_NT (p_dark (1/2)) = true /\ p_mu0 (p_dark (1/2)) = 1/2 /\
  exists w, double_gauss (half (p_dark (1/2))) [1/2; -1/2] w.
Proof.
  split; [apply dark_valid|]. split; [apply gauss_rule_ok|]. split; [reflexivity|]. split; [reflexivity|].
  pose proof (mu_arr_gauss (p_dark (1/2)) gauss_rule (proj1 (gauss_rule_ok _))) as HD. destruct (dg_one _ _ HD) as (E & _). rewrite E in HD. eexists. exact HD.
Qed.
