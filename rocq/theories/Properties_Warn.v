(** Properties C83 and C84: which warnings a call issues, what they mean, and that a silent call may
    still have no answer. *)
From Coq Require Import String Reals Lra Lia List Bool Arith ZArith.
From Coquelicot Require Import Coquelicot.
From Verif Require Import Base Tensor Spec M_LinAlg Spec_RTE M_Subroutines M_Assemble M_Pydisort Spec_Sol Spec_Valid Spec_Calls Spec_Phys Spec_Solved Spec_Sun Spec_Rates Spec_Lossy
  P_Gauss P_Rates2 P_Lossy2 P_Lossy3 P_Orth3 Examples5 M_Warn Spec_Warn P_Warn2.
Import ListNotations.
Local Open Scope R_scope.

(** C83: an answered call issues no warning twice. It warns of the zeroth phase coefficient exactly if
    in some scattering layer it is not 1, of the number of modes exactly if the intensity is computed
    with more than 64, of the albedo exactly if some scaled albedo exceeds 1 - 1e-6, of the phase
    function exactly if some scaled coefficient used, other than the zeroth, exceeds 0.95 in
    magnitude or is undefined (forward fraction 1). *)
Theorem C83_warned :
  forall p lg la jk out, pydisort p lg la jk = Ok out -> NoDup (py_warnings p lg) /\
  (In WLeg0 (py_warnings p lg) <-> exists l, (l < nlayers p)%nat /\ albedo p l <> 0 /\ at2 (p_Leg p) l 0%nat <> 1) /\
  (In WFourier (py_warnings p lg) <-> (64 < nmodes p)%nat) /\
  (In WAlbedo (py_warnings p lg) <-> exists l, (l < nlayers p)%nat /\ 1 - 1 / 1000000 < albedo_s p l) /\
  (In WLeg (py_warnings p lg) <-> exists l k, (l < nlayers p)%nat /\ (1 <= k < ncoeffs p)%nat /\ (fwd p l = 1 \/ 95/100 < Rabs (phase_s p l k))).
Proof. exact warned. Qed.
Print Assumptions C83_warned.
(** Every warning is issued by an answered call. *)
Example C83_nonvacuous jk : exists p p' out out', pydisort p gauss_rule la_full jk = Ok out /\ pydisort p' gauss_rule la_full jk = Ok out' /\
  In WLeg0 (py_warnings p gauss_rule) /\ In WAlbedo (py_warnings p gauss_rule) /\ In WLeg (py_warnings p gauss_rule) /\ ~ In WFourier (py_warnings p gauss_rule) /\
  In WFourier (py_warnings p' gauss_rule) /\ ~ In WLeg0 (py_warnings p' gauss_rule) /\ nmodes p' = 65%nat.
Proof.
  destruct (loud_answer 2 jk) as (out & H). destruct loud_warn as (H0 & H1 & H2). destruct (en_solved 65 jk ltac:(lia)) as (x & out' & _ & _ & H'). destruct (en_sizes 65 x) as (_ & E & _).
  eexists _, _, out, out'. split; [exact H|]. split; [exact H'|]. split; [exact H0|]. split; [exact H1|]. split; [exact H2|].
  split; [rewrite (proj1 (proj2 (proj2 (warned _ _ _ _ _ H)))); cbn; lia|]. split; [apply (warned _ _ _ _ _ H'); rewrite E; lia|]. split; [|exact E].
  rewrite (proj1 (proj2 (warned _ _ _ _ _ H'))). intros (l & Hl & _ & HN). apply HN. cbn. reflexivity.
Qed.

(** C83: a call rejected for its input warns of nothing but the zeroth coefficient and the number of
    modes. *)
Theorem C83_rejected :
  forall p lg w, ~ valid p -> In w (py_warnings p lg) -> w = WLeg0 \/ w = WFourier.
Proof. exact warned_rejected. Qed.
Print Assumptions C83_rejected.
Example C83_rejected_nonvacuous lg : exists p, ~ valid p /\ In WLeg0 (py_warnings p lg).
Proof.
  exists (at_sun (p_w 2 (1/2) 0 (Some 1%Z)) 2). split; [|exact (bad_sun_warns lg)]. intros V. pose proof (v_mu0 _ V) as H. cbn in H. lra.
Qed.

(** C83: when the zeroth coefficient is warned of, the call gives exactly what it gives with every
    zeroth coefficient set to 1, error or answer. *)
Theorem C83_corrected :
  forall p lg la jk, In WLeg0 (py_warnings p lg) -> pydisort p lg la jk = pydisort (normalised p) lg la jk.
Proof. exact warned_corrected. Qed.
Print Assumptions C83_corrected.
Example C83_corrected_nonvacuous jk : exists p out, In WLeg0 (py_warnings p gauss_rule) /\ pydisort p gauss_rule la_full jk = Ok out /\ at2 (p_Leg p) 0%nat 0%nat = 2 /\ at2 (p_Leg (normalised p)) 0%nat 0%nat = 1.
Proof.
  destruct (loud_answer 2 jk) as (out & H). eexists _, out. split; [exact (proj1 loud_warn)|]. split; [exact H|]. split; reflexivity.
Qed.

(** C84 is false: an accepted call may issue no warning and have no answer. *)
Theorem C84_refuted :
  exists p, valid p /\ forall lg, py_warnings p lg = [] /\
  forall la jk out, leggauss_ok (half p) (lg (half p)) -> linalg_ok la -> linalg_total la -> pydisort p lg la jk <> Ok out.
Proof.
  exists (p_hg 2). split; [apply hg_valid; lia|]. intros lg. split; [apply hg_silent; lia|].
  intros la jk out Hlg Hla Hlt. exact (no_answer (p_hg 2) lg la jk 1 0 Hlg Hla Hlt (le_n 2) (le_n 1) (hg_over 2 (le_n 2)) out).
Qed.
Print Assumptions C84_refuted.
Example C84_refuted_nonvacuous : leggauss_ok (half (p_hg 2)) (gauss_rule (half (p_hg 2))) /\ linalg_ok la_full /\ linalg_total la_full.
Proof. split; [apply gauss_rule_ok|]. split; [exact la_full_ok|exact la_full_total]. Qed.

(** C84: with two streams, no warning of the phase function and no scaled albedo above 0.935 the call
    is answered exactly if the beam does not resonate. *)
Theorem C84_two_streams_partial :
  forall p rho lg la jk, well_formed p rho -> p_NQuad p = 2%Z ->
  (forall m, (m < nmodes p)%nat -> (m < length (p_BDRF p))%nat -> Rabs (rho m (1/2) (1/2)) <= if Nat.eqb m 0 then 1 else 2) ->
  leggauss_ok (half p) (lg (half p)) -> linalg_ok la -> linalg_unique la -> linalg_complete la -> linalg_total la ->
  ~ In WLeg (py_warnings p lg) -> (forall l, (l < nlayers p)%nat -> albedo_s p l <= 935/1000) ->
  (exists out, pydisort p lg la jk = Ok out) <-> no_resonance p.
Proof. exact silent_two. Qed.
Print Assumptions C84_two_streams_partial.
Example C84_nonvacuous : let p := p_w 1 (9/10) (9/10) None in well_formed p rho34 /\ p_NQuad p = 2%Z /\
  (forall m, (m < nmodes p)%nat -> (m < length (p_BDRF p))%nat -> Rabs (rho34 m (1/2) (1/2)) <= if Nat.eqb m 0 then 1 else 2) /\
  leggauss_ok (half p) (gauss_rule (half p)) /\ linalg_ok la_full /\ linalg_unique la_full /\ linalg_complete la_full /\ linalg_total la_full /\
  ~ In WLeg (py_warnings p gauss_rule) /\ (forall l, (l < nlayers p)%nat -> albedo_s p l <= 935/1000) /\ no_resonance p /\ nmodes p = 2%nat.
Proof.
  cbv zeta. split; [apply w_wf; auto; lra|]. split; [reflexivity|]. split; [apply w_surface|]. split; [apply gauss_rule_ok|]. split; [exact la_full_ok|]. split; [exact la_full_unique|]. split; [exact la_full_complete|]. split; [exact la_full_total|].
  split; [exact quiet_leg|]. split; [|split; [exact quiet_free|reflexivity]]. intros l Hl. destruct l; [|cbn in Hl; lia]. rewrite (proj1 (w_as 1 (9/10) (9/10) None)). lra.
Qed.
