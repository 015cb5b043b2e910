(** Properties about real rates of decay with depth. *)
From Coq Require Import String Reals Lra Lia List Bool Arith ZArith.
From Coquelicot Require Import Coquelicot.
From Verif Require Import Base Tensor Spec M_LinAlg Spec_RTE M_Subroutines M_Assemble M_Pydisort Spec_Sol Spec_Valid Spec_Calls Spec_Phys Spec_Solved Spec_Rates
  P_Legendre P_Rates P_Rates2 P_Gauss Examples2 Examples5 Examples9.
Import ListNotations.
Local Open Scope R_scope.

(** C80 (part): where radiation of one symmetry about the horizontal always loses, and some of the
    other symmetry does not, in a mode and layer that scatter, there is no answer. *)
Theorem C80_overscattering_unsolved_partial :
  forall p lg la jk m l, leggauss_ok (half p) (lg (half p)) -> linalg_ok la -> linalg_total la ->
  (m < nmodes p)%nat -> (l < nlayers p)%nat -> overscatters p m l -> forall out, pydisort p lg la jk <> Ok out.
Proof. exact no_answer. Qed.
Print Assumptions C80_overscattering_unsolved_partial.

(** C80 (part): with two streams and both azimuthal modes this happens as soon as the scaled albedo
    times the scaled asymmetry of a layer reaches 8/9. *)
Theorem C80_two_streams_partial :
  forall p lg la jk l, leggauss_ok (half p) (lg (half p)) -> linalg_ok la -> linalg_total la ->
  half p = 1%nat -> ncoeffs p = 2%nat -> nmodes p = 2%nat -> (l < nlayers p)%nat -> 8/9 <= albedo_s p l * phase_s p l 1 ->
  forall out, pydisort p lg la jk <> Ok out.
Proof.
  intros p lg la jk l Hlg Hla Hlt HN HC HM Hl Hg. refine (no_answer p lg la jk 1 l Hlg Hla Hlt _ Hl (two_streams_over p l HN HC _)); [rewrite HM; lia|lra].
Qed.
Print Assumptions C80_two_streams_partial.

(** C80 is false: a single layer of a Henyey-Greenstein phase function, which is positive in every
    direction, and an albedo below 1 over a black surface, however many of its coefficients are
    given, is accepted and has no answer. *)
Theorem C80_refuted :
  exists g omega, 0 < g < 1 /\ 0 < omega < 1 /\
  (forall x, -1 <= x <= 1 -> exists ph, 0 < ph /\ is_series (fun k => (2 * INR k + 1) * g ^ k * legendre k x) ph) /\
  forall n, (2 <= n)%nat -> exists p, valid p /\ p_NQuad p = 2%Z /\ p_NLeg p = None /\ p_NFourier p = None /\ nlayers p = 1%nat /\ p_omega p = [omega] /\
    ncol (p_Leg p) = n /\ henyey_greenstein p g /\ p_f p = [0] /\ p_BDRF p = [] /\ 0 < p_I0 p /\
    forall lg la jk out, leggauss_ok (half p) (lg (half p)) -> linalg_ok la -> linalg_total la -> pydisort p lg la jk <> Ok out.
Proof.
  exists (9/10), (99/100). split; [lra|]. split; [lra|]. split.
  - intros x Hx. exists ((1 - (9/10) ^ 2) / sqrt (1 + (9/10) ^ 2 - 2 * (9/10) * x) ^ 3). split; [apply hg_pos|apply hg_series]; lra.
  - intros n Hn. exists (p_hg n). split; [apply hg_valid; exact Hn|]. do 6 (split; [reflexivity|]). split; [intros l k _ _; reflexivity|].
    do 2 (split; [reflexivity|]). split; [cbn; lra|].
    intros lg la jk out Hlg Hla Hlt. exact (no_answer (p_hg n) lg la jk 1 0 Hlg Hla Hlt (le_n 2) (le_n 1) (hg_over n Hn) out).
Qed.
Print Assumptions C80_refuted.
Example C80_nonvacuous : linalg_ok la_full /\ linalg_total la_full /\ leggauss_ok (half (p_hg 9)) (gauss_rule (half (p_hg 9))) /\ valid (p_hg 9) /\ overscatters (p_hg 9) 1 0 /\
  half (p_hg 9) = 1%nat /\ ncoeffs (p_hg 9) = 2%nat /\ nmodes (p_hg 9) = 2%nat /\ 8/9 <= albedo_s (p_hg 9) 0 * phase_s (p_hg 9) 0 1.
Proof.
  split; [exact la_full_ok|]. split; [exact la_full_total|]. split; [apply gauss_rule_ok|]. split; [apply hg_valid; lia|]. split; [apply hg_over; lia|].
  do 3 (split; [reflexivity|]). unfold albedo_s, phase_s, scl, albedo, fwd, phase; cbn -[Rle Rlt]. lra.
Qed.
