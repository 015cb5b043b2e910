(** Property C41 with the Nakajima-Tanaka corrections: the azimuthal mean of the intensity. *)
From Coq Require Import String Reals Lra Lia List Bool Arith ZArith.
From Coquelicot Require Import Coquelicot.
From Verif Require Import Base Tensor Spec M_LinAlg Spec_RTE M_Subroutines M_Assemble M_Pydisort Spec_Sol Spec_Valid Spec_Calls Spec_NT Spec_NTMean
  P_Gauss P_Error P_Pydisort4 P_NT3 P_NTMean Examples5 Examples13.
Import ListNotations.
Local Open Scope R_scope.

(** C41 with the corrections: the azimuthal mean of the reported intensity is what u0 reports, plus
    the mean of the source lost by the truncation times the intensity [G] of a unit source, plus,
    for downward directions, the mean of the second-order correction. *)
Theorem C41_corrected_mean_partial :
  forall p lg la jk out, linalg_ok la -> leggauss_ok (half p) (lg (half p)) -> pydisort p lg la jk = Ok out ->
  forall u, po_u out = Some u -> nt_finite p (po_mu out) -> forall f, nt_is p u false f ->
  exists U G, modes_of p out U /\ scattered_once p (po_mu out) (fun _ _ _ => 1) (fun i t _ => G i t) /\
    forall i t, (i < streams p)%nat -> 0 <= t <= bottom p -> fwd p (lay p t) <> 1 ->
    let x := nth i (po_mu out) 0 in
    is_RInt (f i t) 0 (2 * PI) (2 * PI * (U 0%nat i t + mean_missing p (lay p t) x * G i t
      + (if Nat.ltb i (half p) then 0 else mean_ims p x * chi_doc (- x) (mu0_s p) (mu0_s p) t))).
Proof.
  intros p lg la jk out H1 H2 H3 u H4 H5 f H6. destruct (nt_mean p lg la jk out H1 H2 H3 u H4 H5 f H6) as (U & G & A & B & _ & C). exists U, G. auto.
Qed.
Print Assumptions C41_corrected_mean_partial.
Example C41_corrected_mean_nonvacuous jk : exists out u f, let p := p_sp 1 0 0 in linalg_ok la_full /\ leggauss_ok (half p) (gauss_rule (half p)) /\
  pydisort p gauss_rule la_full jk = Ok out /\ po_u out = Some u /\ nt_finite p (po_mu out) /\ nt_is p u false f /\ forall l, fwd p l <> 1.
Proof.
  pose proof PI_RGT_0. destruct (sp_answer 1 0 0 ltac:(lra) ltac:(lra) jk) as (out & H1). destruct (call_u _ _ _ _ _ H1 eq_refl) as (u & H2).
  assert (H3 : nt_finite (p_sp 1 0 0) (po_mu out)) by (rewrite (sp_mu 1 0 0 jk out H1); apply sp_finite; lra).
  destruct (nt_solution _ _ _ _ _ la_full_ok (proj1 (gauss_rule_ok _)) H1 u H2 H3) as (w & U & G & W & _ & _ & _ & _ & _ & _ & _ & _ & _ & _ & H4).
  exists out, u. eexists. intros p. split; [exact la_full_ok|]. split; [apply gauss_rule_ok|]. split; [exact H1|]. split; [exact H2|]. split; [exact H3|]. split; [exact H4|].
  intros [|[|[|l]]]; unfold fwd; cbn; lra.
Qed.

(** The full property is false with the corrections: whenever the mean of the lost source does not
    vanish, the azimuthal mean of the reported upward intensity at the bottom of a layer above the
    last is not the value that u0 reports. *)
Theorem C41_corrected_mean_refuted :
  (forall p lg la jk out, linalg_ok la -> leggauss_ok (half p) (lg (half p)) -> pydisort p lg la jk = Ok out ->
   forall u, po_u out = Some u -> nt_finite p (po_mu out) -> forall f, nt_is p u false f -> forall U, modes_of p out U ->
   forall i l, (i < half p)%nat -> (S l < nlayers p)%nat -> fwd p l <> 1 -> mean_missing p l (nth i (po_mu out) 0) <> 0 ->
   ~ is_RInt (f i (bot_of p l)) 0 (2 * PI) (2 * PI * U 0%nat i (bot_of p l))) /\
  (forall jk, exists p out u f, linalg_ok la_full /\ leggauss_ok (half p) (gauss_rule (half p)) /\ pydisort p gauss_rule la_full jk = Ok out /\ po_u out = Some u /\
   nt_finite p (po_mu out) /\ nt_is p u false f /\ (exists U, modes_of p out U) /\
   exists i l, (i < half p)%nat /\ (S l < nlayers p)%nat /\ fwd p l <> 1 /\ mean_missing p l (nth i (po_mu out) 0) <> 0).
Proof.
  split.
  - intros p lg la jk out H1 H2 H3 u H4 H5 f H6 U H7. exact (nt_mean_differs p lg la jk out H1 H2 H3 u H4 H5 f U H6 H7).
  - intros jk. destruct (C41_corrected_mean_nonvacuous jk) as (out & u & f & H1 & H2 & H3 & H4 & H5 & H6 & H7). exists (p_sp 1 0 0), out, u, f.
    repeat (split; [assumption|]). split; [destruct (nt_mean _ _ _ _ _ H1 H2 H3 u H4 H5 f H6) as (U & G & A & _); eauto|].
    exists 0%nat, 0%nat. split; [cbn; lia|]. split; [cbn; lia|]. split; [apply H7|]. rewrite (sp_mu 1 0 0 jk out H3). exact (sp_mean 0 0).
Qed.
Print Assumptions C41_corrected_mean_refuted.
