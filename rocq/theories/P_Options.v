(** Consequences of P_Whole for changing one option of a call. *)
From Coq Require Import Classical String Reals Lra Lia List Bool Arith ZArith.
From Verif Require Import Base Tensor Spec M_LinAlg Spec_RTE M_Subroutines M_GenPart M_Coeffs M_Assemble M_Pydisort Spec_Sol Spec_Calls
  P_Valid P_Pydisort P_Pydisort2 P_Pydisort4 P_Whole.
Import ListNotations.
Local Open Scope R_scope.

Section Calls.
  Variables (p : py_in) (lg : leggauss_t) (la : linalg).

  Lemma call_valid jk out : pydisort p lg la jk = Ok out -> valid p.
  Proof. intros H. apply (pydisort_parts _ _ _ _ _ H). Qed.

  Theorem call_banded bn jk jk' out out' : linalg_ok la -> linalg_unique la -> leggauss_ok (half p) (lg (half p)) ->
    pydisort p lg la jk = Ok out -> pydisort (with_banded p bn) lg la jk' = Ok out' -> same_outputs out out'.
  Proof.
    intros Hla Hlu Hlg H H'. destruct (options_agree p lg la Hla Hlg _ _ _ _ jk jk' out out' (or_introl Hlu) H H' (le_n _)) as [S1 S2].
    split; [exact S1|]. apply S2; auto.
  Qed.
  Theorem call_banded_ok bn jk jk' out : linalg_ok la -> linalg_unique la -> linalg_complete la -> leggauss_ok (half p) (lg (half p)) ->
    pydisort p lg la jk = Ok out -> (3 <= bn)%Z -> exists out', pydisort (with_banded p bn) lg la jk' = Ok out' /\ same_outputs out out'.
  Proof.
    intros Hla Hlu Hlc Hlg H Hb. pose proof (call_valid jk out H) as V.
    destruct (options_found p lg la Hla Hlg (p_NFourier p) (p_only_flux p) bn (p_autograd p) jk jk' out Hlu Hlc H (conj (nmodes_pos p V) (le_n _)) Hb) as (out' & H').
    exists out'. split; [exact H'|]. exact (call_banded bn jk jk' out out' Hla Hlu Hlg H H').
  Qed.
  Theorem call_NFourier nf jk jk' out : linalg_ok la -> leggauss_ok (half p) (lg (half p)) ->
    pydisort p lg la jk = Ok out -> (1 <= nmodes (with_NFourier p nf) <= nmodes p)%nat ->
    exists out', pydisort (with_NFourier p nf) lg la jk' = Ok out' /\ same_fluxes out out'.
  Proof.
    intros Hla Hlg H Hn. pose proof (call_valid jk out H) as V.
    destruct (options_ok p lg la Hla Hlg _ _ _ _ jk jk' out H Hn (v_band p V) (iff_refl _)) as (out' & H').
    exists out'. split; [exact H'|]. apply (options_agree p lg la Hla Hlg _ _ _ _ jk jk' out out' (or_intror (iff_refl _)) H H'). apply Hn.
  Qed.
  Theorem call_modes nf jk jk' out : linalg_ok la -> leggauss_ok (half p) (lg (half p)) ->
    pydisort p lg la jk = Ok out -> (1 <= nmodes (with_NFourier p nf) <= nmodes p)%nat ->
    exists out', pydisort (with_NFourier p nf) lg la jk' = Ok out' /\
      forall U U', modes_of p out U -> modes_of (with_NFourier p nf) out' U' ->
      forall m i t, seen p m -> seen (with_NFourier p nf) m -> (i < streams p)%nat -> 0 <= t <= bottom p -> U m i t = U' m i t.
  Proof.
    intros Hla Hlg H Hn. destruct (call_NFourier nf jk jk' out Hla Hlg H Hn) as (out' & H' & _). exists out'. split; [exact H'|].
    intros U U' HU HU'. apply (options_modes p lg la Hla Hlg _ _ _ _ jk jk' out out' U U' (or_intror (iff_refl _)) H H'); auto. apply Hn.
  Qed.
  Theorem call_autograd ag jk jk' out : linalg_ok la -> leggauss_ok (half p) (lg (half p)) ->
    pydisort p lg la jk = Ok out ->
    exists out', pydisort (with_autograd p ag) lg la jk' = Ok out' /\ same_fluxes out out' /\ same_intensity_values out out' /\
      ((nt_applies p -> (4 <= p_NQuad p)%Z) -> same_intensity out out').
  Proof.
    intros Hla Hlg H. pose proof (call_valid jk out H) as V.
    destruct (options_ok p lg la Hla Hlg (p_NFourier p) (p_only_flux p) (p_banded p) ag jk jk' out H (conj (nmodes_pos p V) (le_n _)) (v_band p V) (iff_refl _)) as (out' & H').
    exists out'. split; [exact H'|]. destruct (options_agree p lg la Hla Hlg _ _ _ _ jk jk' out out' (or_intror (iff_refl _)) H H' (le_n _)) as [S1 S2].
    split; [exact S1|].
    assert (S3 : (nt_applies p -> (4 <= p_NQuad p)%Z) -> same_intensity out out').
    { intros HN. apply S2; auto. intros HT. right. specialize (HN HT). unfold half. clear -HN. assert (2 <= p_NQuad p / 2)%Z by (apply Z.div_le_lower_bound; lia). lia. }
    split; [|exact S3].
    assert (S4 : same_intensity out out' -> same_intensity_values out out').
    { unfold same_intensity, same_intensity_values. destruct (po_u out), (po_u out'); auto. }
    destruct (classic (nt_applies p)) as [HT|HT]; [|apply S4, S3; tauto].
    destruct (Z.le_gt_cases 4 (p_NQuad p)) as [H4|H4]; [apply S4, S3; auto|].
    apply (autograd_one p lg la Hla Hlg jk jk' ag out out'); auto.
    pose proof (v_nq p V). pose proof (v_even p V). pose proof (Z.div_mod (p_NQuad p) 2 ltac:(lia)). unfold half. lia.
  Qed.
  Theorem call_junk jk jk' : linalg_ok la -> leggauss_ok (half p) (lg (half p)) ->
    match pydisort p lg la jk, pydisort p lg la jk' with
    | Ok out, Ok out' => same_outputs out out'
    | Err e, Err e' => e = e'
    | _, _ => False
    end.
  Proof. intros Hla Hlg. exact (junk_same p lg la Hla Hlg jk jk'). Qed.
End Calls.

Theorem call_only_flux p lg la jk jk' out : linalg_ok la -> leggauss_ok (half p) (lg (half p)) ->
  pydisort (with_only_flux p false) lg la jk = Ok out ->
  exists out', pydisort (with_only_flux p true) lg la jk' = Ok out' /\ same_fluxes out out' /\ po_u out' = None.
Proof.
  intros Hla Hlg H. set (q := with_only_flux p false) in *. pose proof (call_valid q lg la jk out H) as V.
  assert (Hn : (1 <= nmodes (with_only_flux q true) <= nmodes q)%nat).
  { pose proof (nmodes_pos q V). unfold nmodes, with_only_flux. cbn. unfold nmodes in H0. cbn in H0. lia. }
  destruct (options_ok q lg la Hla Hlg (p_NFourier q) true (p_banded q) (p_autograd q) jk jk' out H Hn (v_band q V) (iff_refl _)) as (out' & H').
  exists out'. split; [exact H'|]. split.
  - apply (options_agree q lg la Hla Hlg _ _ _ _ jk jk' out out' (or_intror (iff_refl _)) H H'). apply Hn.
  - destruct (pydisort_parts _ _ _ _ _ H') as (_ & ss & r & sv & _ & _ & _ & _ & _ & _ & _ & ->). reflexivity.
Qed.
