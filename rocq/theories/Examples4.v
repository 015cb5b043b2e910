(** Cases for the properties of sign, size and superposition. *)
From Coq Require Import String Reals Lra Lia List Bool Arith ZArith.
From Coquelicot Require Import Coquelicot.
From Verif Require Import Base Tensor Spec M_LinAlg Spec_RTE M_Subroutines M_Assemble M_Pydisort Spec_Sol Spec_Valid Spec_Calls Spec_Unique Spec_Phys
  P_Sub P_Sub3 P_Pydisort2 P_Pydisort4 P_Pydisort5 P_Pydisort6 P_Pydisort8 P_Unique2 P_Max3 P_Max4 P_Super Examples Examples2 Examples3.
Import ListNotations.
Local Open Scope R_scope.

Definition px (I0 bp bn s : R) : py_in := p_ex I0 (1 / 4) bp bn s (1 / 2) false false false.
Section S.
  Variables (I0 bp bn s : R).
  Hypothesis HI : 0 <= I0.
  Hypothesis Hbp : 0 <= bp.
  Hypothesis Hbn : 0 < bn.
  Hypothesis Hs : 0 <= s.
  Let p := px I0 bp bn s.

  Lemma s_ok jk : exists out, pydisort p lg_12 (la_ex []) jk = Ok out.
  Proof. apply ex_ok; try lra. Qed.
  Lemma s_lg : leggauss_ok (half p) (lg_12 (half p)). Proof. exact leggauss1_ok. Qed.
  Lemma s_bd : boundary_data p (fun _ => bn) (fun _ => bp) (fun _ _ _ => 1 / 2).
  Proof.
    constructor.
    - apply bc_scal; reflexivity.
    - apply bc_scal; reflexivity.
    - intros [|m] Hm; cbn in *; [|lia]. left. exists (1 / 2). auto.
    - left. split; intros idx _; cbn; lra.
  Qed.
  Lemma s_phase l x y : (l < nlayers p)%nat -> phase_mode p 0 l x y = 1.
  Proof.
    intros Hl. assert (l = 0)%nat as -> by (cbn in Hl; lia). unfold phase_mode. change (ncoeffs p) with 2%nat. cbn [rsum Nat.leb].
    unfold wphase_s, phase_s, phase, fwd. cbn [p_f p px p_ex nth p_Leg at2 Nat.eqb]. unfold poch_term, lpmv. cbn. field.
  Qed.
  Lemma s_source l t : (l < nlayers p)%nat -> source p l t = s.
  Proof. intros Hl. assert (l = 0)%nat as -> by (cbn in Hl; lia). unfold source. cbn. ring. Qed.
  Lemma s_facts jk out : pydisort p lg_12 (la_ex []) jk = Ok out -> exists w, double_gauss (half p) (po_mu out) w /\
    phase_nonneg p (po_mu out) /\ beam_phase_nonneg p (po_mu out) /\ passive_surface p (po_mu out) w (fun _ _ => 1 / 2) /\
    (forall i, (i < half p)%nat -> reflectance p (po_mu out) w (fun _ _ => 1 / 2) i = 1 / 2).
  Proof.
    intros H. destruct (modes_exist p lg_12 (la_ex []) jk out (la_ex_ok []) s_lg H) as (U & HU).
    destruct (call_fluxes p lg_12 (la_ex []) jk out (la_ex_ok []) s_lg H U HU) as (w & Hw & _). exists w. split; [exact Hw|].
    assert (Hr : forall i, (i < half p)%nat -> reflectance p (po_mu out) w (fun _ _ => 1 / 2) i = 1 / 2).
    { intros i Hi. unfold reflectance. change (Nat.ltb 0 (length (p_BDRF p))) with true. cbn match.
      rewrite (rsum_ext _ _ (fun j => 1 / 2 * (w j * nth j (po_mu out) 0))) by (intros; ring). rewrite rsum_scal, (dg_first (half p) (po_mu out) w); [field|cbn; lia|exact Hw]. }
    split; [intros l i j Hl _ _; rewrite s_phase by exact Hl; lra|]. split; [intros _ l i Hl _; rewrite s_phase by exact Hl; lra|]. split; [|exact Hr].
    constructor; [intros; lra|intros; lra|intros i Hi; rewrite Hr by exact Hi; lra].
  Qed.
  Lemma s_kept : scattering_kept p.
  Proof. intros l Hl. assert (l = 0)%nat as -> by (cbn in Hl; lia). right. unfold albedo_s, scl, albedo, fwd. cbn. lra. Qed.
End S.
Lemma s_same I0 bp bn s I0' bp' bn' s' : same_medium (px I0 bp bn s) (px I0' bp' bn' s').
Proof. constructor; reflexivity. Qed.
