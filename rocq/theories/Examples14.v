(** Sources with many coefficients: examples. *)
From Coq Require Import String Reals Lra Lia List Bool Arith ZArith.
From Coquelicot Require Import Coquelicot.
From Verif Require Import Base Tensor Spec M_LinAlg Spec_RTE M_Subroutines M_MathscrV M_Assemble M_Pydisort M_Ints Spec_Sol Spec_Valid Spec_Calls Spec_Phys Spec_Solved Spec_Lossy
  P_Gauss P_Lossy2 P_Lossy3 P_Orth3 P_Warn2 Examples5 Examples6 P_Ints P_Ints3.
Import ListNotations.
Local Open Scope R_scope.

(** Two layers with a source that has [n] coefficients, none of them zero. *)
Definition p_src (n : nat) : py_in := {|
  p_tau := [1; 3]; p_omega := [1/2; 1/4]; p_NQuad := 2;
  p_Leg := mkA2 2 2 (fun l k => if Nat.eqb k 0 then 1 else 1/2);
  p_mu0 := 3/5; p_I0 := 1; p_phi0 := 0; p_NLeg := None; p_NFourier := None;
  p_bpos := t0 0; p_bneg := t0 1; p_only_flux := false; p_f := [0; 0]; p_NT := false;
  p_BDRF := [MScal (3/4)]; p_s := mkA2 2 n (fun l j => INR (S (l + j))); p_banded := 10; p_autograd := false |}.
Section Src.
  Variable n : nat.
  Local Notation p := (p_src n).
  Lemma src_valid : valid p.
  Proof.
    constructor; cbn -[Rlt Rle PI pow].
    - lia.
    - intros [|[|l]] Hl; cbn; [lra|lra|lia].
    - intros [|[|l]] Hl; cbn; [lra|lra|lia].
    - intros w [<-|[<-|[]]]; lra.
    - lia.
    - reflexivity.
    - reflexivity.
    - reflexivity.
    - reflexivity.
    - intros l k Hl Hk. destruct k as [|k]; [lia|]. cbn; lra.
    - lia.
    - reflexivity.
    - lia.
    - lia.
    - lra.
    - intros _. lra.
    - intros _. pose proof PI_RGT_0. lra.
    - right; left; reflexivity.
    - right; left; reflexivity.
    - intros f [<-|[<-|[]]]; lra.
    - lia.
  Qed.
  Lemma src_wf : well_formed p rho34.
  Proof.
    constructor.
    - apply src_valid.
    - exists (fun _ => 0). apply bc_zero; auto.
    - exists (fun _ => 1). apply bc_scal; auto.
    - intros [|m] Hm; [|cbn in Hm; lia]. left. exists (3/4). auto.
    - intros _. right. reflexivity.
    - intros _. left. cbn. lra.
    - intros H. discriminate.
  Qed.
  Lemma src_answer jk : exists out, pydisort p gauss_rule la_full jk = Ok out.
  Proof.
    apply (two_iff p rho34 gauss_rule la_full jk); [apply src_wf|reflexivity| |apply gauss_rule_ok|exact la_full_ok|exact la_full_unique|exact la_full_complete|exact la_full_total|].
    - intros m _ _. unfold rho34. rewrite Rabs_right by lra. destruct (Nat.eqb m 0); lra.
    - intros m l Hm Hl _. assert (E : (albedo_s p 0 = 1/2 /\ phase_s p 0 1 = 1/2) /\ albedo_s p 1 = 1/4 /\ phase_s p 1 1 = 1/2).
      { unfold albedo_s, phase_s, scl, albedo, fwd, phase; cbn -[Rle Rlt]. repeat split; field. }
      destruct E as ((E1 & E2) & E3 & E4). unfold rate2. change (ncoeffs p) with 2%nat. cbv zeta. change (p_mu0 p) with (3/5). cbn [Nat.eqb].
      destruct l as [|[|l]]; [rewrite E1, E2|rewrite E3, E4|cbn in Hl; lia]; destruct (Nat.eqb m 0); (split; [lra|intros _; lra]).
  Qed.
  (** On every machine. *)
  Lemma src_machine b jk : exists out, @pydisort (machine_ints b) p gauss_rule la_full jk = Ok out.
  Proof. apply (answered_same exact_ints (machine_ints b)); [exact la_full_ok|exact la_full_unique|exact la_full_complete|apply src_answer]. Qed.
  Lemma src_last l : (1 <= n)%nat -> at2 (p_s p) l (n - 1)%nat <> 0.
  Proof. intros _. cbn [p_src p_s at2]. apply not_0_INR. lia. Qed.
End Src.
