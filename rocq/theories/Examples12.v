(** Calls that share Leg_coeffs_all: examples. *)
From Coq Require Import String Reals Lra Lia List Bool Arith ZArith.
From Coquelicot Require Import Coquelicot.
From Verif Require Import Base Tensor Spec M_LinAlg Spec_RTE M_Subroutines M_Assemble M_Pydisort M_Warn Spec_Sol Spec_Valid Spec_Calls Spec_Phys Spec_Solved Spec_Sun Spec_Rates Spec_Lossy
  P_Gauss P_Pydisort2 P_Rates2 P_Lossy2 P_Lossy3 P_Orth3 P_Warn2 Examples5 P_Error Spec_Shared M_Shared P_Shared P_Shared2.
Import ListNotations.
Local Open Scope R_scope.

(** The array: one layer, zeroth coefficient 2. *)
Definition L_bad : arr2 := mkA2 1 2 (fun _ k => if Nat.eqb k 0 then 2 else 97/100).
Definition p_loud : py_in := p_w 2 (9999999/10000000) (97/100) (Some 1%Z).
Lemma bad_is : with_phase p_loud L_bad = p_loud.
Proof. reflexivity. Qed.
(** A rejected call with the same array (the cosine of the beam is 2), then one that is answered. *)
Lemma bad_call_warns lg : In WLeg0 (py_warnings (with_phase (at_sun p_loud 2) L_bad) lg).
Proof.
  pose proof (proj1 loud_warn) as H. apply warned_iff in H as (H1 & H2 & H3). apply warned_iff. split; [exact H1|]. split; [exact H2|exact H3].
Qed.
Lemma rejected_first la jk : exists e, pydisort (with_phase (at_sun p_loud 2) L_bad) gauss_rule la jk = Err e.
Proof.
  destruct (pydisort (with_phase (at_sun p_loud 2) L_bad) gauss_rule la jk) as [out|e] eqn:E; [|eauto]. exfalso.
  pose proof (v_mu0 _ (proj1 (pydisort_parts _ _ _ _ _ E))) as H. cbn in H. lra.
Qed.

(** Two layers, the second of which does not scatter and has the phase coefficients [c] and [g]. *)
Definition L_un (c g : R) : arr2 := mkA2 2 2 (fun l k => if Nat.eqb l 0 then (if Nat.eqb k 0 then 1 else 1/2) else (if Nat.eqb k 0 then c else g)).
Definition p_un (c g : R) : py_in := {|
  p_tau := [1; 3]; p_omega := [1/2; 0]; p_NQuad := 2; p_Leg := L_un c g;
  p_mu0 := 3/5; p_I0 := 1; p_phi0 := 0; p_NLeg := None; p_NFourier := None;
  p_bpos := t0 0; p_bneg := t0 1; p_only_flux := false; p_f := [0; 0]; p_NT := false;
  p_BDRF := [MScal (3/4)]; p_s := mkA2 2 1 (fun _ _ => 0); p_banded := 10; p_autograd := false |}.
Lemma un_valid c g : -1 < g < 1 -> valid (p_un c g).
Proof.
  intros Hg. constructor; cbn -[Rlt Rle PI pow].
  - lia.
  - intros [|[|l]] Hl; cbn; [lra|lra|lia].
  - intros [|[|l]] Hl; cbn; [lra|lra|lia].
  - intros w [<-|[<-|[]]]; lra.
  - lia.
  - reflexivity.
  - reflexivity.
  - reflexivity.
  - reflexivity.
  - intros l k Hl Hk. destruct k as [|k]; [lia|]. destruct l; cbn; lra.
  - lia.
  - reflexivity.
  - lia.
  - lia.
  - lra.
  - intros _. lra.
  - intros _. pose proof PI_RGT_0. lra.
  - right; left; reflexivity.
  - right; left; reflexivity.
  - intros f [<-|[<-|[]]]; lra.
  - lia.
Qed.
Lemma un_wf c g : -1 < g < 1 -> well_formed (p_un c g) rho34.
Proof.
  intros Hg. constructor.
  - apply un_valid; auto.
  - exists (fun _ => 0). apply bc_zero; auto.
  - exists (fun _ => 1). apply bc_scal; auto.
  - intros [|m] Hm; [|cbn in Hm; lia]. left. exists (3/4). auto.
  - intros _. right. reflexivity.
  - intros _. left. cbn. lra.
  - intros H. discriminate.
Qed.
Lemma un_answer c g jk : -1 < g < 1 -> exists out, pydisort (p_un c g) gauss_rule la_full jk = Ok out.
Proof.
  intros Hg. apply (two_iff (p_un c g) rho34 gauss_rule la_full jk); [apply un_wf; auto|reflexivity| |apply gauss_rule_ok|exact la_full_ok|exact la_full_unique|exact la_full_complete|exact la_full_total|].
  - intros m _ _. unfold rho34. rewrite Rabs_right by lra. destruct (Nat.eqb m 0); lra.
  - intros m l Hm Hl _. assert (E : (albedo_s (p_un c g) 0 = 1/2 /\ phase_s (p_un c g) 0 1 = 1/2) /\ albedo_s (p_un c g) 1 = 0).
    { unfold albedo_s, phase_s, scl, albedo, fwd, phase; cbn -[Rle Rlt]. repeat split; field. }
    destruct E as ((E1 & E2) & E3). unfold rate2. change (ncoeffs (p_un c g)) with 2%nat. cbv zeta. change (p_mu0 (p_un c g)) with (3/5). cbn [Nat.eqb].
    destruct l as [|[|l]]; [rewrite E1, E2|rewrite E3|cbn in Hl; lia]; destruct (Nat.eqb m 0); (split; [lra|intros _; lra]).
Qed.
Lemma un_same c g c' g' : same_where_scattering (p_un c g) (L_un c' g') (p_Leg (p_un c g)).
Proof.
  split; [reflexivity|]. split; [reflexivity|]. intros [|[|l]] Hl Hw k; [reflexivity| |cbn in Hl; lia]. exfalso. apply Hw. reflexivity.
Qed.
(** The same call twice. *)
Lemma same_warnings_false :
  ~ (forall lg la L calls, Forall2 (fun r c => snd r = py_warnings (with_phase (fst c) L) lg) (run_calls lg la L calls) calls).
Proof.
  intros H. specialize (H gauss_rule la_full L_bad [(p_loud, junk0); (p_loud, junk0)]). inversion_clear H. inversion_clear H1.
  apply (warned_once gauss_rule la_full L_bad [(p_loud, junk0); (p_loud, junk0)] 0%nat 1%nat _ _ ltac:(lia) eq_refl eq_refl); [exact (proj1 loud_warn)|].
  rewrite H. exact (proj1 loud_warn).
Qed.
