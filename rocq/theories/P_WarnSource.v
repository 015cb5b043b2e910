(** When the warnings of [subroutines.py] are issued. *)
From Coq Require Import Reals Lra Lia List Bool Arith ZArith.
From Verif Require Import Base Tensor Spec M_LinAlg M_Subroutines M_MathscrV M_Assemble M_Pydisort M_Ints M_WarnSource Spec_Sol Spec_Valid P_Valid P_Ints.
Import ListNotations.
Local Open Scope R_scope.

Lemma v_warns_pos Ns : (0 < v_warns Ns)%nat <-> (10 < Ns)%nat.
Proof.
  unfold v_warns. destruct (Nat.eqb_spec Ns 1); [lia|]. destruct (Nat.eqb_spec Ns 2); [lia|]. destruct (Nat.ltb_spec 10 Ns); lia.
Qed.
Lemma v_warns_le Ns : (v_warns Ns <= 1)%nat.
Proof. unfold v_warns. destruct (Nat.eqb Ns 1), (Nat.eqb Ns 2), (Nat.ltb 10 Ns); lia. Qed.
Lemma e_Ns_source p : has_iso p = true -> e_Ns p = ncol (p_s p).
Proof. unfold has_iso, e_Ns. destruct (forall2b _ _ _); [discriminate|reflexivity]. Qed.
Lemma eval_warns_iff p : (0 < eval_warns p)%nat <-> has_source p /\ (10 < ncol (p_s p))%nat.
Proof.
  unfold eval_warns. pose proof (has_iso_iff p) as HI. destruct (has_iso p) eqn:E.
  - rewrite v_warns_pos, (e_Ns_source p E). intuition.
  - split; [lia|]. intros [H _]. apply HI in H. discriminate.
Qed.
Lemma eval_call p : (eval_warns p = 0%nat <-> call_warns p = 0%nat) /\ (eval_warns p <= 1)%nat /\ (2 * eval_warns p <= call_warns p <= 5 * eval_warns p)%nat.
Proof.
  unfold eval_warns, call_warns. pose proof (v_warns_le (e_Ns p)). destruct (has_iso p); [|lia].
  destruct (Nat.ltb 1 _), (Nat.ltb 0 _); lia.
Qed.
(** Integers of at least 23 bits hold 10!. *)
Lemma overflow_warns b p lg la jk : (23 <= b)%Z -> @pydisort (machine_ints b) p lg la jk <> @pydisort exact_ints p lg la jk ->
  (0 < eval_warns p)%nat.
Proof.
  intros Hb H. destruct (le_lt_dec (e_Ns p) 10) as [Hs|Hs].
  - exfalso. apply H. apply pydisort_same. intros k Hk. unfold np_fact, machine_ints, exact_ints. rewrite INR_IZR_INZ. f_equal. apply fac_fits; [lia|].
    pose proof (fact_mono_Z k 10 ltac:(lia)) as HM. rewrite (zf_fact 10) in HM. assert (E : zf 10 = 3628800%Z) by reflexivity.
    assert (2 ^ 22 <= 2 ^ (b - 1))%Z by (apply Z.pow_le_mono_r; lia). assert (2 ^ 22 = 4194304)%Z by reflexivity. lia.
  - unfold eval_warns. assert (E : has_iso p = true) by (unfold has_iso; apply Nat.ltb_lt; lia). rewrite E. apply v_warns_pos. exact Hs.
Qed.
Lemma cache_warns_iff mu0 : (cache_warns mu0 <= 1)%nat /\ ((0 < cache_warns mu0)%nat <-> ~ (0 < mu0 <= 1)).
Proof.
  unfold cache_warns. destruct (Rltb 0 mu0) eqn:E1; destruct (Rleb mu0 1) eqn:E2; cbn [andb]; (split; [lia|]).
  - apply Rltb_iff in E1. apply Rleb_iff in E2. split; [lia|intros H; exfalso; apply H; lra].
  - split; [intros _ H|lia]. assert (~ Rleb mu0 1 = true) as N by congruence. apply N. apply Rleb_iff. lra.
  - split; [intros _ H|lia]. assert (~ Rltb 0 mu0 = true) as N by congruence. apply N. apply Rltb_iff. lra.
  - split; [intros _ H|lia]. assert (~ Rltb 0 mu0 = true) as N by congruence. apply N. apply Rltb_iff. lra.
Qed.
