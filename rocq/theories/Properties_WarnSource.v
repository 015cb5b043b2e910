(** Property C105: the warnings about the source and about caching. *)
From Coq Require Import Reals Lra Lia List Bool Arith ZArith.
From Verif Require Import Base Tensor Spec M_LinAlg M_Subroutines M_MathscrV M_Assemble M_Pydisort M_Ints M_WarnSource Spec_Sol Spec_Valid Spec_Calls
  P_Gauss P_Orth3 P_Ints P_Ints2 P_Ints3 P_Ints4 P_WarnSource Examples5 Examples14.
Import ListNotations.
Local Open Scope R_scope.

(** C105: an answered call, and each evaluation of a function it returns, warns about the source
    exactly if the source has more than 10 coefficients and is not zero. *)
Theorem C105_source_warning : forall p,
  ((0 < call_warns p)%nat <-> (exists i j, (i < nrow (p_s p))%nat /\ (j < ncol (p_s p))%nat /\ at2 (p_s p) i j <> 0) /\ (10 < ncol (p_s p))%nat) /\
  ((0 < eval_warns p)%nat <-> (exists i j, (i < nrow (p_s p))%nat /\ (j < ncol (p_s p))%nat /\ at2 (p_s p) i j <> 0) /\ (10 < ncol (p_s p))%nat).
Proof. intros p. pose proof (eval_warns_iff p) as H. pose proof (eval_call p) as [E _]. split; [|exact H]. etransitivity; [|exact H]. lia. Qed.
Print Assumptions C105_source_warning.
Example C105_source_warning_nonvacuous jk : (0 < call_warns (p_src 11))%nat /\ call_warns (p_src 10) = 0%nat /\
  exists out, pydisort (p_src 11) gauss_rule la_full jk = Ok out.
Proof.
  destruct (C105_source_warning (p_src 11)) as [H _]. destruct (C105_source_warning (p_src 10)) as [H' _]. split; [|split; [|apply src_answer]].
  - apply H. cbn [p_src p_s ncol nrow]. split; [exists 1%nat, 10%nat; split; [lia|]; split; [lia|]; exact (src_last 11 1 ltac:(lia))|lia].
  - destruct (call_warns (p_src 10)) eqn:E; [reflexivity|]. destruct H' as [H' _]. destruct H' as [_ X]; [lia|]. cbn [p_src p_s ncol] in X. lia.
Qed.

(** C105: no overflow goes without this warning. On every machine with at least 23 bits, a call whose
    outcome (error, answer, any returned function) differs from that with unbounded integers warns,
    and so does each evaluation. *)
Theorem C105_overflow_is_warned : forall b p lg la jk, (23 <= b)%Z ->
  @pydisort (machine_ints b) p lg la jk <> @pydisort exact_ints p lg la jk -> (0 < call_warns p)%nat /\ (0 < eval_warns p)%nat.
Proof. intros b p lg la jk Hb H. pose proof (overflow_warns b p lg la jk Hb H). pose proof (eval_call p) as [E _]. lia. Qed.
Print Assumptions C105_overflow_is_warned.
Example C105_overflow_is_warned_nonvacuous jk : (23 <= 64)%Z /\ @pydisort (machine_ints 64) (p_src 22) gauss_rule la_full jk <> @pydisort exact_ints (p_src 22) gauss_rule la_full jk.
Proof.
  split; [lia|]. destruct (src_answer 22 jk) as (out & H). apply (wrong_differs 64 21 (or_introl (conj eq_refl eq_refl)) (p_src 22) gauss_rule la_full jk out la_full_ok (proj1 (gauss_rule_ok _)) eq_refl H).
  exists 1%nat. split; [cbn; lia|]. exact (src_last 22 1 ltac:(lia)).
Qed.

(** C105: caching of a reflection function warns, once, exactly if no proper cosine of the sun is given. *)
Theorem C105_cache_warning : forall mu0, (cache_warns mu0 <= 1)%nat /\ ((0 < cache_warns mu0)%nat <-> ~ (0 < mu0 <= 1)).
Proof. exact cache_warns_iff. Qed.
Print Assumptions C105_cache_warning.
Example C105_cache_warning_nonvacuous : cache_warns 0 = 1%nat /\ cache_warns (1/2) = 0%nat /\ cache_warns 1 = 0%nat.
Proof.
  destruct (cache_warns_iff 0) as [A0 B0]. destruct (cache_warns_iff (1/2)) as [A1 B1]. destruct (cache_warns_iff 1) as [A2 B2]. repeat split.
  - assert (0 < cache_warns 0)%nat by (apply B0; lra). lia.
  - destruct (cache_warns (1/2)); [reflexivity|]. exfalso. apply B1; [lia|lra].
  - destruct (cache_warns 1); [reflexivity|]. exfalso. apply B2; [lia|lra].
Qed.
