(** Property C98: calls that share the array of phase function coefficients. *)
From Coq Require Import String Reals Lra Lia List Bool Arith ZArith.
From Verif Require Import Base Tensor Spec M_LinAlg M_Subroutines M_Assemble M_Pydisort M_Warn Spec_Sol Spec_Valid Spec_Sun Spec_Shared M_Shared
  P_Gauss P_Shared2 P_Warn2 Examples5 Examples12.
Import ListNotations.
Local Open Scope R_scope.

(** C98: in a program that makes any sequence of calls with the same array Leg_coeffs_all, every
    call returns the same directions and functions, or raises the same exception, as if it were made
    first, on the array [L] the program began with. The other arguments differ from call to call in
    any way; calls that raise are among them. *)
Theorem C98_earlier_calls_do_not_matter :
  forall lg la L calls,
  Forall2 (fun r c => same_answer (fst r) (pydisort (with_phase (fst c) L) lg la (snd c))) (run_calls lg la L calls) calls.
Proof. exact answers_independent. Qed.
Print Assumptions C98_earlier_calls_do_not_matter.
(** A rejected call that overwrites the array, then an answered one. *)
Example C98_nonvacuous jk jk' : let calls := [(at_sun p_loud 2, jk); (p_loud, jk')] in
  (exists e, nth_error (map fst (run_calls gauss_rule la_full L_bad calls)) 0%nat = Some (Err e)) /\
  at2 L_bad 0%nat 0%nat = 2 /\ at2 (array_after L_bad (firstn 1 calls)) 0%nat 0%nat = 1 /\
  exists out, nth_error (map fst (run_calls gauss_rule la_full L_bad calls)) 1%nat = Some (Ok out).
Proof.
  intros calls. destruct (rejected_first la_full jk) as (e & He).
  assert (E1 : M_Shared.leg_after (with_phase (at_sun p_loud 2) L_bad) = ones_first L_bad) by exact (after_warned _ gauss_rule (bad_call_warns gauss_rule)).
  split; [exists e; cbn [run_calls map nth_error calls fst]; rewrite He; reflexivity|]. split; [reflexivity|].
  split; [cbn [firstn calls array_after]; rewrite E1; reflexivity|].
  destruct (loud_answer 2 jk') as (out & Ho). cbn [run_calls map nth_error calls fst]. rewrite E1.
  pose proof (ones_same (with_phase p_loud L_bad) gauss_rule la_full jk') as S. change (with_phase p_loud L_bad) with p_loud in S. unfold p_loud in S at 3. rewrite Ho in S.
  change (with_phase p_loud (ones_first L_bad)) with (with_phase p_loud (ones_first (p_Leg p_loud))).
  destruct (pydisort (with_phase p_loud (ones_first (p_Leg p_loud))) gauss_rule la_full jk') as [o|]; [|destruct S]. eauto.
Qed.

(** C98: every call also issues the same warnings as if it were made first, that of the zeroth
    coefficient excepted. *)
Theorem C98_other_warnings :
  forall lg la L calls,
  Forall2 (fun r c => forall w, w <> WLeg0 -> (In w (snd r) <-> In w (py_warnings (with_phase (fst c) L) lg))) (run_calls lg la L calls) calls.
Proof. exact warnings_independent. Qed.
Print Assumptions C98_other_warnings.
Example C98_other_warnings_nonvacuous jk jk' : exists r, nth_error (run_calls gauss_rule la_full L_bad [(at_sun p_loud 2, jk); (p_loud, jk')]) 1%nat = Some r /\ In WAlbedo (snd r).
Proof.
  eexists. split; [reflexivity|]. cbn [snd].
  assert (E1 : M_Shared.leg_after (with_phase (at_sun p_loud 2) L_bad) = ones_first L_bad) by exact (after_warned _ gauss_rule (bad_call_warns gauss_rule)). rewrite E1.
  change (with_phase p_loud (ones_first L_bad)) with (with_phase p_loud (ones_first (p_Leg p_loud))). rewrite (ones_warnings p_loud gauss_rule). apply filter_In. split; [exact (proj1 (proj2 loud_warn))|reflexivity].
Qed.

(** C98: the warning of the zeroth coefficient is issued by one call at most. *)
Theorem C98_warned_once :
  forall lg la L calls i j r r', (i < j)%nat ->
  nth_error (run_calls lg la L calls) i = Some r -> nth_error (run_calls lg la L calls) j = Some r' ->
  In WLeg0 (snd r) -> ~ In WLeg0 (snd r').
Proof. exact warned_once. Qed.
Print Assumptions C98_warned_once.
Example C98_warned_once_nonvacuous jk : exists r r', nth_error (run_calls gauss_rule la_full L_bad [(p_loud, jk); (p_loud, jk)]) 0%nat = Some r /\
  nth_error (run_calls gauss_rule la_full L_bad [(p_loud, jk); (p_loud, jk)]) 1%nat = Some r' /\ In WLeg0 (snd r).
Proof. eexists _, _. split; [reflexivity|]. split; [reflexivity|]. exact (proj1 loud_warn). Qed.

(** C98, false without the exception: a call that would warn of the zeroth coefficient does not warn
    when it is made a second time. *)
Theorem C98_same_warnings_refuted :
  ~ (forall lg la L calls, Forall2 (fun r c => snd r = py_warnings (with_phase (fst c) L) lg) (run_calls lg la L calls) calls).
Proof. exact same_warnings_false. Qed.
Print Assumptions C98_same_warnings_refuted.

(** C98: after the calls the array is as before if no call warned of the zeroth coefficient;
    otherwise its first column, and nothing else, has been set to 1. *)
Theorem C98_array_after :
  forall lg la L calls,
  ((exists r, In r (run_calls lg la L calls) /\ In WLeg0 (snd r)) -> array_after L calls = ones_first L) /\
  ((forall r, In r (run_calls lg la L calls) -> ~ In WLeg0 (snd r)) -> array_after L calls = L).
Proof. exact array_history. Qed.
Print Assumptions C98_array_after.
Example C98_array_after_nonvacuous jk : exists r, In r (run_calls gauss_rule la_full L_bad [(p_loud, jk)]) /\ In WLeg0 (snd r).
Proof. eexists. split; [left; reflexivity|]. exact (proj1 loud_warn). Qed.

(** C98: the phase function coefficients of layers that do not scatter have no effect. *)
Theorem C98_unused_coefficients :
  forall p L lg la jk, valid p -> valid (with_phase p L) -> same_where_scattering p L (p_Leg p) ->
  same_answer (pydisort (with_phase p L) lg la jk) (pydisort p lg la jk).
Proof. exact unused_rows. Qed.
Print Assumptions C98_unused_coefficients.
Example C98_unused_coefficients_nonvacuous jk : valid (p_un 1 0) /\ valid (with_phase (p_un 1 0) (L_un (-3) (1/3))) /\
  same_where_scattering (p_un 1 0) (L_un (-3) (1/3)) (p_Leg (p_un 1 0)) /\ exists out, pydisort (p_un 1 0) gauss_rule la_full jk = Ok out.
Proof.
  split; [apply un_valid; lra|]. split; [apply (un_valid (-3) (1/3)); lra|]. split; [apply un_same|apply un_answer; lra].
Qed.
