(** Property C100: calls made at the same time that share the array of phase function coefficients. *)
From Coq Require Import String Reals Lra Lia List Bool Arith ZArith.
From Verif Require Import Base Tensor Spec M_LinAlg M_Subroutines M_Assemble M_Pydisort Spec_Shared M_Conc
  P_Gauss P_Error P_Warn2 Examples5 Examples12 P_Conc3.
Import ListNotations.
Local Open Scope R_scope.

(** C100: any number of threads call pydisort with the same array Leg_coeffs_all and any other
    arguments. However their reads and writes of the array interleave, a call that has finished has
    returned the same directions and functions, or raised the same exception, as if it were the only
    one, on the array [L] the program began with. *)
Theorem C100_concurrent_calls :
  forall lg la L calls sched i p jk r,
  nth_error calls i = Some (p, jk) -> outcome (cwrun lg la L calls sched) i = Some r ->
  same_answer r (pydisort (with_phase p L) lg la jk).
Proof. exact concurrent. Qed.
Print Assumptions C100_concurrent_calls.
(** Two calls that both find a wrong coefficient before either has replaced it; both return. *)
Example C100_nonvacuous : at2 L_bad 0%nat 0%nat = 2 /\ nth_error two_calls 1%nat = Some (p_loud, junk0) /\
  exists o, outcome (cwrun gauss_rule la_full L_bad two_calls race) 1%nat = Some (Ok o).
Proof. split; [reflexivity|]. split; [reflexivity|]. apply race_answer. lia. Qed.

(** C100: no call waits for another. It has finished when it has taken 4 n + 5 steps, n being the
    number of layers of the array, whatever the others have done. *)
Theorem C100_no_waiting :
  forall lg la L calls sched i, (i < length calls)%nat -> (4 * nrow L + 5 <= count_occ Nat.eq_dec sched i)%nat ->
  exists r, outcome (cwrun lg la L calls sched) i = Some r.
Proof. exact terminates. Qed.
Print Assumptions C100_no_waiting.
Example C100_no_waiting_nonvacuous : (1 < length two_calls)%nat /\ (4 * nrow L_bad + 5 <= count_occ Nat.eq_dec race 1%nat)%nat.
Proof. split; cbn; lia. Qed.

(** C100: at every moment each zeroth coefficient is the one the program began with or 1. If no call
    has warned, none has changed; if a call that has warned has finished, all are 1. *)
Theorem C100_array :
  forall lg la L calls sched, let w := cwrun lg la L calls sched in
  ((forall j, has_warned w j = false) -> forall l, fst w l = at2 L l 0%nat) /\
  (forall l, fst w l = at2 L l 0%nat \/ fst w l = 1) /\
  (forall j r, has_warned w j = true -> outcome w j = Some r -> forall l, (l < nrow L)%nat -> fst w l = 1).
Proof. exact array_now. Qed.
Print Assumptions C100_array.
Example C100_array_nonvacuous : let w := cwrun gauss_rule la_full L_bad two_calls race in
  at2 L_bad 0%nat 0%nat <> 1 /\ has_warned w 0%nat = true /\ exists o, outcome w 0%nat = Some (Ok o).
Proof. intros w. split; [cbn; lra|]. split; [apply race_warned; lia|]. apply race_answer. lia. Qed.

(** C100: a call warns of the zeroth coefficient only if a layer that scatters in it had a zeroth
    coefficient other than 1 from the beginning. *)
Theorem C100_warning_has_cause :
  forall lg la L calls sched i p jk, nth_error calls i = Some (p, jk) -> has_warned (cwrun lg la L calls sched) i = true ->
  exists l, (l < length (p_tau p))%nat /\ nth l (p_omega p) 0 <> 0 /\ at2 L l 0%nat <> 1.
Proof. exact warns_for_cause. Qed.
Print Assumptions C100_warning_has_cause.
Example C100_warning_has_cause_nonvacuous : nth_error two_calls 0%nat = Some (p_loud, junk0) /\ has_warned (cwrun gauss_rule la_full L_bad two_calls race) 0%nat = true.
Proof. split; [reflexivity|]. apply race_warned. lia. Qed.

(** C100: a wrong coefficient does not pass unnoticed. If a call with such a layer has returned,
    some call has warned. *)
Theorem C100_somebody_warns :
  forall lg la L calls sched i p jk o l, nth_error calls i = Some (p, jk) -> outcome (cwrun lg la L calls sched) i = Some (Ok o) ->
  (l < length (p_tau p))%nat -> nth l (p_omega p) 0 <> 0 -> at2 L l 0%nat <> 1 ->
  exists j, has_warned (cwrun lg la L calls sched) j = true.
Proof. exact somebody_warns. Qed.
Print Assumptions C100_somebody_warns.
Example C100_somebody_warns_nonvacuous : nth_error two_calls 0%nat = Some (p_loud, junk0) /\
  (exists o, outcome (cwrun gauss_rule la_full L_bad two_calls race) 0%nat = Some (Ok o)) /\
  (0 < length (p_tau p_loud))%nat /\ nth 0 (p_omega p_loud) 0 <> 0 /\ at2 L_bad 0%nat 0%nat <> 1.
Proof. split; [reflexivity|]. split; [apply race_answer; lia|]. split; [cbn; lia|]. split; cbn; lra. Qed.

(** C100, false of concurrent calls though true of successive ones ([C98_warned_once]): at most one
    call warns. *)
Theorem C100_warned_once_refuted :
  ~ (forall lg la L calls sched i j, i <> j -> has_warned (cwrun lg la L calls sched) i = true -> has_warned (cwrun lg la L calls sched) j = false).
Proof. exact warned_once_false. Qed.
Print Assumptions C100_warned_once_refuted.
