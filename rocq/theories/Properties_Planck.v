(** * The Planck function: units, and double precision. *)
From Coq Require Import ZArith Reals List Bool Lia Lra.
From Flocq Require Import Core IEEE754.BinarySingleNaN.
From Verif Require Import Base Tensor M_Float Spec_Float Spec M_Subroutines M_FloatPlanck Spec_FloatPlanck P_Float5 P_FloatPlanck2 P_FloatPlanck3.
Import ListNotations.
Open Scope R_scope.

(** C87. Units of the Planck function.

    The documentation says that the wavenumber has the unit m^-1.  The value returned is not
    Planck's law in this unit. *)
Theorem C87_units_refuted :
  ~ (forall T W, 0 < T -> 0 < W -> Planck [T] W = Ok [planck_per_metre T W]).
Proof. intros H. destruct units_wrong as (T & W & HT & HW & N). exact (N (H T W HT HW)). Qed.
Print Assumptions C87_units_refuted.

(** It is Planck's law for a wavenumber in cm^-1, per cm^-1. *)
Theorem C87_units_partial : forall T W, 0 < T -> 0 < W ->
  Planck [T] W = Ok [100 * planck_per_metre T (100 * W)].
Proof. exact planck_cm. Qed.
Print Assumptions C87_units_partial.
Example C87_nonvacuous : 0 < 300 /\ 0 < 1000. Proof. lra. Qed.

(** C88. The Planck function is a finite number in double precision.

    For a small wavenumber [1 - expterm] is 0 and the result is not finite. *)
Theorem C88_finite_refuted :
  ~ (forall lm cube T W, libm_ok lm -> cube_ok cube -> ordinary T -> ordinary W ->
     ffin (d_Planck lm cube T W) = true).
Proof.
  intros H. pose proof (H libm0 cube0 _ _ libm0_ok cube0_ok (proj1 T300) (proj1 Wtiny)) as F.
  pose proof planck_infinite as N. unfold P_Float.nonfinite in N. congruence.
Qed.
Print Assumptions C88_finite_refuted.

(** When the photon energy is at least 2^-40 kT the result is finite, not negative and accurate:
    nothing overflows, however cold or hot the body. *)
Theorem C88_accurate_partial : forall lm cube T W, libm_ok lm -> cube_ok cube -> ordinary T -> ordinary W ->
  two (-40) <= photon (fval T) (fval W) ->
  ffin (d_Planck lm cube T W) = true /\ 0 <= fval (d_Planck lm cube T W) /\
  Rabs (fval (d_Planck lm cube T W) - planck_spec (fval T) (fval W)) <=
    two (-44) * (1 + photon (fval T) (fval W) + / photon (fval T) (fval W)) * planck_spec (fval T) (fval W) + two (-700).
Proof. exact planck_ok. Qed.
Print Assumptions C88_accurate_partial.

(** A temperature of 0 gives exactly 0. *)
Theorem C88_zero : forall lm cube W s, d_Planck lm cube (B754_zero s) W = fzero.
Proof. intros lm cube W s. destruct s; reflexivity. Qed.
Print Assumptions C88_zero.

(** 300 K at 1000 cm^-1. *)
Example C88_nonvacuous : libm_ok libm0 /\ cube_ok cube0 /\ ordinary (lit 300 0) /\ ordinary (lit 1000 0) /\
  two (-40) <= photon (fval (lit 300 0)) (fval (lit 1000 0)).
Proof.
  split; [exact libm0_ok|]. split; [exact cube0_ok|]. split; [apply T300|]. split; [apply W1000|].
  rewrite (proj2 T300), (proj2 W1000). apply photon_300.
Qed.
