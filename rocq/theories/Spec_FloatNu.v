(** * Vocabulary for statements about scattering angles in double precision. *)
From Coq Require Import ZArith Reals List Bool.
From Flocq Require Import Core IEEE754.BinarySingleNaN.
From Verif Require Import Base M_Float Spec_Float.
Open Scope R_scope.

(** What is assumed of [cos]: finite arguments, values in [-1, 1], the usual error bound. *)
Definition cos_ok (cosf : f64 -> f64) : Prop := forall x, ffin x = true ->
  ffin (cosf x) = true /\ -1 <= fval (cosf x) <= 1 /\ Rabs (fval (cosf x) - cos (fval x)) <= two (-52).

(** A float between -1 and 1. *)
Definition cosine (x : f64) : Prop := ffin x = true /\ -1 <= fval x <= 1.

(** The cosine of the angle between two directions given by polar cosine and azimuth. *)
Definition angle_cosine (mu phi mu' phi' : R) : R := mu * mu' + sqrt (1 - mu * mu) * sqrt (1 - mu' * mu') * cos (phi - phi').
