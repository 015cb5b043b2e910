(** * Exact depths, for comparison with the ones computed in double precision. *)
From Coq Require Import ZArith Reals List Bool.
From Verif Require Import Base M_Float Spec_Float.
Open Scope R_scope.

(** Optical depth of the upper boundary of layer [l] and of the bottom of the atmosphere. *)
Definition upper (a : fatm) (l : nat) : R :=
  match l with O => 0 | S k => fval (t_ a k) end.
Definition bottom_depth (a : fatm) : R := upper a (fa_n a).

(** Delta-M scaled optical depth of the point [tau] of layer [l], in exact arithmetic. *)
Definition exact_depth (a : fatm) (l : nat) (tau : R) : R :=
  scaled_depth a 0 l + scaling a l * (tau - upper a l).

(** An attenuation rate: a nonnegative number. *)
Definition rate_ok (K : f64) : Prop := ffin K = true /\ 0 <= fval K <= two 900.

(** Sizes for which the rounding of depths matters little. *)
Definition moderate (a : fatm) : Prop := bottom_depth a <= two 900 /\ INR (fa_n a) <= two 20.

(** [x] approximates [y] with relative error [e] (and the smallest subnormal as absolute one). *)
Definition approx (e x y : R) : Prop := Rabs (x - y) <= e * y + two (-1074).

(** The accuracy which the statements claim: of depths, and of attenuation factors. *)
Definition depth_tolerance (a : fatm) : R := (INR (fa_n a) + 8) * two (-51) * bottom_depth a + two (-1050).
Definition tolerance (a : fatm) (K : R) : R := K * (INR (fa_n a) + 8) * bottom_depth a * two (-49) + two (-50).
Definition not_extreme (a : fatm) (K : R) : Prop := K * (INR (fa_n a) + 8) * bottom_depth a <= two 47.
