(** * Vocabulary for statements about double precision.

    [fval] is the real number a finite float stands for, [ffin] tells that it is finite (not
    infinite and not NaN). *)
From Coq Require Import ZArith Reals List Bool.
From Flocq Require Import Core IEEE754.BinarySingleNaN.
From Verif Require Import Base M_Float.
Open Scope R_scope.

(** Powers of two. *)
Definition two (e : Z) : R := bpow radix2 e.

(** Optical properties which the documentation allows: finite numbers, increasing positive
    depths, albedos in [0, 1), forward peaks in [0, 1]. *)
Record atm_ok (a : fatm) : Prop := {
  ao_w : length (fa_omega a) = fa_n a;
  ao_f : length (fa_f a) = fa_n a;
  ao_fin : forall r, (r < fa_n a)%nat ->
    ffin (t_ a r) = true /\ ffin (w_ a r) = true /\ ffin (f_ a r) = true;
  ao_tau : forall r, (r < fa_n a)%nat -> 0 < fval (t_ a r);
  ao_inc : forall r, (S r < fa_n a)%nat -> fval (t_ a r) < fval (t_ a (S r));
  ao_om : forall r, (r < fa_n a)%nat -> 0 <= fval (w_ a r) < 1;
  ao_pk : forall r, (r < fa_n a)%nat -> 0 <= fval (f_ a r) <= 1 }.

(** Exact thickness of layer [r], exact scaling factor [1 - omega f]. *)
Definition thickness (a : fatm) (r : nat) : R :=
  match r with O => fval (t_ a 0) | S r' => fval (t_ a r) - fval (t_ a r') end.
Definition scaling (a : fatm) (r : nat) : R := 1 - fval (w_ a r) * fval (f_ a r).

(** Exact delta-M scaled optical depth of the lower boundary of layer [k - 1], with all scaling
    factors changed by [eps] (the statements allow 2^-50 for rounding). *)
Definition scaled_depth (a : fatm) (eps : R) (k : nat) : R :=
  rsum k (fun r => (scaling a r + eps) * thickness a r).

(** [tau] lies in layer [l]. *)
Definition in_layer (a : fatm) (l : nat) (tau : f64) : Prop :=
  (l < fa_n a)%nat /\ ffin tau = true /\ 0 <= fval tau <= fval (t_ a l) /\
  forall r, (r < l)%nat -> fval (t_ a r) < fval tau.

(** A direction cosine that a quadrature rule or a caller can reasonably produce. *)
Definition cosine_ok (mu : f64) : Prop := ffin mu = true /\ two (-40) <= fval mu <= 1.

(** What is assumed of [exp] and [expm1]: for arguments that are not positive the usual error
    bound (less than one unit in the last place, three quarters of one in the subnormal range;
    for [expm1] four units), the range and the limit at minus infinity; for arguments up to 1,
    which only rounding produces, the error bound.  glibc and NumPy's own code satisfy it. *)
Record libm_ok (lm : libm) : Prop := {
  lo_exp : forall x, ffin x = true -> fval x <= 0 ->
    ffin (l_exp lm x) = true /\ 0 <= fval (l_exp lm x) <= 1 /\
    Rabs (fval (l_exp lm x) - exp (fval x)) <= two (-52) * exp (fval x) + 3 / 4 * two (-1074);
  lo_exp_one : forall x, ffin x = true -> fval x <= 1 ->
    ffin (l_exp lm x) = true /\ 0 <= fval (l_exp lm x) <= 3 /\
    Rabs (fval (l_exp lm x) - exp (fval x)) <= two (-52) * exp (fval x) + 3 / 4 * two (-1074);
  lo_exp_inf : ffin (l_exp lm (B754_infinity true)) = true /\
    fval (l_exp lm (B754_infinity true)) = 0;
  lo_expm1 : forall x, ffin x = true -> fval x <= 0 ->
    ffin (l_expm1 lm x) = true /\ -1 <= fval (l_expm1 lm x) <= 0 /\
    Rabs (fval (l_expm1 lm x) - (exp (fval x) - 1)) <= two (-50) * (1 - exp (fval x)) + two (-1074);
  lo_expm1_inf : ffin (l_expm1 lm (B754_infinity true)) = true /\
    fval (l_expm1 lm (B754_infinity true)) = -1 }.

(** A finite number of magnitude at most 2^e. *)
Definition at_most (e : Z) (x : f64) : Prop := ffin x = true /\ Rabs (fval x) <= two e.

(** All entries are finite numbers. *)
Definition all_finite (a : fatm) : Prop :=
  Forall (fun x => ffin x = true) (fa_tau a) /\ Forall (fun x => ffin x = true) (fa_omega a) /\
  Forall (fun x => ffin x = true) (fa_f a).
