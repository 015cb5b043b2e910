(** * Vocabulary for the Planck function in double precision. *)
From Coq Require Import ZArith Reals.
From Verif Require Import Base M_Float Spec_Float Spec.
Open Scope R_scope.

(** A finite number between [2^-100] and [2^100]. *)
Definition ordinary (x : f64) : Prop := ffin x = true /\ two (-100) <= fval x <= two 100.

(** What is assumed of the cube: less than one unit in the last place of error. *)
Definition cube_ok (cube : f64 -> f64) : Prop := forall w, ordinary w ->
  ffin (cube w) = true /\ Rabs (fval (cube w) - fval w ^ 3) <= two (-52) * fval w ^ 3.

(** Energy of a photon of wavenumber [W] in units of [k T]. *)
Definition photon (T W : R) : R := 100 * SI_h * SI_c * W / (SI_k * T).

(** Planck's law per unit wavenumber when wavenumbers are counted in m^-1, as the documentation
    says: the intensity of a blackbody in W m^-2 per m^-1. *)
Definition planck_per_metre (T nu : R) : R :=
  2 * SI_h * SI_c ^ 2 * nu ^ 3 / (exp (SI_h * SI_c * nu / (SI_k * T)) - 1).
