(** Vocabulary for statements about the exact radiation field, in all directions at once. *)
From Coq Require Import String Reals Lra Lia List Bool Arith ZArith.
From Coquelicot Require Import Coquelicot.
From Verif Require Import Base Tensor Spec M_LinAlg M_Subroutines M_Assemble M_Pydisort Spec_Sol Spec_Phys Spec_Mono Spec_Depend.
Import ListNotations.
Local Open Scope R_scope.

(** Direction cosines: not horizontal. *)
Definition direction (x : R) : Prop := -1 <= x <= 1 /\ x <> 0.
(** What layer [l] scatters from direction cosine [y] to [x], azimuthal mean, per unit of optical depth. *)
Definition scatters (p : py_in) (l : nat) (x y : R) : R :=
  / 2 * rsum (ncoeffs p) (fun k => (2 * INR k + 1) * scattering p l k * legendre k x * legendre k y).

(** [J x t] is the azimuthal mean of the diffuse intensity in direction cosine [x] at optical depth [t]:
    the solution of the radiative transfer equation with the full integral over all directions, with
    radiation [bn y] falling on the top and [bp y] leaving the surface towards the zenith cosine [y], and
    [rho] the azimuthal mean of the surface reflection. *)
Record exact_field (p : py_in) (bn bp : R -> R) (rho : R -> R -> R) (J : R -> R -> R) : Prop := mkEF {
  ef_bounded : exists M, forall x t, direction x -> 0 <= t <= bottom p -> Rabs (J x t) <= M;
  ef_integrable : forall g t, cont_on 0 1 g -> 0 <= t <= bottom p ->
    ex_RInt (fun y => g y * J y t) 0 1 /\ ex_RInt (fun y => g y * J (- y) t) 0 1;
  ef_continuous : forall x, direction x -> cont_on 0 (bottom p) (J x);
  ef_transfer : forall l x t, (l < nlayers p)%nat -> direction x -> top_of p l < t < bot_of p l ->
    is_derive (J x) t ((scl p l * J x t
      - (RInt (fun y => scatters p l x y * J y t) 0 1 + RInt (fun y => scatters p l x (- y) * J (- y) t) 0 1)
      - 2 * (p_I0 p / (4 * PI)) * scatters p l x (- p_mu0 p) * exp (- depth_s p l t / p_mu0 p)
      - (1 - albedo p l) * source p l t) / x);
  ef_top : forall x, 0 < x <= 1 -> J (- x) 0 = bn x;
  ef_bottom : forall x, 0 < x <= 1 -> J x (bottom p) = bp x +
    (if Nat.ltb 0 (length (p_BDRF p)) then
       2 * RInt (fun y => rho x y * y * J (- y) (bottom p)) 0 1
       + p_mu0 p * p_I0 p / PI * rho x (p_mu0 p) * exp (- depth_s p (nlayers p - 1) (bottom p) / p_mu0 p)
     else 0)
}.

(** Uniform continuity in one and in two variables. *)
Definition ucont1 (f : R -> R) : Prop :=
  forall e, 0 < e -> exists d, 0 < d /\ forall x x', 0 <= x <= 1 -> 0 <= x' <= 1 -> Rabs (x - x') < d -> Rabs (f x - f x') <= e.
Definition ucont2 (f : R -> R -> R) : Prop :=
  forall e, 0 < e -> exists d, 0 < d /\ forall x x' y y', 0 <= x <= 1 -> 0 <= x' <= 1 -> 0 <= y <= 1 -> 0 <= y' <= 1 ->
    Rabs (x - x') < d -> Rabs (y - y') < d -> Rabs (f x y - f x' y') <= e.

(** The same atmosphere, beam and surface; the number of streams may be another. *)
Record same_problem (p q : py_in) : Prop := mkSPr {
  pr_tau : p_tau p = p_tau q;
  pr_omega : p_omega p = p_omega q;
  pr_Leg : p_Leg p = p_Leg q;
  pr_ncoeffs : ncoeffs p = ncoeffs q;
  pr_f : p_f p = p_f q;
  pr_s : p_s p = p_s q;
  pr_mu0 : p_mu0 p = p_mu0 q;
  pr_I0 : p_I0 p = p_I0 q;
  pr_BDRF : p_BDRF p = p_BDRF q
}.
