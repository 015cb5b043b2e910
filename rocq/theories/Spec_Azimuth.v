(** Vocabulary for statements about the exact radiation in every direction of the sphere. *)
From Coq Require Import String Reals List Bool Arith ZArith.
From Coquelicot Require Import Coquelicot.
From Verif Require Import Base Tensor Spec M_LinAlg M_Subroutines M_Assemble M_Pydisort Spec_Sol Spec_Phys Spec_Full Spec_Exact.
Import ListNotations.
Local Open Scope R_scope.

(** [f x t phi] is the diffuse intensity in the direction with polar cosine [x] and azimuth [phi] at optical
    depth [t]: the solution of the radiative transfer equation in which every direction of the sphere
    scatters into every other, with [bn y] falling on the top and [bp y] leaving the surface at the polar
    cosine [y]. [S y] collects what arrives at the polar cosine [y] from all azimuths, [A] from all directions. *)
Record exact_intensity (p : py_in) (bn bp : R -> R) (rho : nat -> R -> R -> R) (f : R -> R -> R -> R) : Prop := mkEI {
  ei_bounded : exists M, forall x t phi, direction x -> 0 <= t <= bottom p -> Rabs (f x t phi) <= M;
  ei_continuous : forall x phi, direction x -> cont_on 0 (bottom p) (fun t => f x t phi);
  ei_transfer : forall l x t phi, (l < nlayers p)%nat -> direction x -> top_of p l < t < bot_of p l -> exists (S : R -> R) (A : R),
    (forall y, direction y -> is_RInt (fun psi => phase_at p l (cos_between x phi y psi) * f y t psi) 0 (2 * PI) (S y)) /\
    is_RInt S (-1) 1 A /\
    is_derive (fun s => f x s phi) t
     ((scl p l * (f x t phi - albedo_s p l / (4 * PI) * A
         - albedo_s p l / (4 * PI) * phase_at p l (cos_between x phi (- p_mu0 p) (p_phi0 p)) * p_I0 p * exp (- depth_s p l t / p_mu0 p))
       - (1 - albedo p l) * source p l t) / x);
  ei_top : forall x phi, 0 < x <= 1 -> f (- x) 0 phi = bn x;
  ei_bottom : forall x phi, 0 < x <= 1 -> exists (S : R -> R) (A : R),
    (forall y, 0 < y <= 1 -> is_RInt (fun psi => surface_at p rho x phi y psi * f (- y) (bottom p) psi) 0 (2 * PI) (S y)) /\
    is_RInt (fun y => y * S y) 0 1 A /\
    f x (bottom p) phi = bp x + / PI * A
      + p_mu0 p * p_I0 p / PI * surface_at p rho x phi (p_mu0 p) (p_phi0 p) * exp (- depth_s p (nlayers p - 1) (bottom p) / p_mu0 p)
}.

(** A surface whose reflection is continuous and nowhere negative, and returns at most the share [r < 1]
    of what falls on it evenly from all sides. *)
Record absorbing_surface (p : py_in) (rho : nat -> R -> R -> R) (r : R) : Prop := mkAS {
  as_continuous : forall m, (m < length (p_BDRF p))%nat -> ucont2 (rho m);
  as_nonneg : forall x phi y psi, 0 <= x <= 1 -> 0 <= y <= 1 -> 0 <= surface_at p rho x phi y psi;
  as_share : 0 <= r < 1;
  as_albedo : forall x, 0 < x <= 1 -> (0 < length (p_BDRF p))%nat -> 2 * RInt (fun y => rho 0%nat x y * y) 0 1 <= r
}.

(** The input [p] with [2 n] streams and nothing else changed. *)
Definition at_streams (p : py_in) (n : nat) : py_in := {|
  p_tau := p_tau p; p_omega := p_omega p; p_NQuad := Z.of_nat (2 * n); p_Leg := p_Leg p;
  p_mu0 := p_mu0 p; p_I0 := p_I0 p; p_phi0 := p_phi0 p; p_NLeg := p_NLeg p; p_NFourier := p_NFourier p;
  p_bpos := p_bpos p; p_bneg := p_bneg p; p_only_flux := p_only_flux p; p_f := p_f p; p_NT := p_NT p;
  p_BDRF := p_BDRF p; p_s := p_s p; p_banded := p_banded p; p_autograd := p_autograd p |}.
