(** Vocabulary for statements about the intensity as a function of depth, polar direction and azimuth. *)
From Coq Require Import String Reals List Bool Arith ZArith.
From Coquelicot Require Import Coquelicot.
From Verif Require Import Base Tensor Spec M_LinAlg Spec_RTE M_Subroutines M_Assemble M_Pydisort Spec_Sol Spec_Phys.
Import ListNotations.
Local Open Scope R_scope.

(** Cosine of the angle between two directions given by polar cosine and azimuth. *)
Definition cos_between (x phi y psi : R) : R := dot3 (unit_vec x phi) (unit_vec y psi).
(** The phase function of layer [l] that takes part (truncated and delta-M scaled), at the cosine
    [c] of the scattering angle. *)
Definition phase_at (p : py_in) (l : nat) (c : R) : R := rsum (ncoeffs p) (fun k => (2 * INR k + 1) * phase_s p l k * legendre k c).
(** Reflection of the surface from cosine [y] and azimuth [psi] to [x] and [phi]; [rho] its Fourier modes. *)
Definition surface_at (p : py_in) (rho : nat -> R -> R -> R) (x phi y psi : R) : R :=
  rsum (length (p_BDRF p)) (fun m => rho m x y * cos (INR m * (phi - psi))).

(** [u] reports the field [f i t phi]: direction [i], optical depth [t], azimuth [phi]. *)
Definition reports_u (p : py_in) (u : list R -> list R -> bool -> bool -> bool -> res pret) (f : nat -> R -> R -> R) : Prop :=
  forall tau phi, depths_ok p tau -> exists A, u tau phi false false false = Ok (PVal (PT A)) /\
    squeezed A [streams p; length tau; length phi] (fun idx => f (nth 0 idx 0%nat) (nth (nth 1 idx 0%nat) tau 0) (nth (nth 2 idx 0%nat) phi 0)).

(** Joint continuity in depth, between [a] and [b], and azimuth. *)
Definition cont2_on (a b : R) (f : R -> R -> R) : Prop := forall t x, a <= t <= b -> forall eps, 0 < eps ->
  exists d, 0 < d /\ forall s y, a <= s <= b -> Rabs (s - t) < d -> Rabs (y - x) < d -> Rabs (f s y - f t x) < eps.
(** The radiative transfer problem: the transfer equation with scattering over the whole sphere
    (quadrature over the polar cosines, integral over azimuth), single scattering of the direct beam
    from (- mu0, phi0) and thermal emission; continuity; periodicity in the azimuth; the prescribed intensities [vn] at the top;
    at the bottom the prescribed [vp] and the reflection of diffuse light and of the beam. *)
Record full_solution (p : py_in) (mu : list R) (w vn vp : nat -> R) (rho : nat -> R -> R -> R) (f : nat -> R -> R -> R) : Prop := mkFull {
  fs_rte : forall l i t phi, (l < nlayers p)%nat -> (i < streams p)%nat -> top_of p l < t < bot_of p l ->
    exists J : nat -> R,
    (forall j, (j < streams p)%nat -> is_RInt (fun psi => phase_at p l (cos_between (nth i mu 0) phi (nth j mu 0) psi) * f j t psi) 0 (2 * PI) (J j)) /\
    is_derive (fun x => f i x phi) t
     ((scl p l * (f i t phi
         - albedo_s p l / (4 * PI) * rsum (streams p) (fun j => wnode (half p) w j * J j)
         - albedo_s p l / (4 * PI) * phase_at p l (cos_between (nth i mu 0) phi (- p_mu0 p) (p_phi0 p)) * p_I0 p * exp (- depth_s p l t / p_mu0 p))
       - (1 - albedo p l) * source p l t) / nth i mu 0);
  fs_cont : forall i, (i < streams p)%nat -> cont2_on 0 (bottom p) (f i);
  fs_turn : forall i t phi, (i < streams p)%nat -> 0 <= t <= bottom p -> f i t (phi + 2 * PI) = f i t phi;
  fs_top : forall i phi, (i < half p)%nat -> f (half p + i)%nat 0 phi = vn i;
  fs_bottom : forall i phi, (i < half p)%nat -> exists J : nat -> R,
    (forall j, (j < half p)%nat -> is_RInt (fun psi => surface_at p rho (nth i mu 0) phi (nth j mu 0) psi * f (half p + j)%nat (bottom p) psi) 0 (2 * PI) (J j)) /\
    f i (bottom p) phi = vp i + / PI * rsum (half p) (fun j => w j * nth j mu 0 * J j)
      + p_mu0 p * p_I0 p / PI * surface_at p rho (nth i mu 0) phi (p_mu0 p) (p_phi0 p) * exp (- depth_s p (nlayers p - 1) (bottom p) / p_mu0 p)
}.

(** No coefficient of the scattering is so small that the code drops it. *)
Definition resolved (p : py_in) : Prop := forall l k, (l < nlayers p)%nat -> (k < ncoeffs p)%nat ->
  albedo_s p l * wphase_s p l k = 0 \/ 2 / 100000000 < Rabs (albedo_s p l * wphase_s p l k).

(** The phase function that takes part is not negative at any scattering angle (in layers that scatter). *)
Definition phase_positive (p : py_in) : Prop := forall l c, (l < nlayers p)%nat -> 0 < albedo_s p l -> -1 <= c <= 1 -> 0 <= phase_at p l c.
(** The surface does not reflect negative light, and at most what it receives. *)
Record surface_positive (p : py_in) (mu : list R) (w : nat -> R) (rho : nat -> R -> R -> R) : Prop := mkSP {
  sp_diffuse : forall i j x y, (i < half p)%nat -> (j < half p)%nat -> 0 <= surface_at p rho (nth i mu 0) x (nth j mu 0) y;
  sp_beam : 0 < p_I0 p -> forall i x, (i < half p)%nat -> 0 <= surface_at p rho (nth i mu 0) x (p_mu0 p) (p_phi0 p);
  sp_albedo : forall i, (i < half p)%nat -> reflectance p mu w (rho 0%nat) i <= 1
}.
(** Every azimuthal mode of the phase function and of the surface takes part, and no correction is added. *)
Record all_modes (p : py_in) : Prop := mkAM {
  am_nt : ~ nt_applies p;
  am_phase : nmodes p = ncoeffs p;
  am_surface : (length (p_BDRF p) <= nmodes p)%nat;
  am_kept : resolved p
}.
