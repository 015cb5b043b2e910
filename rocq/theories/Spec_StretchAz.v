(** Vocabulary for statements about how the intensity at every azimuth depends on all numerical arguments. *)
From Coq Require Import String Reals List Bool Arith ZArith.
From Verif Require Import Base Tensor Spec M_LinAlg Spec_RTE M_Subroutines M_Assemble M_Pydisort Spec_Sol Spec_Phys Spec_Mono Spec_Depend Spec_Full Spec_DependAz Spec_Stretch.
Import ListNotations.
Local Open Scope R_scope.

(** What layer [l] scatters out of the beam at the depth [t] into the direction with the polar cosine [x] and the azimuth [phi]. *)
Definition beam_scatter (p : py_in) (l : nat) (x phi t : R) : R :=
  p_I0 p / (4 * PI) * rsum (ncoeffs p) (fun k => (2 * INR k + 1) * scattering p l k * legendre k (cos_between x phi (- p_mu0 p) (p_phi0 p))) * exp (- depth_s p l t / p_mu0 p).
(** What the surface reflects of the beam into this direction. *)
Definition beam_bounce (p : py_in) (rho : nat -> R -> R -> R) (x phi : R) : R :=
  p_mu0 p * p_I0 p / PI * surface_at p rho x phi (p_mu0 p) (p_phi0 p) * exp (- depth_s p (nlayers p - 1) (bottom p) / p_mu0 p).
(** The most by which two surfaces with Fourier modes [rho] and [rho'] differ, at any azimuth. *)
Definition surface_dist (p : py_in) (rho rho' : nat -> R -> R -> R) (x y : R) : R := rsum (length (p_BDRF p)) (fun m => Rabs (rho m x y - rho' m x y)).
(** The change from [p] to [q] moves the intensity by no more than [e] at every azimuth, given that
    the intensity in [p] is at most [M]: what is extinguished, scattered or emitted differently in a
    layer, and all that a layer does more because it is thicker, is at most what the absorption of that
    layer removes from a field of size [e], and likewise at the boundaries. *)
Record shifts_by (e M : R) (p q : py_in) (mu : list R) (w vn vp vn' vp' : nat -> R) (rho rho' : nat -> R -> R -> R) : Prop := mkSB {
  sb_layer : forall l i s phi, (l < nlayers q)%nat -> (i < streams q)%nat -> top_of q l <= s <= bot_of q l ->
    (peak_dist p q l + scattering_dist p q l) * M
      + Rabs (beam_scatter p l (nth i mu 0) phi (same_place p q l s) - beam_scatter q l (nth i mu 0) phi s)
      + Rabs ((1 - albedo p l) * source p l (same_place p q l s) - (1 - albedo q l) * source q l s)
      + Rabs (thicker p q l - 1) * ((1 + scattering_size p l) * M + p_I0 p / (4 * PI) * scattering_size p l + (1 - albedo p l) * Rabs (source p l (same_place p q l s)))
    <= (1 - albedo q l) * e;
  sb_n : forall i, (i < half q)%nat -> Rabs (vn i - vn' i) <= e;
  sb_p : forall i phi, (i < half q)%nat ->
    Rabs (vp i - vp' i) + Rabs (beam_bounce p rho (nth i mu 0) phi - beam_bounce q rho' (nth i mu 0) phi)
      + 2 * rsum (half q) (fun j => surface_dist q rho rho' (nth i mu 0) (nth j mu 0) * nth j mu 0 * w j) * M
    <= (1 - reflectance q mu w (rho' 0%nat) i) * e
}.
(** The numerical arguments of two atmospheres differ by at most [d], also the azimuth of the sun and
    every Fourier mode of the reflection. *)
Record near_sky (d : R) (p q : py_in) (mu : list R) (vn vp vn' vp' : nat -> R) (rho rho' : nat -> R -> R -> R) : Prop := mkNS {
  ns_all : near_deformed d p q mu vn vp vn' vp' (rho 0%nat) (rho' 0%nat);
  ns_phi0 : Rabs (p_phi0 p - p_phi0 q) <= d;
  ns_rho : forall m i j, (m < length (p_BDRF q))%nat -> (i < half q)%nat -> (j < half q)%nat -> Rabs (rho m (nth i mu 0) (nth j mu 0) - rho' m (nth i mu 0) (nth j mu 0)) <= d;
  ns_rho0 : forall m i, (m < length (p_BDRF q))%nat -> (i < half q)%nat -> Rabs (rho m (nth i mu 0) (p_mu0 p) - rho' m (nth i mu 0) (p_mu0 q)) <= d
}.
