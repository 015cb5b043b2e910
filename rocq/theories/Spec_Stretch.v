(** Vocabulary for statements about how the radiation depends on all numerical arguments, among them the thicknesses of the layers. *)
From Coq Require Import String Reals List Bool Arith ZArith.
From Verif Require Import Base Tensor Spec M_LinAlg Spec_RTE M_Subroutines M_Assemble M_Pydisort Spec_Sol Spec_Phys Spec_Mono Spec_Depend.
Import ListNotations.
Local Open Scope R_scope.

(** Two atmospheres with the same number of layers, order of approximation and number of azimuthal
    modes of the surface. *)
Record same_frame (p q : py_in) : Prop := mkSF {
  sf_layers : nlayers p = nlayers q;
  sf_NQuad : p_NQuad p = p_NQuad q;
  sf_NLeg : p_NLeg p = p_NLeg q;
  sf_surface : length (p_BDRF p) = length (p_BDRF q)
}.
Definition thickness (p : py_in) (l : nat) : R := bot_of p l - top_of p l.
(** How much thicker layer [l] is in [p] than in [q]. *)
Definition thicker (p q : py_in) (l : nat) : R := thickness p l / thickness q l.
(** The depth in [p] that divides layer [l] in the same ratio as the depth [s] does in [q]. *)
Definition same_place (p q : py_in) (l : nat) (s : R) : R := top_of p l + thicker p q l * (s - top_of q l).
(** [t] in [p] and [s] in [q] are at the same place of the same layer. *)
Definition corresponds (p q : py_in) (t s : R) : Prop :=
  exists l, (l < nlayers q)%nat /\ top_of q l <= s <= bot_of q l /\ t = same_place p q l s.

(** What layer [l] scatters out of the beam into the direction [x] at the depth [t]. *)
Definition beam_source (p : py_in) (l : nat) (x t : R) : R :=
  p_I0 p / (4 * PI) * rsum (ncoeffs p) (fun k => (2 * INR k + 1) * scattering p l k * legendre k x * legendre k (- p_mu0 p)) * exp (- depth_s p l t / p_mu0 p).
(** What the surface reflects of the beam into the direction [x]. *)
Definition beam_mirror (p : py_in) (rho : R -> R -> R) (x : R) : R :=
  p_mu0 p * p_I0 p / PI * reflects p rho x (p_mu0 p) * exp (- depth_s p (nlayers p - 1) (bottom p) / p_mu0 p).
(** The change from [p] to [q] moves the radiation by no more than [e], given that the radiation in
    [p] is at most [M]: what is extinguished, scattered or emitted differently in a layer, and all that
    a layer does more because it is thicker, is at most what the absorption of that layer removes from
    radiation of size [e], and likewise at the boundaries. *)
Record deforms_by (e M : R) (p q : py_in) (mu : list R) (w vn vp vn' vp' : nat -> R) (rho rho' : R -> R -> R) : Prop := mkDB {
  db_layer : forall l i s, (l < nlayers q)%nat -> (i < streams q)%nat -> top_of q l <= s <= bot_of q l ->
    (peak_dist p q l + scattering_dist p q l) * M
      + Rabs (beam_source p l (nth i mu 0) (same_place p q l s) - beam_source q l (nth i mu 0) s)
      + Rabs ((1 - albedo p l) * source p l (same_place p q l s) - (1 - albedo q l) * source q l s)
      + Rabs (thicker p q l - 1) * ((1 + scattering_size p l) * M + p_I0 p / (4 * PI) * scattering_size p l + (1 - albedo p l) * Rabs (source p l (same_place p q l s)))
    <= (1 - albedo q l) * e;
  db_n : forall i, (i < half q)%nat -> Rabs (vn i - vn' i) <= e;
  db_p : forall i, (i < half q)%nat ->
    Rabs (vp i - vp' i) + Rabs (beam_mirror p rho (nth i mu 0) - beam_mirror q rho' (nth i mu 0))
      + 2 * rsum (half q) (fun j => Rabs (reflects p rho (nth i mu 0) (nth j mu 0) - reflects q rho' (nth i mu 0) (nth j mu 0)) * nth j mu 0 * w j) * M
    <= (1 - reflectance q mu w rho' i) * e
}.
(** The flux of the beam, true and delta-M scaled, differs by at most [b] at the same places. *)
Definition beams_within (b : R) (p q : py_in) : Prop := forall t s, corresponds p q t s ->
  Rabs (direct p t - direct q s) <= b /\ Rabs (direct p (sdepth p t) - direct q (sdepth q s)) <= b.
(** The numerical arguments of two atmospheres differ by at most [d]: layer boundaries, optical
    properties, emission (at the same place of each layer), boundary values, beam and reflection. *)
Record near_deformed (d : R) (p q : py_in) (mu : list R) (vn vp vn' vp' : nat -> R) (rho rho' : R -> R -> R) : Prop := mkND {
  nd_bottom : forall l, (l < nlayers q)%nat -> Rabs (bot_of p l - bot_of q l) <= d;
  nd_albedo : forall l, (l < nlayers q)%nat -> Rabs (albedo p l - albedo q l) <= d;
  nd_phase : forall l k, (l < nlayers q)%nat -> (k < ncoeffs q)%nat -> Rabs (phase p l k - phase q l k) <= d;
  nd_fwd : forall l, (l < nlayers q)%nat -> Rabs (fwd p l - fwd q l) <= d;
  nd_source : forall l s, (l < nlayers q)%nat -> top_of q l <= s <= bot_of q l -> Rabs (source p l (same_place p q l s) - source q l s) <= d;
  nd_n : forall i, (i < half q)%nat -> Rabs (vn i - vn' i) <= d;
  nd_p : forall i, (i < half q)%nat -> Rabs (vp i - vp' i) <= d;
  nd_I0 : Rabs (p_I0 p - p_I0 q) <= d;
  nd_mu0 : Rabs (p_mu0 p - p_mu0 q) <= d;
  nd_rho : forall i j, (i < half q)%nat -> (j < half q)%nat -> Rabs (reflects p rho (nth i mu 0) (nth j mu 0) - reflects q rho' (nth i mu 0) (nth j mu 0)) <= d;
  nd_rho0 : forall i, (i < half q)%nat -> Rabs (reflects p rho (nth i mu 0) (p_mu0 p) - reflects q rho' (nth i mu 0) (p_mu0 q)) <= d
}.
