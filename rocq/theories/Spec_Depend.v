(** Vocabulary for statements about how the radiation depends on the optical properties. *)
From Coq Require Import String Reals Lra Lia List Bool Arith ZArith.
From Verif Require Import Base Tensor M_LinAlg M_Subroutines M_Assemble M_Pydisort Spec_Sol Spec_Phys Spec_Mono.
Import ListNotations.
Local Open Scope R_scope.

(** What layer [l] scatters per unit of optical depth, order [k] of the Legendre expansion, after
    the forward peak was taken out. *)
Definition scattering (p : py_in) (l k : nat) : R := albedo p l * (phase p l k - fwd p l).
(** Distance of what two atmospheres scatter in layer [l], and how much the second scatters. *)
Definition scattering_dist (p q : py_in) (l : nat) : R :=
  rsum (ncoeffs q) (fun k => (2 * INR k + 1) * Rabs (scattering p l k - scattering q l k)).
Definition scattering_size (q : py_in) (l : nat) : R := rsum (ncoeffs q) (fun k => (2 * INR k + 1) * Rabs (scattering q l k)).
(** Distance of the forward peaks, per unit of optical depth and from top to bottom. *)
Definition peak_dist (p q : py_in) (l : nat) : R := Rabs (albedo p l * fwd p l - albedo q l * fwd q l).
Definition depth_dist (p q : py_in) : R := rsum (nlayers q) (fun l => peak_dist p q l * (bot_of q l - top_of q l)).

(** The scattering of no layer is so weak that it is left out (albedo in (0, 2e-8] after delta-M
    scaling), and no phase function is a pure forward peak. *)
Definition scattering_kept (p : py_in) : Prop :=
  forall l, (l < nlayers p)%nat -> fwd p l < 1 /\ (albedo p l = 0 \/ 2 / 100000000 < albedo_s p l).

(** Two atmospheres with the same layers, order of approximation, beam and surface. *)
Record same_setting (p q : py_in) : Prop := mkSS {
  ss_tau : p_tau p = p_tau q;
  ss_NQuad : p_NQuad p = p_NQuad q;
  ss_NLeg : p_NLeg p = p_NLeg q;
  ss_mu0 : p_mu0 p = p_mu0 q;
  ss_I0 : p_I0 p = p_I0 q;
  ss_BDRF : p_BDRF p = p_BDRF q
}.
(** The change from [p] to [q] moves the radiation by no more than [e], given that the radiation in
    [p] is at most [M]: the radiation that is scattered, extinguished or emitted differently in a
    layer is at most what the absorption of that layer removes from a field of size [e], and likewise
    at the boundaries. *)
Record changes_by (e M : R) (p q : py_in) (mu : list R) (w vn vp vn' vp' : nat -> R) (rho : R -> R -> R) : Prop := mkCB {
  cb_layer : forall l t, (l < nlayers q)%nat -> top_of q l <= t <= bot_of q l ->
    (peak_dist p q l + scattering_dist p q l) * M
      + p_I0 q / (4 * PI) * (scattering_dist p q l + scattering_size q l * (depth_dist p q / p_mu0 q))
      + Rabs ((1 - albedo p l) * source p l t - (1 - albedo q l) * source q l t) <= (1 - albedo q l) * e;
  cb_n : forall i, (i < half q)%nat -> Rabs (vn i - vn' i) <= e;
  cb_p : forall i, (i < half q)%nat ->
    Rabs (vp i - vp' i) + p_I0 q / PI * Rabs (reflects q rho (nth i mu 0) (p_mu0 q)) * depth_dist p q <= (1 - reflectance q mu w rho i) * e
}.
(** Every entry of every reported mean intensity is at most [M]. *)
Definition u0_bounded (p : py_in) (out : py_out) (M : R) : Prop :=
  forall tau A, depths_ok p tau -> po_u0 out tau false false false = Ok (PVal (PT A)) -> forall idx, inb (shp A) idx -> Rabs (elt A idx) <= M.
(** The optical properties, emission and boundary values of two atmospheres differ by at most [d]. *)
Record nearby (d : R) (p q : py_in) (vn vp vn' vp' : nat -> R) : Prop := mkNear {
  nb_albedo : forall l, (l < nlayers q)%nat -> Rabs (albedo p l - albedo q l) <= d;
  nb_phase : forall l k, (l < nlayers q)%nat -> (k < ncoeffs q)%nat -> Rabs (phase p l k - phase q l k) <= d;
  nb_fwd : forall l, (l < nlayers q)%nat -> Rabs (fwd p l - fwd q l) <= d;
  nb_source : forall l t, (l < nlayers q)%nat -> top_of q l <= t <= bot_of q l -> Rabs (source p l t - source q l t) <= d;
  nb_n : forall i, (i < half q)%nat -> Rabs (vn i - vn' i) <= d;
  nb_p : forall i, (i < half q)%nat -> Rabs (vp i - vp' i) <= d
}.
