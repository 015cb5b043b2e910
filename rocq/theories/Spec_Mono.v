(** Vocabulary for statements about how the radiation depends on the atmosphere. *)
From Coq Require Import String Reals Lra Lia List Bool Arith ZArith.
From Verif Require Import Base Tensor M_LinAlg M_Subroutines M_Assemble M_Pydisort Spec_Sol Spec_Phys.
Import ListNotations.
Local Open Scope R_scope.

(** Azimuthal mean of the surface reflection; 0 without a surface. *)
Definition reflects (p : py_in) (rho : R -> R -> R) (x y : R) : R := if Nat.ltb 0 (length (p_BDRF p)) then rho x y else 0.

(** The atmosphere [q] has the same layers and phase functions as [p], but scatters at least as much
    of the radiation, emits at least as much, is illuminated at least as strongly and lies above a
    surface that reflects at least as much. [mu]: directions. *)
Record dimmer (p q : py_in) (mu : list R) (vn vp vn' vp' : nat -> R) (rho rho' : R -> R -> R) : Prop := mkDim {
  di_tau : p_tau p = p_tau q;
  di_NQuad : p_NQuad p = p_NQuad q;
  di_Leg : p_Leg p = p_Leg q;
  di_NLeg : p_NLeg p = p_NLeg q;
  di_f : p_f p = p_f q;
  di_mu0 : p_mu0 p = p_mu0 q;
  di_albedo : forall l, (l < nlayers q)%nat -> albedo p l <= albedo q l;
  di_emission : forall l t, (l < nlayers q)%nat -> top_of q l <= t <= bot_of q l -> (1 - albedo p l) * source p l t <= (1 - albedo q l) * source q l t;
  di_I0 : p_I0 p <= p_I0 q;
  di_n : forall i, (i < half q)%nat -> vn i <= vn' i;
  di_p : forall i, (i < half q)%nat -> vp i <= vp' i;
  di_surface : forall i j, (i < half q)%nat -> (j < half q)%nat -> reflects p rho (nth i mu 0) (nth j mu 0) <= reflects q rho' (nth i mu 0) (nth j mu 0);
  di_beam : 0 < p_I0 q -> forall i, (i < half q)%nat -> reflects p rho (nth i mu 0) (p_mu0 q) <= reflects q rho' (nth i mu 0) (p_mu0 q)
}.
(** No source is negative. *)
Record sources_nonneg (p : py_in) (vn vp : nat -> R) : Prop := mkSN {
  sn_s : forall l t, (l < nlayers p)%nat -> top_of p l <= t <= bot_of p l -> 0 <= source p l t;
  sn_n : forall i, (i < half p)%nat -> 0 <= vn i;
  sn_p : forall i, (i < half p)%nat -> 0 <= vp i
}.
(** The sources of two calls differ by at most [e]: the emission of the layers and the downward
    boundary values by [e], the upward boundary values by what a surface that emits [e] contributes. *)
Record sources_within (e : R) (p q : py_in) (mu : list R) (w vn vp vn' vp' : nat -> R) (rho : R -> R -> R) : Prop := mkSW {
  sw_I0 : p_I0 p = p_I0 q;
  sw_s : forall l t, (l < nlayers q)%nat -> top_of q l <= t <= bot_of q l -> Rabs (source p l t - source q l t) <= e;
  sw_n : forall i, (i < half q)%nat -> Rabs (vn i - vn' i) <= e;
  sw_p : forall i, (i < half q)%nat -> Rabs (vp i - vp' i) <= (1 - reflectance q mu w rho i) * e
}.
(** Entry by entry within [e]. *)
Definition twithin (e : R) (A B : tensor) : Prop := shp A = shp B /\ forall idx, inb (shp A) idx -> Rabs (elt A idx - elt B idx) <= e.
