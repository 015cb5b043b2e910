(** Vocabulary for statements about the sign and size of the radiation. *)
From Coq Require Import String Reals Lra Lia List Bool Arith ZArith.
From Verif Require Import Base Tensor M_LinAlg M_Subroutines M_Assemble M_Pydisort Spec_Sol.
Import ListNotations.
Local Open Scope R_scope.

(** Fourier mode [m] of the phase function that takes part (truncated and delta-M scaled) of layer
    [l], between the direction cosines [x] and [y]; mode 0 is the azimuthal mean. *)
Definition phase_mode (p : py_in) (m l : nat) (x y : R) : R :=
  rsum (ncoeffs p) (fun k => if Nat.leb m k then wphase_s p l k * poch_term m k * lpmv m k x * lpmv m k y else 0).
(** Its azimuthal mean is not negative between the directions [mu], and from the beam. *)
Definition phase_nonneg (p : py_in) (mu : list R) : Prop :=
  forall l i j, (l < nlayers p)%nat -> (i < streams p)%nat -> (j < streams p)%nat -> 0 <= phase_mode p 0 l (nth i mu 0) (nth j mu 0).
Definition beam_phase_nonneg (p : py_in) (mu : list R) : Prop :=
  0 < p_I0 p -> forall l i, (l < nlayers p)%nat -> (i < streams p)%nat -> 0 <= phase_mode p 0 l (nth i mu 0) (- p_mu0 p).

(** Share of an isotropic downward field which the surface reflects into direction [i]; [rho] is the
    azimuthal mean of the surface reflection. *)
Definition reflectance (p : py_in) (mu : list R) (w : nat -> R) (rho : R -> R -> R) (i : nat) : R :=
  if Nat.ltb 0 (length (p_BDRF p)) then 2 * rsum (half p) (fun j => rho (nth i mu 0) (nth j mu 0) * nth j mu 0 * w j) else 0.
(** A surface that absorbs, but does not amplify. *)
Record passive_surface (p : py_in) (mu : list R) (w : nat -> R) (rho : R -> R -> R) : Prop := mkPS {
  ps_nonneg : forall i j, (i < half p)%nat -> (j < half p)%nat -> 0 <= rho (nth i mu 0) (nth j mu 0);
  ps_beam : 0 < p_I0 p -> forall i, (i < half p)%nat -> 0 <= rho (nth i mu 0) (p_mu0 p);
  ps_albedo : forall i, (i < half p)%nat -> reflectance p mu w rho i <= 1
}.

(** The same layers, surface, quadrature and direction of the beam. *)
Record same_medium (p q : py_in) : Prop := mkSM {
  sm_tau : p_tau p = p_tau q;
  sm_omega : p_omega p = p_omega q;
  sm_NQuad : p_NQuad p = p_NQuad q;
  sm_Leg : p_Leg p = p_Leg q;
  sm_NLeg : p_NLeg p = p_NLeg q;
  sm_f : p_f p = p_f q;
  sm_BDRF : p_BDRF p = p_BDRF q;
  sm_mu0 : p_mu0 p = p_mu0 q
}.
(** Entry by entry. *)
Definition tle (A B : tensor) : Prop := shp A = shp B /\ forall idx, inb (shp A) idx -> elt A idx <= elt B idx.
(** Boundary sources as one value per stream, and the modes of the surface reflection, in one of the
    forms the documentation describes. (Negative boundary sources count only beside another source.) *)
Record boundary_data (p : py_in) (vn vp : nat -> R) (rho : nat -> R -> R -> R) : Prop := mkBD {
  bd_neg : bc_values (p_bneg p) (half p) vn;
  bd_pos : bc_values (p_bpos p) (half p) vp;
  bd_rho : forall m, (m < length (p_BDRF p))%nat -> mode_is (nth m (p_BDRF p) (MScal 0)) (rho m);
  bd_sign : (nonneg (p_bneg p) /\ nonneg (p_bpos p)) \/ some_source p
}.
(** The sources of [p] are nowhere stronger than those of [q]. *)
Record weaker (p q : py_in) (vn vp vn' vp' : nat -> R) : Prop := mkWk {
  wk_I0 : p_I0 p <= p_I0 q;
  wk_s : forall l t, (l < nlayers q)%nat -> top_of q l <= t <= bot_of q l -> source p l t <= source q l t;
  wk_n : forall i, (i < half q)%nat -> vn i <= vn' i;
  wk_p : forall i, (i < half q)%nat -> vp i <= vp' i
}.
(** The sources of [q] are [a] times those of [p] plus [b] times those of [p']. *)
Record superposed (a b : R) (p p' q : py_in) (vn vp vn' vp' vn'' vp'' : nat -> R) : Prop := mkSup {
  su_I0 : p_I0 q = a * p_I0 p + b * p_I0 p';
  su_s : forall l t, (l < nlayers q)%nat -> top_of q l < t < bot_of q l -> source q l t = a * source p l t + b * source p' l t;
  su_n : forall i, (i < half q)%nat -> vn'' i = a * vn i + b * vn' i;
  su_p : forall i, (i < half q)%nat -> vp'' i = a * vp i + b * vp' i
}.
Definition tcomb (a b : R) (A B C : tensor) : Prop :=
  shp A = shp C /\ shp B = shp C /\ forall idx, inb (shp C) idx -> elt C idx = a * elt A idx + b * elt B idx.
(** Every entry is at most [x]; every entry is [x]. *)
Definition all_le (A : tensor) (x : R) : Prop := forall idx, inb (shp A) idx -> elt A idx <= x.
Definition all_eq (A : tensor) (x : R) : Prop := forall idx, inb (shp A) idx -> elt A idx = x.
(** No layer scatters so little that the scattering of the azimuthal mean is dropped (but it may not scatter at all). *)
Definition scattering_kept (p : py_in) : Prop :=
  forall l, (l < nlayers p)%nat -> albedo_s p l = 0 \/ 2 / 100000000 < albedo_s p l.
