(** Vocabulary for statements about descriptions of the same atmosphere. *)
From Coq Require Import String Reals Lra Lia List Bool Arith ZArith.
From Verif Require Import Base Tensor M_LinAlg Spec_RTE M_Subroutines M_Assemble M_Pydisort Spec_Sol.
Import ListNotations.
Local Open Scope R_scope.

(** Coefficient [k] of the truncated phase function of layer [l] after delta-M scaling. *)
Definition coefficient (p : py_in) (l k : nat) : R := if Nat.ltb k (ncoeffs p) then phase_s p l k else 0.

(** [rho m] is mode [m] of the surface reflection, as far as the argument lists it. *)
Definition surface_is (p : py_in) (rho : nat -> R -> R -> R) : Prop :=
  forall m, (m < length (p_BDRF p))%nat -> mode_is (nth m (p_BDRF p) (MScal 0)) (rho m).
(** Mode [m] of the surface reflection, zero beyond the list. *)
Definition reflection (p : py_in) (rho : nat -> R -> R -> R) (m : nat) (x y : R) : R :=
  if Nat.ltb m (length (p_BDRF p)) then rho m x y else 0.

(** [p] and [q] describe the same atmosphere: layer [l] of [q] is a part of layer [g l] of [p] with
    the same albedo and emission and, if it scatters, the same truncated phase function; the beam has
    the same strength and, if there is one, the same elevation; the values at the boundaries and the
    reflection of the surface agree. How these are written is left open: a number or an array of
    equal values, a number or a constant function, zeros left out or listed, coefficients that are
    not used. *)
Record same_physics (p q : py_in) (g : nat -> nat) (rho rho' : nat -> R -> R -> R) : Prop := mkSP {
  sp_bottom : bottom q = bottom p;
  sp_layer : forall l, (l < nlayers q)%nat -> (g l < nlayers p)%nat /\ top_of p (g l) <= top_of q l /\ bot_of q l <= bot_of p (g l);
  sp_albedo : forall l, (l < nlayers q)%nat -> albedo q l = albedo p (g l);
  sp_fwd : forall l, (l < nlayers q)%nat -> albedo q l <> 0 -> fwd q l = fwd p (g l);
  sp_coef : forall l k, (l < nlayers q)%nat -> albedo q l <> 0 -> coefficient q l k = coefficient p (g l) k;
  sp_source : forall l t, (l < nlayers q)%nat -> top_of q l <= t <= bot_of q l -> source q l t = source p (g l) t;
  sp_NQuad : p_NQuad q = p_NQuad p;
  sp_I0 : p_I0 q = p_I0 p;
  sp_mu0 : 0 < p_I0 p -> p_mu0 q = p_mu0 p;
  sp_bneg : exists v, bc_values (p_bneg p) (half p) v /\ bc_values (p_bneg q) (half q) v;
  sp_bpos : exists v, bc_values (p_bpos p) (half p) v /\ bc_values (p_bpos q) (half q) v;
  sp_surface : forall m x y, (m < nmodes p)%nat -> (m < nmodes q)%nat -> 0 < x < 1 -> 0 < y <= 1 -> reflection q rho' m x y = reflection p rho m x y
}.

(** A beam, an emission or a positive boundary value, or no negative boundary value. *)
Definition ordinary_sources (p : py_in) : Prop := some_source p \/ (nonneg (p_bneg p) /\ nonneg (p_bpos p)).

(** The two descriptions ask for the intensity [u] at the same azimuths: both ask for it, neither
    applies the corrections of Nakajima and Tanaka; with a beam, its azimuth and the number of Fourier
    modes agree. *)
Definition same_azimuths (p q : py_in) : Prop :=
  ~ nt_applies p /\ ~ nt_applies q /\ p_only_flux p = p_only_flux q /\
  (0 < p_I0 p -> p_phi0 q = p_phi0 p /\ nmodes q = nmodes p).
