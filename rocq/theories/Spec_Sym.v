(** Vocabulary for the symmetries of the radiation: reciprocity and reflection of the atmosphere. *)
From Coq Require Import String Reals Lra Lia List Bool Arith ZArith.
From Verif Require Import Base Tensor M_LinAlg M_Subroutines M_Assemble M_Pydisort Spec_Sol Spec_Phys.
Import ListNotations.
Local Open Scope R_scope.

(** Nothing but the boundaries emits. *)
Definition no_emission (p : py_in) : Prop :=
  p_I0 p = 0 /\ forall l t, (l < nlayers p)%nat -> top_of p l < t < bot_of p l -> source p l t = 0.
(** The surface reflects from direction [i] to direction [j] as it does from [j] to [i]. *)
Definition reciprocal_surface (p : py_in) (mu : list R) (rho : R -> R -> R) : Prop :=
  (0 < length (p_BDRF p))%nat -> forall i j, (i < half p)%nat -> (j < half p)%nat -> rho (nth i mu 0) (nth j mu 0) = rho (nth j mu 0) (nth i mu 0).

(** Position of the opposite direction, for [n] upward and [n] downward directions. *)
Definition opposite (n i : nat) : nat := if Nat.ltb i n then (n + i)%nat else (i - n)%nat.
(** [q] is the atmosphere [p] upside down: no beam, no surface, the layers in reverse order. *)
Record upside_down (p q : py_in) : Prop := mkUD {
  ud_layers : nlayers q = nlayers p;
  ud_top : forall l, (l < nlayers p)%nat -> top_of q l = bottom p - bot_of p (nlayers p - 1 - l);
  ud_bot : forall l, (l < nlayers p)%nat -> bot_of q l = bottom p - top_of p (nlayers p - 1 - l);
  ud_albedo : forall l, (l < nlayers p)%nat -> albedo q l = albedo p (nlayers p - 1 - l);
  ud_fwd : forall l, (l < nlayers p)%nat -> fwd q l = fwd p (nlayers p - 1 - l);
  ud_phase : forall l k, (l < nlayers p)%nat -> (k < ncoeffs p)%nat -> phase q l k = phase p (nlayers p - 1 - l) k;
  ud_source : forall l t, (l < nlayers p)%nat -> top_of q l < t < bot_of q l -> source q l t = source p (nlayers p - 1 - l) (bottom p - t);
  ud_NQuad : p_NQuad q = p_NQuad p;
  ud_ncoeffs : ncoeffs q = ncoeffs p;
  ud_I0 : p_I0 p = 0 /\ p_I0 q = 0;
  ud_BDRF : p_BDRF p = [] /\ p_BDRF q = []
}.
