(** The arguments pydisort accepts. *)
From Coq Require Import String Reals List Bool Arith ZArith.
From Verif Require Import Base Tensor M_Subroutines M_Pydisort Spec_Sol.
Import ListNotations.
Local Open Scope R_scope.

Section Valid.
  Variable p : py_in.
  Let NL := nlayers p.

  (** A source polynomial with a non-zero coefficient is given. *)
  Definition has_source : Prop := exists i j, (i < nrow (p_s p))%nat /\ (j < ncol (p_s p))%nat /\ at2 (p_s p) i j <> 0.
  Definition NLegZ : Z := match p_NLeg p with None => p_NQuad p | Some n => n end.
  Definition NFourierZ : Z := if p_only_flux p then 1%Z else match p_NFourier p with None => p_NQuad p | Some n => n end.
  (** Accepted shapes of a boundary source: identically zero, one value, or one leading
      dimension per upward (downward) stream. *)
  Definition b_accepted (b : tensor) : Prop :=
    (forall idx, inb (shp b) idx -> elt b idx = 0) \/ shp b = [] \/
    exists n s, shp b = n :: s /\ (n = 1%nat \/ Z.of_nat n = (p_NQuad p / 2)%Z).

  Record valid : Prop := mkV {
    v_ne : (1 <= NL)%nat;
    v_tau : forall l, (l < NL)%nat -> 0 < bot_of p l;
    v_inc : forall l, (l < NL)%nat -> top_of p l < bot_of p l;
    v_om : forall w, In w (p_omega p) -> 0 <= w < 1;
    v_leg : (0 < NLegZ <= Z.of_nat (ncol (p_Leg p)))%Z;
    v_nrow : nrow (p_Leg p) = NL;
    v_nom : length (p_omega p) = NL;
    v_nf : (exists f, In f (p_f p) /\ f <> 0) -> length (p_f p) = NL;
    v_ns : has_source -> nrow (p_s p) = NL;
    v_g : forall l k, (l < NL)%nat -> (1 <= k < ncol (p_Leg p))%nat -> -1 < at2 (p_Leg p) l k < 1;
    v_nq : (2 <= p_NQuad p)%Z;
    v_even : (p_NQuad p mod 2 = 0)%Z;
    v_nfou : (0 < NFourierZ <= NLegZ)%Z;
    v_nlq : (NLegZ <= p_NQuad p)%Z;
    v_I0 : 0 <= p_I0 p;
    v_mu0 : 0 < p_I0 p -> 0 < p_mu0 p <= 1;
    v_phi0 : 0 < p_I0 p -> 0 <= p_phi0 p < 2 * PI;
    v_bpos : b_accepted (p_bpos p);
    v_bneg : b_accepted (p_bneg p);
    v_f : forall f, In f (p_f p) -> 0 <= f <= 1;
    v_band : (3 <= p_banded p)%Z
  }.
End Valid.
