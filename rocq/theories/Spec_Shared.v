(** Vocabulary for statements about calls that share an array. *)
From Coq Require Import Reals List Arith ZArith.
From Verif Require Import Base Tensor M_Subroutines M_Assemble M_Pydisort.
Local Open Scope R_scope.

(** The input [p] with Leg_coeffs_all holding [L] and nothing else changed. *)
Definition with_phase (p : py_in) (L : arr2) : py_in := {|
  p_tau := p_tau p; p_omega := p_omega p; p_NQuad := p_NQuad p; p_Leg := L;
  p_mu0 := p_mu0 p; p_I0 := p_I0 p; p_phi0 := p_phi0 p; p_NLeg := p_NLeg p; p_NFourier := p_NFourier p;
  p_bpos := p_bpos p; p_bneg := p_bneg p; p_only_flux := p_only_flux p; p_f := p_f p; p_NT := p_NT p;
  p_BDRF := p_BDRF p; p_s := p_s p; p_banded := p_banded p; p_autograd := p_autograd p |}.

(** The same directions and the same functions, or the same exception. *)
Definition same_answer (x y : res py_out) : Prop :=
  match x, y with
  | Ok a, Ok b => po_mu a = po_mu b /\ po_flux_up a = po_flux_up b /\ po_flux_down a = po_flux_down b /\
                  po_u0 a = po_u0 b /\ po_u a = po_u b
  | Err e, Err e' => e = e'
  | _, _ => False
  end.
(** The array [L] with its first column set to 1. *)
Definition ones_first (L : arr2) : arr2 := mkA2 (nrow L) (ncol L) (fun l k => if Nat.eqb k 0 then 1 else at2 L l k).
(** The rows of the layers that scatter are the same, and the shapes are. *)
Definition same_where_scattering (p : py_in) (L L' : arr2) : Prop :=
  nrow L = nrow L' /\ ncol L = ncol L' /\
  forall l, (l < length (p_tau p))%nat -> nth l (p_omega p) 0 <> 0 -> forall k, at2 L l k = at2 L' l k.
