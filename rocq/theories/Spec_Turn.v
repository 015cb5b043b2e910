(** Vocabulary for statements about turning the sun and the observer about the vertical. *)
From Coq Require Import Reals List Arith ZArith.
From Verif Require Import Base Tensor M_Subroutines M_Assemble M_Pydisort Spec_Calls.
Local Open Scope R_scope.

(** The call [p] with the sun at azimuth [x]. *)
Definition turned (p : py_in) (x : R) : py_in :=
  mkPI (p_tau p) (p_omega p) (p_NQuad p) (p_Leg p) (p_mu0 p) (p_I0 p) x (p_NLeg p) (p_NFourier p) (p_bpos p) (p_bneg p)
       (p_only_flux p) (p_f p) (p_NT p) (p_BDRF p) (p_s p) (p_banded p) (p_autograd p).
(** Seen from the azimuths [psi] the sun at [y] stands where the sun at [x] stands seen from [phi],
    up to full turns and up to the side. *)
Definition same_bearing (x y : R) (phi psi : list R) : Prop := Forall2 (fun f g => cos (f - x) = cos (g - y)) phi psi.
(** Both calls are rejected for the same reason, or the directions and the functions that do not
    take an azimuth are the same and the intensities agree at azimuths of the same bearing. *)
Definition same_from (x y : R) (A B : res py_out) : Prop :=
  match A, B with
  | Ok a, Ok b =>
      po_mu a = po_mu b /\ po_flux_up a = po_flux_up b /\ po_flux_down a = po_flux_down b /\ po_u0 a = po_u0 b /\ po_Leg a = po_Leg b /\
      match po_u a, po_u b with
      | Some u, Some v => forall tau phi psi anti re rt, same_bearing x y phi psi -> same_ret (u tau phi anti re rt) (v tau psi anti re rt)
      | None, None => True
      | _, _ => False
      end
  | Err e, Err e' => e = e'
  | _, _ => False
  end.
