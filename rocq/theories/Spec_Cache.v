(** Calls that differ in the surface only. *)
From Coq Require Import Reals List.
From Verif Require Import Base Tensor M_LinAlg M_Subroutines M_Pydisort.
Import ListNotations.
Local Open Scope R_scope.

(** The call [p] with other surface modes. *)
Definition with_surface (p : py_in) (l : list bmode) : py_in :=
  mkPI (p_tau p) (p_omega p) (p_NQuad p) (p_Leg p) (p_mu0 p) (p_I0 p) (p_phi0 p) (p_NLeg p) (p_NFourier p) (p_bpos p) (p_bneg p)
    (p_only_flux p) (p_f p) (p_NT p) l (p_s p) (p_banded p) (p_autograd p).
