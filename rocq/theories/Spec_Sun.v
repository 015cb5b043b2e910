(** Vocabulary for statements about the position of the sun. *)
From Coq Require Import Reals List.
From Verif Require Import Base Tensor M_Pydisort.
Import ListNotations.
Local Open Scope R_scope.

(** The input [p] with the beam at the polar angle of cosine [x] and nothing else changed. *)
Definition at_sun (p : py_in) (x : R) : py_in := {|
  p_tau := p_tau p; p_omega := p_omega p; p_NQuad := p_NQuad p; p_Leg := p_Leg p;
  p_mu0 := x; p_I0 := p_I0 p; p_phi0 := p_phi0 p; p_NLeg := p_NLeg p; p_NFourier := p_NFourier p;
  p_bpos := p_bpos p; p_bneg := p_bneg p; p_only_flux := p_only_flux p; p_f := p_f p; p_NT := p_NT p;
  p_BDRF := p_BDRF p; p_s := p_s p; p_banded := p_banded p; p_autograd := p_autograd p |}.
