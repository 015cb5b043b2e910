(** Vocabulary for statements about warnings. *)
From Coq Require Import Reals List Arith.
From Verif Require Import Base Tensor M_Subroutines M_Assemble M_Pydisort.
Local Open Scope R_scope.

(** The input [p] with every zeroth phase coefficient set to 1 and nothing else changed. *)
Definition normalised (p : py_in) : py_in := {|
  p_tau := p_tau p; p_omega := p_omega p; p_NQuad := p_NQuad p;
  p_Leg := mkA2 (nrow (p_Leg p)) (ncol (p_Leg p)) (fun l k => if Nat.eqb k 0 then 1 else at2 (p_Leg p) l k);
  p_mu0 := p_mu0 p; p_I0 := p_I0 p; p_phi0 := p_phi0 p; p_NLeg := p_NLeg p; p_NFourier := p_NFourier p;
  p_bpos := p_bpos p; p_bneg := p_bneg p; p_only_flux := p_only_flux p; p_f := p_f p; p_NT := p_NT p;
  p_BDRF := p_BDRF p; p_s := p_s p; p_banded := p_banded p; p_autograd := p_autograd p |}.
