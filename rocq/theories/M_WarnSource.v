(** The warnings of [subroutines.py]: line 824 (many coefficients of the isotropic source), in every
    evaluation of [_mathscr_v], and line 519 (no caching of the beam's reflection). *)
From Coq Require Import Reals List Bool Arith ZArith.
From Verif Require Import Base Tensor M_Subroutines M_Assemble M_Pydisort.
Import ListNotations.
Local Open Scope R_scope.

(** subroutines.py 782-824: how often one evaluation of [_mathscr_v] with [Ns] coefficients warns. *)
Definition v_warns (Ns : nat) : nat :=
  if Nat.eqb Ns 1 then 0%nat else if Nat.eqb Ns 2 then 0%nat else if Nat.ltb 10 Ns then 1%nat else 0%nat.
(** _solve_for_coeffs.py 168-232: [_mathscr_v] is evaluated in mode 0 if there is a source: at the top,
    twice at the layer boundaries if there are any, at the bottom, and once more if mode 0 is
    reflected. For calls that are answered; others may raise before. *)
Definition call_warns (p : py_in) : nat :=
  if has_iso p then
    ((1 + (if Nat.ltb 1 (pNL p) then 2 else 0) + 1 + (if Nat.ltb 0 (length (p_BDRF p)) then 1 else 0)) * v_warns (e_Ns p))%nat
  else 0%nat.
(** _assemble_intensity_and_fluxes.py 236-247, 411-422, 470-481, 552-563: one evaluation by each call of
    u, u0, flux_up or flux_down that returns. *)
Definition eval_warns (p : py_in) : nat := if has_iso p then v_warns (e_Ns p) else 0%nat.
(** subroutines.py 515-519. *)
Definition cache_warns (mu0 : R) : nat := if (Rltb 0 mu0 && Rleb mu0 1)%bool then 0%nat else 1%nat.
