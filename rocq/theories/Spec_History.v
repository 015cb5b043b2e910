(** Vocabulary for what happens after pydisort has returned. *)
From Coq Require Import String Reals List Bool Arith.
From Verif Require Import Base Tensor M_Subroutines M_Assemble M_Pydisort M_History Spec_Sol.
Import ListNotations.
Local Open Scope R_scope.

(** What a returned function gives for a call. *)
Definition answer (out : py_out) (c : call) : res pret :=
  match c with
  | CUp tau anti rt => po_flux_up out tau anti rt
  | CDown tau anti rt => po_flux_down out tau anti rt
  | CU0 tau anti rt ra => po_u0 out tau anti rt ra
  | CU tau phi anti re rt => match po_u out with Some u => u tau phi anti re rt | None => Err EType end
  end.
(** The calls of a history, in order. *)
Fixpoint calls (h : list event) : list call :=
  match h with [] => [] | Write _ _ _ :: h' => calls h' | Call c :: h' => c :: calls h' end.
(** Contents of the arrays after the writes of a history. *)
Fixpoint after (st : store) (h : list event) : store :=
  match h with [] => st | Write x i v :: h' => after (write st x i v) h' | Call _ :: h' => after st h' end.

(** The arrays that must be left alone: tau_arr if an array was given, the array of depths handed
    out with return_tau_arr, and, when the Nakajima-Tanaka corrections are made, mu_arr and f_arr
    if an array was given (pydisort's own copy of f_arr otherwise, which is never handed out). *)
Definition fragile (p : py_in) (given : arr -> bool) (x : arr) : Prop :=
  match x with
  | ATau => given ATau = true
  | PTau => given ATau = false
  | AMu => nt_applies p
  | AF => nt_applies p /\ given AF = true
  | PF => nt_applies p /\ given AF = false
  | _ => False
  end.
