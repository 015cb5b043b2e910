(** A program that calls pydisort several times with the same array Leg_coeffs_all. A call
    overwrites column 0 of that array (pydisort.py 248), also when it raises later, so the array
    carries a state from one call to the next. np.atleast_2d (pydisort.py 186) passes a 2-d array
    on without copying it. *)
From Coq Require Import String Reals List Bool Arith ZArith.
From Verif Require Import Base Tensor M_LinAlg M_Subroutines M_Assemble M_Pydisort M_Warn Spec_Shared.
Import ListNotations.
Local Open Scope R_scope.

(** Contents of Leg_coeffs_all after the call, returned from or not (lines 212, 223-248). *)
Definition leg_after (p : py_in) : arr2 :=
  match p_tau p with
  | [] => p_Leg p
  | _ => match run_checks (firstn 9 (checks p)) with
         | Ok _ => if leg0_bad p
                   then mkA2 (nrow (p_Leg p)) (ncol (p_Leg p)) (fun l k => if Nat.eqb k 0 then 1 else at2 (p_Leg p) l k)
                   else p_Leg p
         | Err _ => p_Leg p
         end
  end.

(** The calls of a program in order, each with the contents the array has by then: what each call
    returns or raises and which warnings it issues. The field [p_Leg] of the calls is not used.
    Each call allocates its own np.empty buffers. *)
Fixpoint run_calls (lg : leggauss_t) (la : linalg) (L : arr2) (calls : list (py_in * junk)) : list (res py_out * list warning) :=
  match calls with
  | [] => []
  | (p, jk) :: t => let q := with_phase p L in
      (pydisort q lg la jk, py_warnings q lg) :: run_calls lg la (leg_after q) t
  end.
(** The array after all calls. *)
Fixpoint array_after (L : arr2) (calls : list (py_in * junk)) : arr2 :=
  match calls with [] => L | (p, _) :: t => array_after (leg_after (with_phase p L)) t end.
