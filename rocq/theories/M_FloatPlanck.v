(** * The Planck function in double precision.

    Continues [M_Float]: [subroutines.Planck] for one temperature, operation by operation.
    Simplifications: the cube [WVNM ** 3] is the argument [cube] (it is computed by the power
    function of the C library); [c ** 2] is the literal that this function returns for the
    literal [c]. *)
From Coq Require Import ZArith Reals List Bool.
From Flocq Require Import Core IEEE754.BinarySingleNaN.
From Verif Require Import M_Float.
Open Scope Z_scope.

(** The float [m * 2^e]. *)
Definition fconst (m e : Z) : f64 := @binary_normalize 53 1024 prec64 emax64 mode_NE m e false.

(** scipy.constants.h, c, k as Python reads the decimal literals 6.62607015e-34, 299792458.0,
    1.380649e-23; the value of [c ** 2]; the literals 100 and 2e8. *)
Definition f_h : f64 := fconst 7747209898635537 (-163).
Definition f_c : f64 := fconst 299792458 0.
Definition f_k : f64 := fconst 4698105096070268 (-128).
Definition f_c2 : f64 := fconst 5617219867105110 4.
Definition f_m100 : f64 := fconst (-100) 0.
Definition f_2e8 : f64 := fconst 200000000 0.

Section Planck.
Variable (lm : libm) (cube : f64 -> f64).

(** subroutines.py 347: [expterm]. *)
Definition d_expterm (T W : f64) : f64 :=
  l_exp lm (fdiv (fmul (fmul (fmul f_m100 f_h) f_c) W) (fmul f_k T)).

(** subroutines.py 339-348: one entry of [results]. *)
Definition d_Planck (T W : f64) : f64 :=
  if Beqb T fzero then fzero
  else fdiv (fmul (fmul (fmul (fmul f_2e8 f_h) f_c2) (cube W)) (d_expterm T W))
            (fsub fone (d_expterm T W)).
End Planck.
