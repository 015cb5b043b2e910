(** * The cosine of the scattering angle in double precision.

    Continues [M_Float]: [subroutines.calculate_nu] for one entry of each array, operation by
    operation.  [np.cos] of the installed NumPy is the argument [cosf]; [np.sqrt] rounds correctly;
    [x**2] is [x * x] (NumPy replaces this power by [np.square]). *)
From Coq Require Import ZArith Reals List Bool.
From Flocq Require Import Core IEEE754.BinarySingleNaN.
From Verif Require Import M_Float.

(** [np.sqrt]. *)
Definition fsqrt (x : f64) : f64 := @Bsqrt 53 1024 prec64 emax64 mode_NE x.

(** subroutines.py 107-109: [np.sqrt(1 - mu**2)]. *)
Definition d_sine (mu : f64) : f64 := fsqrt (fsub fone (fmul mu mu)).

(** subroutines.py 106-112. *)
Definition d_nu (cosf : f64 -> f64) (mu phi mu_p phi_p : f64) : f64 :=
  fadd (fmul mu_p mu) (fmul (fmul (d_sine mu_p) (d_sine mu)) (cosf (fsub phi_p phi))).
