(** The integers of a machine, for the factorials of subroutines._mathscr_v (subroutines.py lines
    837-842): np.arange(1, n) has the default integer type of NumPy (64 bits; 32 on Windows before
    NumPy 2) and np.cumprod multiplies in that type, where overflow wraps around silently. *)
From Coq Require Import Reals Lia List Bool Arith ZArith.
From Verif Require Import Base Tensor M_MathscrV.
Local Open Scope Z_scope.

(** Two's complement with [b] bits. *)
Definition wrap_int (b x : Z) : Z := (x + 2 ^ (b - 1)) mod 2 ^ b - 2 ^ (b - 1).
(** Lines 838-841: fac[0] = 1, and fac[k] is the product of fac[k - 1] (not yet multiplied if k = 1) and
    k, wrapped; assigned to an array of floats. (The conversion to double precision rounds; here it
    is exact, as elsewhere.) *)
Fixpoint fac_int (b : Z) (k : nat) : Z :=
  match k with 0%nat => 1 | S k' => wrap_int b (fac_int b k' * Z.of_nat k) end.
Definition machine_ints (b : Z) : IntModel := fun k => IZR (fac_int b k).
