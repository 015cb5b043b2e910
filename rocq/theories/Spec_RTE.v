(** Specification of the discretised radiative transfer problem (documented in
    docs: sections 3.1-3.6 of the notebook), independent of the model of the code. *)
From Coq Require Import Reals Lra Lia List Bool Arith.
From Verif Require Import Base Tensor Spec M_LinAlg.
Import ListNotations.
Local Open Scope R_scope.

(** The 2N discrete directions: [mu_0..mu_{N-1}] upward, then their negatives. *)
Definition node (N : nat) (mu : vec) : vec := fun i => if Nat.ltb i N then mu i else - mu (i - N)%nat.
Definition wnode (N : nat) (w : vec) : vec := fun i => if Nat.ltb i N then w i else w (i - N)%nat.

(** Phase-function kernel of Fourier mode [m]; [wg ell = (2 ell + 1) g_ell]. *)
Definition D_spec (omega : R) (wg : vec) (NLeg m : nat) (x y : R) : R :=
  omega / 2 * rsum NLeg (fun ell =>
    if Nat.leb m ell then wg ell * poch_term m ell * lpmv m ell x * lpmv m ell y else 0).
(** Source by single scattering of the direct beam [I0] with cosine [mu0]. *)
Definition X_spec (I0_4pi omega : R) (wg : vec) (NLeg m : nat) (mu0 x : R) : R :=
  (if Nat.eqb m 0 then 1 else 2) * I0_4pi * omega * rsum NLeg (fun ell =>
    if Nat.leb m ell then wg ell * poch_term m ell * lpmv m ell x * lpmv m ell (- mu0) else 0).

(** The code drops scattering of mode [m] when every relevant coefficient is at most 1e-8
    in magnitude; [cutoff] are the coefficients after this rule. *)
Definition negligible (omega : R) (wg : vec) (NLeg m : nat) : Prop :=
  forall ell, (m <= ell < NLeg)%nat -> Rabs (omega / 2 * wg ell) <= 1 / 100000000.
Definition is_cutoff (omega : R) (wg : vec) (NLeg m : nat) (wg' : vec) : Prop :=
  (negligible omega wg NLeg m -> forall ell, wg' ell = 0) /\
  (~ negligible omega wg NLeg m -> forall ell, wg' ell = wg ell).

(** Coefficient matrix of  u' = A u - (source)/nu. *)
Definition A_spec (N : nat) (mu w : vec) (omega : R) (wg : vec) (NLeg m : nat) : mat :=
  fun i j => (delta i j - D_spec omega wg NLeg m (node N mu i) (node N mu j) * wnode N w j) / node N mu i.

(** The contents of a 2-d array of shape (rows, depths) sampled from
    functions of depth, [v layer row depth]; [l] gives the layer of each depth. *)
Definition sampled (C : tensor) (nr : nat) (tau : list R) (l : list nat) (v : nat -> nat -> R -> R) : Prop :=
  shp C = [nr; length tau] /\
  forall q t, (q < nr)%nat -> (t < length tau)%nat -> elt C [q; t] = v (nth t l 0%nat) q (nth t tau 0).

