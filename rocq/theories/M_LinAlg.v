(** External routines: their interface as arguments of the model, and the
    special functions, by definition. Models no function of /repo. *)
From Coq Require Import String Reals Lra Lia List Bool Arith ZArith.
From Verif Require Import Base Tensor Spec.
Import ListNotations.
Local Open Scope R_scope.

(** Matrices and vectors handed to LAPACK: the listed entries only. *)
Definition rows (n m : nat) (A : mat) : list (list R) :=
  map (fun i => map (fun j => A i j) (seq 0 m)) (seq 0 n).
Definition vlist (n : nat) (v : vec) : list R := map v (seq 0 n).
Definition of_rows (L : list (list R)) : mat := fun i j => nth j (nth i L []) 0.
Definition of_list (l : list R) : vec := fun i => nth i l 0.

(** np.linalg.eig, np.linalg.inv, np.linalg.solve and scipy.linalg.solve_banded;
    [None] is LinAlgError. [la_eig] returns eigenvalues and the matrix with the
    eigenvectors as columns (complex results are not modelled). *)
Record linalg : Type := mkLA {
  la_eig : list (list R) -> option (list R * list (list R));
  la_inv : list (list R) -> option (list (list R));
  la_solve : list (list R) -> list R -> option (list R);
  la_solve_banded : nat -> nat -> list (list R) -> list R -> option (list R)
}.

(** Element (i, j) of the matrix whose diagonal ordered form is [ab] with [l]
    sub-diagonals and [u] super-diagonals (scipy.linalg.solve_banded docs). *)
Definition banded_elt (l u : nat) (ab : list (list R)) (i j : nat) : R :=
  if (Nat.leb j (i + u) && Nat.leb i (j + l))%bool then of_rows ab (u + i - j)%nat j else 0.

(** Contract of the routines: an answer satisfies its defining equation. *)
Record linalg_ok (la : linalg) : Prop := mkLAok {
  eig_ok : forall n A k E, la_eig la (rows n n A) = Some (k, E) ->
     forall i j, (i < n)%nat -> (j < n)%nat ->
       rsum n (fun p => A i p * of_rows E p j) = of_rows E i j * of_list k j;
  inv_ok : forall n A B, la_inv la (rows n n A) = Some B ->
     forall i j, (i < n)%nat -> (j < n)%nat ->
       rsum n (fun p => A i p * of_rows B p j) = delta i j;
  solve_ok : forall n A b x, la_solve la (rows n n A) (vlist n b) = Some x ->
     forall i, (i < n)%nat -> rsum n (fun j => A i j * of_list x j) = b i;
  banded_ok : forall n l u ab b x, la_solve_banded la l u ab (vlist n b) = Some x ->
     forall i, (i < n)%nat -> rsum n (fun j => banded_elt l u ab i j * of_list x j) = b i
}.

Definition ofopt {A} (o : option A) : res A := match o with Some a => Ok a | None => Err ELinAlg end.

(** Legendre polynomials (coefficient lists), by the three-term recurrence. *)
Fixpoint padd0 (p q : list R) : list R :=
  match p, q with
  | [], q => q
  | p, [] => p
  | a :: p', b :: q' => (a + b) :: padd0 p' q'
  end.
Fixpoint leg2 (k : nat) : list R * list R :=
  match k with
  | O => ([1], [0; 1])
  | S k' => let (a, b) := leg2 k' in
            (b, padd0 (map (Rmult ((2 * INR k' + 3) / (INR k' + 2))) (0 :: b))
                      (map (Rmult (- (INR k' + 1) / (INR k' + 2))) a))
  end.
Definition legendre_poly (k : nat) : list R := fst (leg2 k).
Definition legendre (k : nat) (x : R) : R := peval (legendre_poly k) x.

Fixpoint pderiv_from (n : nat) (p : list R) : list R :=
  match p with [] => [] | c :: t => INR n * c :: pderiv_from (S n) t end.
Definition pderiv (p : list R) : list R := pderiv_from 1 (tl p).
Fixpoint pderiv_n (m : nat) (p : list R) : list R :=
  match m with O => p | S m' => pderiv (pderiv_n m' p) end.

(** scipy.special.lpmv(m, ell, x): associated Legendre function with the
    Condon-Shortley phase. *)
Definition lpmv (m ell : nat) (x : R) : R :=
  (-1) ^ m * sqrt (1 - x ^ 2) ^ m * peval (pderiv_n m (legendre_poly ell)) x.

(** scipy.special.poch(ell + m + 1, -2 m) = Gamma(ell - m + 1) / Gamma(ell + m + 1). *)
Definition poch_term (m ell : nat) : R := INR (fact (ell - m)) / INR (fact (ell + m)).

(** np.polynomial.legendre.Legendre(c)(x). *)
Definition legendre_series (c : nat -> R) (n : nat) (x : R) : R := rsum n (fun k => c k * legendre k x).

(** The linear solvers answer only if the answer is the only one (LAPACK reports exactly
    singular matrices). *)
Record linalg_unique (la : linalg) : Prop := mkLAu {
  solve_unique : forall n A b x, la_solve la (rows n n A) (vlist n b) = Some x ->
     forall y, (forall i, (i < n)%nat -> rsum n (fun j => A i j * y j) = b i) -> forall i, (i < n)%nat -> y i = of_list x i;
  banded_unique : forall n l u ab b x, la_solve_banded la l u ab (vlist n b) = Some x ->
     forall y, (forall i, (i < n)%nat -> rsum n (fun j => banded_elt l u ab i j * y j) = b i) -> forall i, (i < n)%nat -> y i = of_list x i
}.
(** They answer whenever there is exactly one answer. *)
Record linalg_complete (la : linalg) : Prop := mkLAc {
  solve_complete : forall n A b y, (forall i, (i < n)%nat -> rsum n (fun j => A i j * y j) = b i) ->
     (forall z : vec, (forall i, (i < n)%nat -> rsum n (fun j => A i j * z j) = b i) -> forall i, (i < n)%nat -> z i = y i) ->
     exists x, la_solve la (rows n n A) (vlist n b) = Some x;
  banded_complete : forall n l u ab b y, (forall i, (i < n)%nat -> rsum n (fun j => banded_elt l u ab i j * y j) = b i) ->
     (forall z : vec, (forall i, (i < n)%nat -> rsum n (fun j => banded_elt l u ab i j * z j) = b i) -> forall i, (i < n)%nat -> z i = y i) ->
     exists x, la_solve_banded la l u ab (vlist n b) = Some x
}.
