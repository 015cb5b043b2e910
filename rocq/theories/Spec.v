(** Specification vocabulary used in the statements of the properties.  Nothing
    here refers to the model of the code. *)
From Coq Require Import Reals Lra Lia List Bool Arith.
From Coquelicot Require Import Coquelicot.
From Verif Require Import Base.
Import ListNotations.
Local Open Scope R_scope.

(** Polynomial with coefficients in ascending order. *)
Fixpoint peval (p : list R) (x : R) : R :=
  match p with [] => 0 | c :: t => c + x * peval t x end.

(** Quadrature sum of [f] with nodes [xs] and weights [ws]. *)
Definition quadsum (xs ws : list R) (f : R -> R) : R :=
  rsum (length xs) (fun i => nth i ws 0 * f (nth i xs 0)).

(** The rule integrates every polynomial with at most [k] coefficients (degree
    < k) exactly over [a, b]. *)
Definition exact_rule (xs ws : list R) (a b : R) (k : nat) : Prop :=
  length xs = length ws /\
  forall p, (length p <= k)%nat -> quadsum xs ws (peval p) = RInt (peval p) a b.

(** Strictly increasing list. *)
Definition increasing (l : list R) : Prop :=
  forall i j, (i < j < length l)%nat -> nth i l 0 < nth j l 0.

(** Unit vector with polar cosine [mu] and azimuth [phi]. *)
Definition unit_vec (mu phi : R) : R * R * R :=
  (sqrt (1 - mu ^ 2) * cos phi, sqrt (1 - mu ^ 2) * sin phi, mu).
Definition dot3 (v w : R * R * R) : R :=
  match v, w with (a, b, c), (x, y, z) => a * x + b * y + c * z end.

(** Contract of numpy.polynomial.legendre.leggauss(N): N nodes inside (-1, 1),
    pairwise distinct, positive weights, exact for degree <= 2N-1 on [-1, 1]. *)
Definition leggauss_ok (N : nat) (r : list R * list R) : Prop :=
  length (fst r) = N /\ length (snd r) = N /\
  (forall i, (i < N)%nat -> -1 < nth i (fst r) 0 < 1) /\
  (forall i j, (i < N)%nat -> (j < N)%nat -> i <> j -> nth i (fst r) 0 <> nth j (fst r) 0) /\
  (forall i, (i < N)%nat -> 0 < nth i (snd r) 0) /\
  exact_rule (fst r) (snd r) (-1) 1 (2 * N).

(** SI values of the physical constants and Planck's law per unit wavenumber
    [w] (in cm^-1), at temperature [T] (kelvin), in W m^-2. *)
Definition SI_h : R := 662607015 / 10 ^ 42.
Definition SI_c : R := 299792458.
Definition SI_k : R := 1380649 / 10 ^ 29.
Definition planck_spec (T w : R) : R :=
  if Req_EM_T T 0 then 0
  else 200000000 * SI_h * SI_c ^ 2 * w ^ 3 / (exp (100 * SI_h * SI_c * w / (SI_k * T)) - 1).

(** Pairwise distinct entries. *)
Definition distinct (l : list R) : Prop :=
  forall i j, (i < length l)%nat -> (j < length l)%nat -> i <> j -> nth i l 0 <> nth j l 0.

(** Contract of an exact numerical integrator. *)
Definition quad_ok (quad : (R -> R) -> R -> R -> R) : Prop :=
  forall f a b, ex_RInt f a b -> quad f a b = RInt f a b.
