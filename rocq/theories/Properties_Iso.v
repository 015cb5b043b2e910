(** Properties of the isotropic-source particular solution (subroutines._mathscr_v). *)
From Coq Require Import String Reals Lra Lia List Bool Arith ZArith.
From Coquelicot Require Import Coquelicot.
From Verif Require Import Base Tensor Spec M_LinAlg Spec_RTE M_MathscrV P_MathscrV.
Import ListNotations.
Local Open Scope R_scope.

(** C18: for every number of coefficients, sizes, layers and depths, the rows returned sample
    one solution [v] of  v' = A v - s(tau)/nu. *)
Theorem C18_isotropic_particular_solution :
  forall (nq NL Ns : nat) (s : nat -> vec) (A G Gi : nat -> mat) (K gm : nat -> vec) (nu : vec),
  (forall ll, (ll < NL)%nat ->
     (forall i j, (i < nq)%nat -> (j < nq)%nat -> rsum nq (fun p => A ll i p * G ll p j) = G ll i j * K ll j) /\
     (forall j, (j < nq)%nat -> K ll j <> 0) /\
     (forall i j, (i < nq)%nat -> (j < nq)%nat -> rsum nq (fun p => G ll i p * Gi ll p j) = delta i j) /\
     (forall k, (k < nq)%nat -> gm ll k = rsum nq (fun j => Gi ll k j * (1 / nu j)))) ->
  exists v : nat -> nat -> R -> R,
    (forall ll i x, (ll < NL)%nat -> (i < nq)%nat ->
       is_derive (v ll i) x (rsum nq (fun j => A ll i j * v ll j x) - rsum Ns (fun j => s ll j * x ^ j) / nu i)) /\
    (forall r0 nr tau l sc, (r0 + nr <= nq)%nat -> length l = length tau -> (forall i, In i l -> (i < NL)%nat) ->
       exists C, mathscr_v nr nq NL tau sc l Ns s (fun ll q => G ll (r0 + q)%nat) K gm false = Ok C /\
                 sampled C nr tau l (fun ll q => v ll (r0 + q)%nat)).
Proof. exact mathscr_v_ode. Qed.
Print Assumptions C18_isotropic_particular_solution.

(** C18: the branches for one, two and more coefficients agree: appending zero coefficients
    never changes the result. *)
Theorem C18_branches_agree :
  forall nr nq NL tau sc l Ns Ns' s G K gm,
  length l = length tau -> (forall i, In i l -> (i < NL)%nat) ->
  (forall ll k, (ll < NL)%nat -> (k < nq)%nat -> K ll k <> 0) ->
  (Ns <= Ns')%nat -> (forall ll i, (ll < NL)%nat -> (Ns <= i < Ns')%nat -> s ll i = 0) ->
  exists C C', mathscr_v nr nq NL tau sc l Ns s G K gm false = Ok C /\
               mathscr_v nr nq NL tau sc l Ns' s G K gm false = Ok C' /\ teq C C'.
Proof. exact mathscr_v_pad. Qed.
Print Assumptions C18_branches_agree.
(** A 2x2 instance: A swaps and scales, two eigenvalues of opposite sign. *)
Example C18_nonvacuous :
  let A : mat := fun i j => if Nat.eqb i j then 0 else 2 in
  let G : mat := fun i j => if (Nat.eqb i 1 && Nat.eqb j 0)%bool then -1 else 1 in
  let Gi : mat := fun i j => (if (Nat.eqb i 0 && Nat.eqb j 1)%bool then -1 else 1) / 2 in
  let K : vec := fun j => if Nat.eqb j 0 then -2 else 2 in
  (forall i j, (i < 2)%nat -> (j < 2)%nat -> rsum 2 (fun p => A i p * G p j) = G i j * K j) /\
  (forall j, (j < 2)%nat -> K j <> 0) /\
  (forall i j, (i < 2)%nat -> (j < 2)%nat -> rsum 2 (fun p => G i p * Gi p j) = delta i j).
Proof.
  cbv zeta. repeat split.
  - intros [|[|]] [|[|]] Hi Hj; try lia; cbn; lra.
  - intros [|[|]] Hj; try lia; cbn; lra.
  - intros [|[|]] [|[|]] Hi Hj; try lia; unfold delta; cbn; lra.
Qed.

(** C19 is false of the code when there are several layers: with one or two coefficients and
    two or more depths whose number is not the number of layers (the length of the scale factors)
    the call always fails, and when
    the numbers coincide one and the same depth in one and the same layer gets different values
    at different positions of [tau]. *)
Theorem C19_isotropic_antiderivative_refuted :
  (forall nr nq NL tau (sc : list R) l Ns s G K gm,
     length l = length tau -> (forall i, In i l -> (i < NL)%nat) ->
     (Ns = 1 \/ Ns = 2)%nat -> (2 <= length sc)%nat -> (2 <= length tau)%nat -> length tau <> length sc ->
     mathscr_v nr nq NL tau (t1 sc) l Ns s G K gm true = Err EShape) /\
  (exists C, mathscr_v 1 1 2 [1; 1] (t1 [1; 1 / 2]) [1; 1]%nat 1 (fun _ _ => 1) (fun _ _ _ => 1) (fun _ _ => 1) (fun _ _ => 1) true = Ok C /\
             elt C [0; 0]%nat = 1 /\ elt C [0; 1]%nat = 2).
Proof. exact (conj mathscr_v_anti_err mathscr_v_anti_wrong). Qed.
Print Assumptions C19_isotropic_antiderivative_refuted.

(** C19 for one layer, where scaled depth = c * depth + a: every number of coefficients. *)
Theorem C19_isotropic_antiderivative_partial :
  forall (nq Ns : nat) (s : nat -> vec) (G : nat -> mat) (K gm : nat -> vec) (c : R),
  c <> 0 -> (forall j, (j < nq)%nat -> K 0%nat j <> 0) ->
  exists v V : nat -> nat -> R -> R,
    (forall i x a, is_derive (fun y => V 0%nat i (c * y + a)) x (v 0%nat i (c * x + a))) /\
    (forall nr tau sc l, length l = length tau -> (forall i, In i l -> (i < 1)%nat) ->
       (exists C, mathscr_v nr nq 1 tau sc l Ns s G K gm false = Ok C /\ sampled C nr tau l v) /\
       (exists C, mathscr_v nr nq 1 tau (t1 [c]) l Ns s G K gm true = Ok C /\ sampled C nr tau l V)).
Proof. exact mathscr_v_antideriv. Qed.
Print Assumptions C19_isotropic_antiderivative_partial.
Example C19_nonvacuous :
  (1 / 2 <> 0) /\ (forall j : nat, (j < 2)%nat -> (fun j : nat => if Nat.eqb j 0 then -2 else 2) j <> 0) /\
  (forall i : nat, In i [0; 0; 0]%nat -> (i < 1)%nat) /\ length [0; 0; 0]%nat = length [0; 1; 2].
Proof.
  repeat split; try lra.
  - intros [|[|]] Hj; try lia; cbn; lra.
  - intros i [H|[H|[H|[]]]]; lia.
Qed.
