(** Model of the isotropic-source particular solution, src/PythonicDISORT/subroutines.py 746-862. *)
From Coq Require Import String Reals Lra Lia List Bool Arith ZArith.
From Verif Require Import Base Tensor.
Import ListNotations.
Local Open Scope R_scope.

(** Factorials as the code computes them (lines 837-840): np.cumprod of np.arange(1, n) is a product in
    the integers of the platform, [np_fact n]. By default these are unbounded; [machine_ints] in
    M_Ints.v has the integers of a machine. *)
Class IntModel := np_fact : nat -> R.
#[global] Instance exact_ints : IntModel := fun n => INR (fact n).

Section MathscrV.
  Context {IM : IntModel}.
  (** Arguments (lines 746-756): [tau] optical depths, [scale_tau] a 1-d array, [l] the layer of
      each depth, polynomial coefficients [s] (ascending), eigenvector rows [G] (an array
      NL x nr x nq), eigenvalues [K], [gm] = G_inv_mu_inv. The eigenvalues are non-zero by
      construction, so 1/K is a plain division. autograd_compatible does not change the values. *)
  Variables (nr nq NL : nat) (tau : list R) (scale_tau : tensor) (l : list nat) (Ns : nat).
  Variables (s : nat -> vec) (G : nat -> mat) (K : nat -> vec) (gm : nat -> vec).
  Variable anti : bool.

  (** Line 782. *)
  Definition K_inv (ll k : nat) : R := 1 / K ll k.

  (** np.einsum("lij, lj -> il", G, c) (lines 789, 809-810). *)
  Definition ein_il (c : nat -> vec) : tensor :=
    mkT [nr; NL] (fun idx => let q := nth 0 idx 0%nat in let ll := nth 1 idx 0%nat in
                             rsum nq (fun j => G ll q j * c ll j)).

  (** Lines 785-796. *)
  Definition v_branch1 : res tensor :=
    let c0w : nat -> vec := fun ll k => s ll 0%nat * K_inv ll k * gm ll k in
    let d0 := ein_il c0w in
    let! p0 := if anti then tdiv (t1 tau) scale_tau else Ok (tmap (fun _ => 1) (t1 tau)) in
    let! d0l := ttake 1 l d0 in
    tmul d0l (tnew 0 p0).

  (** Lines 799-819. *)
  Definition v_branch2 : res tensor :=
    let c0w : nat -> vec := fun ll k => s ll 1%nat * K_inv ll k * gm ll k in
    let c1w : nat -> vec := fun ll k => (s ll 0%nat * K_inv ll k + s ll 1%nat * (K_inv ll k * K_inv ll k)) * gm ll k in
    let d0 := ein_il c0w in
    let d1 := ein_il c1w in
    let p0 := if anti then t1 (map (fun t => t * t / 2) tau) else t1 tau in
    let p1 := if anti then t1 tau else tmap (fun _ => 1) (t1 tau) in
    let! d0l := ttake 1 l d0 in
    let! d1l := ttake 1 l d1 in
    let! a := tmul d0l (tnew 0 p0) in
    let! b := tmul d1l (tnew 0 p1) in
    let! ab := tadd a b in
    if anti then tdiv ab scale_tau else Ok ab.

  (** Lines 822-862; [K_invP] by its value (a cumulative product). *)
  Definition K_invP (ll k p : nat) : R := K_inv ll k ^ (S p).
  Definition fac_rev (i : nat) : R := np_fact (Ns - 1 - i).
  Definition weighted_a (ll i : nat) : R := s ll (Ns - 1 - i)%nat * fac_rev i.
  Definition lower_tri (ll i p : nat) : R := if Nat.leb p i then weighted_a ll (i - p) else 0.
  Definition b_sigma (i ll k : nat) : R := rsum Ns (fun p => K_invP ll k p * lower_tri ll i p) * (1 / fac_rev i).
  Definition b_right (i ll k : nat) : R := b_sigma i ll k * gm ll k.
  Definition mathscr_b : tensor :=
    mkT [NL; nr; Ns] (fun idx => let ll := nth 0 idx 0%nat in let q := nth 1 idx 0%nat in let p := nth 2 idx 0%nat in
                                 rsum nq (fun k => G ll q k * b_right p ll k)).
  Definition v_branchN : res tensor :=
    let pw := fun j => (Ns - 1 - j)%nat in
    let! tau_poly :=
      if anti then
        let p := mkT [1%nat; Ns] (fun idx => INR (S (pw (nth 1 idx 0%nat)))) in
        let! d := tmul p scale_tau in
        tdiv (mkT [length tau; Ns] (fun idx => nth (nth 0 idx 0%nat) tau 0 ^ S (pw (nth 1 idx 0%nat)))) d
      else Ok (mkT [length tau; Ns] (fun idx => nth (nth 0 idx 0%nat) tau 0 ^ pw (nth 1 idx 0%nat))) in
    let! bl := ttake 0 l mathscr_b in
    (* np.einsum("tqp, tp -> qt", ...) *)
    if list_eqb (shp tau_poly) [length l; Ns]
    then Ok (mkT [nr; length l] (fun idx => let q := nth 0 idx 0%nat in let t := nth 1 idx 0%nat in
               rsum Ns (fun p => elt bl [t; q; p] * elt tau_poly [t; p])))
    else Err EShape.

  Definition mathscr_v : res tensor :=
    if Nat.eqb Ns 1 then v_branch1 else if Nat.eqb Ns 2 then v_branch2 else v_branchN.
End MathscrV.
