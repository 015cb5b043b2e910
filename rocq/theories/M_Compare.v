(** Model of subroutines._compare (src/PythonicDISORT/subroutines.py:866-976) and of the assertions
    which the package's test-suite makes about its results (pydisotest/1_test.py:79-82 and the same
    lines in the other tests). *)
From Coq Require Import String Reals Lra Lia List Bool Arith ZArith.
From Verif Require Import Base Tensor M_LinAlg M_Subroutines M_Assemble.
Import ListNotations.
Local Open Scope R_scope.

(** The stored results (lines 873-882): reference fluxes, depths, and, if intensities are compared,
    reference intensities and azimuth angles. *)
Record refdata : Type := mkRef {
  rd_flup : tensor; rd_rfldn : tensor; rd_rfldir : tensor; rd_tau : list R; rd_uu : tensor; rd_phi : list R
}.

(** A returned value as an array; an item of a returned tuple. Simplified: indexing a single array
    as if it were a tuple is a TypeError here. *)
Definition as_array (v : pv) : res tensor :=
  match v with PT t => Ok t | PR r => Ok (t0 r) | PA l => Ok (t1 l) | PI_ _ => Err EType end.
Definition the_value (r : pret) : res tensor := match r with PVal v => as_array v | PTup _ => Err EType end.
Definition the_item (i : nat) (r : pret) : res tensor :=
  match r with PTup vs => match nth_error vs i with Some v => as_array v | None => Err EIndex end | PVal _ => Err EType end.

(** Lines 891-897, 904-910, 920-926, 937-943: np.abs(ref - val) and
    np.divide(diff, ref, out=np.zeros_like(diff), where=(ref != 0)). *)
Definition differences (ref val : tensor) : res (tensor * tensor) :=
  let! d := tsub ref val in
  let d := tmap Rabs d in
  let! q := iop (fun x r => if Req_EM_T r 0 then 0 else x / r) d ref in
  Ok (d, q).

(** [A.reshape(s)] in row-major order. *)
Fixpoint size (s : list nat) : nat := match s with [] => 1%nat | n :: s' => (n * size s')%nat end.
Fixpoint flat (s idx : list nat) : nat :=
  match s, idx with n :: s', i :: idx' => (i * size s' + flat s' idx')%nat | _, _ => 0%nat end.
Definition treshape (s : list nat) (A : tensor) : res tensor :=
  if Nat.eqb (size s) (size (shp A)) then Ok (mkT s (fun idx => nth (flat s idx) (entries A) 0)) else Err EShape.
(** [A[mask]] with a boolean mask of the first axis. *)
Definition chosen (mask : list bool) : list nat := filter (fun i => nth i mask false) (seq 0 (length mask)).
Definition tmask (mask : list bool) (A : tensor) : res tensor :=
  if Nat.eqb (length mask) (nth 0 (shp A) 0%nat) then ttake 0 (chosen mask) A else Err EIndex.

(** Lines 944-945: np.argmax(np.max(np.max(D, axis=0), axis=1)) for a 3-d array; lines 952, 954:
    np.max(D[:, k, :]). *)
Definition dim (A : tensor) (k : nat) : nat := nth k (shp A) 0%nat.
Definition max0 (D : tensor) (t f : nat) : R := lmax (map (fun i => elt D [i; t; f]) (seq 0 (dim D 0))).
Definition max01 (D : tensor) (t : nat) : R := lmax (map (max0 D t) (seq 0 (dim D 2))).
Definition argmax_list (l : list R) : nat := argmax_bool (map (fun y => Reqb y (lmax l)) l).
Definition worst_depth (D : tensor) : nat := argmax_list (map (max01 D) (seq 0 (dim D 1))).
Definition depth_slice (D : tensor) (k : nat) : tensor :=
  mkT [dim D 0; dim D 2] (fun idx => elt D [nth 0 idx 0%nat; k; nth 1 idx 0%nat]).
(** Lines 944-954 for the differences or the ratios: the depth and the maximum that are printed. An
    empty array is a ValueError. Simplified: arrays with another number of dimensions than three are
    rejected here. *)
Definition print_worst (tau : list R) (D : tensor) : res (R * R) :=
  let! _ := check (Nat.eqb (length (shp D)) 3) EIndex in
  let! _ := check (negb (Nat.eqb (size (shp D)) 0)) (EValue "zero-size array to reduction operation maximum which has no identity") in
  let k := worst_depth D in
  let! t := match nth_error tau k with Some t => Ok t | None => Err EIndex end in
  let! m := tmax (depth_slice D k) in
  Ok (t, m).

(** The returned arrays and the printed numbers. *)
Record compared : Type := mkCmp {
  cm_up : tensor * tensor; cm_down : tensor * tensor; cm_direct : tensor * tensor; cm_u : option (tensor * tensor);
  cm_print : list (R * R); cm_print_u : option ((R * R) * (R * R))
}.

(** Lines 866-976. [u] is None for the default argument. Printing has no other effect. *)
Definition compare (rd : refdata) (mask : list bool) (reorder : list nat)
    (flux_up flux_down : list R -> bool -> bool -> res pret) (u : option (list R -> list R -> bool -> bool -> bool -> res pret)) : res compared :=
  let maxima dq := let! a := tmax (fst dq) in let! b := tmax (snd dq) in Ok (a, b) in
  let! fu := flux_up (rd_tau rd) false false in
  let! vu := the_value fu in
  let! up := differences (rd_flup rd) vu in
  let! m1 := maxima up in
  let! fd := flux_down (rd_tau rd) false false in
  let! vd := the_item 0 fd in
  let! dn := differences (rd_rfldn rd) vd in
  let! m2 := maxima dn in
  let! vb := the_item 1 fd in
  let! di := differences (rd_rfldir rd) vb in
  let! m3 := maxima di in
  match u with
  | None => Ok (mkCmp up dn di None [m1; m2; m3] None)
  | Some uf =>
      let! ru := uf (rd_tau rd) (rd_phi rd) false false false in
      let! vu := the_value ru in
      let! vo := ttake 0 reorder vu in
      let! vr := treshape (shp (rd_uu rd)) vo in
      let! d := tsub (rd_uu rd) vr in
      let! d := tmask mask (tmap Rabs d) in
      let! r := tmask mask (rd_uu rd) in
      let! q := iop (fun x y => if Req_EM_T y 0 then 0 else x / y) d r in
      let! wd := print_worst (rd_tau rd) d in
      let! wq := print_worst (rd_tau rd) q in
      Ok (mkCmp up dn di (Some (d, q)) [m1; m2; m3] (Some (wd, wq)))
  end.

(** pydisotest/1_test.py:79: assert np.max(ratio[diff > a], initial=0) < tol. *)
Definition assertion (a tol : R) (dq : tensor * tensor) : bool :=
  Rltb (fold_right Rmax 0 (map snd (filter (fun x => Rltb a (fst x)) (combine (entries (fst dq)) (entries (snd dq)))))) tol.
