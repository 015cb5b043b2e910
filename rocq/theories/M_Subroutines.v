(** Model of src/PythonicDISORT/subroutines.py (all functions except
    [_mathscr_v], modelled in M_MathscrV.v, [generate_diff_act_flux_funcs], modelled
    in M_Assemble.v, and the test helper [_compare], not modelled). *)
From Coq Require Import String Reals Lra Lia List Bool Arith ZArith.
From Verif Require Import Base Tensor.
Import ListNotations.
Local Open Scope R_scope.

(** subroutines.py 7-29.  [new_arr[1:] = arr] broadcasts a length-1 [arr] and
    otherwise needs the declared length. *)
Definition prepend (arr : list R) (arr_len : nat) (value : R) : res (list R) :=
  if Nat.eqb (length arr) arr_len then Ok (value :: arr)
  else if Nat.eqb (length arr) 1 then Ok (value :: repeat (nth 0 arr 0) arr_len)
  else Err EShape.

(** subroutines.py 33-55. *)
Definition transform_interval (arr : list R) (c d a b : R) : list R :=
  map (fun x => (x - a) * (d - c) / (b - a) + c) arr.

(** subroutines.py 59-81. *)
Definition transform_weights (weights : list R) (c d a b : R) : list R :=
  map (fun w => w * (d - c) / (b - a)) weights.

(** subroutines.py 85-112 before the final squeeze: axes (mu, phi, mu_p, phi_p).
    Arguments are 1-d (np.atleast_1d of a scalar is a 1-element list). *)
Definition calculate_nu_4d (mu phi mu_p phi_p : list R) : tensor :=
  mkT [length mu; length phi; length mu_p; length phi_p]
      (fun idx =>
         let m := nth (nth 0 idx 0%nat) mu 0 in
         let f := nth (nth 1 idx 0%nat) phi 0 in
         let mp := nth (nth 2 idx 0%nat) mu_p 0 in
         let fp := nth (nth 3 idx 0%nat) phi_p 0 in
         mp * m + sqrt (1 - mp ^ 2) * sqrt (1 - m ^ 2) * cos (fp - f)).

(** subroutines.py 85-112. *)
Definition calculate_nu (mu phi mu_p phi_p : list R) : tensor :=
  tsqueeze (calculate_nu_4d mu phi mu_p phi_p).

(** subroutines.py 116-138.  [leggauss] is numpy.polynomial.legendre.leggauss: an
    argument of the model. *)
Definition leggauss_t : Type := nat -> list R * list R.
Definition Gauss_Legendre_quad (leggauss : leggauss_t) (N : nat) (c d : R) : list R * list R :=
  let (x, w) := leggauss N in
  (transform_interval x c d (-1) 1, transform_weights w c d (-1) 1).

(** scipy.fft.idct(x, type=1), default ("backward") normalisation. *)
Definition idct1 (x : list R) : list R :=
  let n := length x in
  map (fun k => (nth 0 x 0 + (-1) ^ k * nth (n - 1) x 0
                 + 2 * rsum (n - 2) (fun j => nth (S j) x 0 * cos (PI * INR k * INR (S j) / INR (n - 1))))
                / (2 * INR (n - 1)))
      (seq 0 n).

(** subroutines.py 142-175. *)
Definition Clenshaw_Curtis_quad (Nphi0 : Z) (c d : R) : res (list R * list R) :=
  if ((2 <? Nphi0)%Z && (Nphi0 mod 2 =? 1)%Z)%bool then
    let Nphi := Z.to_nat (Nphi0 - 1) in
    let Nphi_pos := (Nphi / 2)%nat in
    let phi_arr_pos := map (fun i => cos (PI * INR i / INR Nphi)) (seq 0 Nphi_pos) in
    let phi_arr := map Ropp phi_arr_pos ++ [0] ++ rev phi_arr_pos in
    let! diff := prepend (map (fun j => 2 / (1 - 4 * INR j ^ 2)) (seq 1 Nphi_pos)) Nphi_pos 2 in
    let weights0 := idct1 diff in
    let weights_phi_pos := match weights0 with [] => [] | w :: t => w / 2 :: t end in
    let full_weights_phi := weights_phi_pos ++ rev (removelast weights_phi_pos) in
    Ok (transform_interval phi_arr c d (-1) 1, transform_weights full_weights_phi c d (-1) 1)
  else Err (EValue "The number of quadrature nodes must be odd and greater than 2.").

(** Assignment of one matrix entry. *)
Definition upd2 (M : mat) (i j : nat) (v : R) : mat :=
  fun a b => if (Nat.eqb a i && Nat.eqb b j)%bool then v else M a b.

(** subroutines.py 179-215.  The sparse matrix is a dense index function of size
    Ntau x Ntau; negative indices are resolved. An index outside the matrix
    (Ntau < 3) is an IndexError; a zero step makes the entries infinite. *)
Definition generate_FD_mat (Ntau : nat) (a b : R) : res (list R * mat) :=
  if Nat.ltb Ntau 3 then Err EIndex else
  let tau_arr := map (fun i => a + INR i * ((b - a) / INR (Ntau - 1))) (seq 0 Ntau) in
  let h := nth 1 tau_arr 0 - nth 0 tau_arr 0 in
  if Req_EM_T h 0 then Err ENonFinite else
  let M0 : mat := fun i j => if Nat.eqb j (S i) then 1 / (2 * h) else 0 in
  let M1 : mat := fun i j => if Nat.eqb i (S j) then - (1 / (2 * h)) else M0 i j in
  let M2 := upd2 M1 0 0 (-3 / (2 * h)) in
  let M3 := upd2 M2 0 1 (2 / h) in
  let M4 := upd2 M3 0 2 (-1 / (2 * h)) in
  let M5 := upd2 M4 (Ntau - 1) (Ntau - 1) (3 / (2 * h)) in
  let M6 := upd2 M5 (Ntau - 1) (Ntau - 2) (-2 / h) in
  let M7 := upd2 M6 (Ntau - 1) (Ntau - 3) (1 / (2 * h)) in
  Ok (tau_arr, M7).

(** subroutines.py 219-254, for one argument. *)
Definition atleast_2d_append (A : tensor) : tensor :=
  match shp A with
  | [] => mkT [1; 1]%nat (fun _ => elt A [])
  | [n] => tnew 1 A
  | _ => A
  end.

(** CODATA constants of scipy.constants (exact by definition of the SI). *)
Definition const_h : R := 662607015 / 10 ^ 42.
Definition const_c : R := 299792458.
Definition const_k : R := 1380649 / 10 ^ 29.

(** subroutines.py 347-348, one temperature (2e8 is written out). *)
Definition planck_expterm (T WVNM : R) : R := exp (-100 * const_h * const_c * WVNM / (const_k * T)).
Definition planck1 (T WVNM : R) : R :=
  if Req_EM_T T 0 then 0
  else (200000000 * const_h * const_c ^ 2 * WVNM ^ 3 * planck_expterm T WVNM) / (1 - planck_expterm T WVNM).

(** subroutines.py 322-350.  0/0 (at WVNM = 0) is a non-finite entry. *)
Definition Planck (T : list R) (WVNM : R) : res (list R) :=
  rmap (fun t => if Req_EM_T t 0 then Ok 0
                 else let e := planck_expterm t WVNM in
                      cdiv (200000000 * const_h * const_c ^ 2 * WVNM ^ 3 * e) (1 - e)) T.

(** subroutines.py 354-377.  [quad f lo hi] is scipy.integrate.quad_vec applied to
    one component; the integrand's value at an endpoint is not used by it. *)
Definition quad_t : Type := (R -> R) -> R -> R -> R.
Definition blackbody_contrib_to_BCs (quad : quad_t) (T : list R) (WVNMLO WVNMHI : R) : list R :=
  map (fun t => quad (fun w => planck1 t w) WVNMLO WVNMHI) T.

(** subroutines.py 406-409. Arrays of different length are a broadcasting error
    (length-1 broadcasts, unreachable from the package, are not modelled). *)
Fixpoint spline_rows (x y : list R) : res (list (list R)) :=
  match x, y with
  | x0 :: ((x1 :: _) as xt), y0 :: ((y1 :: _) as yt) =>
      let! slope := cdiv (y1 - y0) (x1 - x0) in
      let intercept := y0 - slope * x0 in
      let! rest := spline_rows xt yt in
      Ok ([intercept; slope] :: rest)
  | _ :: _ :: _, _ => Err EShape
  | _, _ :: _ :: _ => Err EShape
  | _, _ => Ok []
  end.

(** np.all(np.diff(x) > 0). *)
Fixpoint increasingb (x : list R) : bool :=
  match x with
  | x0 :: ((x1 :: _) as xt) => (Rltb 0 (x1 - x0) && increasingb xt)%bool
  | _ => true
  end.

(** subroutines.py 381-409. *)
Definition linear_spline_coefficients (x y : list R) (check_inputs : bool) : res (list (list R)) :=
  let! _ := (if check_inputs then
      let! _ := check (Nat.ltb 1 (length x)) (EValue "At least 2 points are required.") in
      let! _ := check (Nat.eqb (length x) (length y)) (EValue "The number of x and y points must be equal.") in
      check (increasingb x) (EValue "The x values must be sorted in ascending order.")
    else Ok tt) in
  spline_rows x y.

(** subroutines.py 413-454. *)
Definition generate_s_poly_coeffs (quad : quad_t) (tau_arr TEMPER : list R) (WVNMLO WVNMHI : R)
  : res (list (list R)) :=
  let! _ := check (Nat.eqb (length TEMPER) (length tau_arr + 1))
              (EValue "Missing temperature specification at some boundaries / interfaces.") in
  let! tau_arr_with_0 := prepend tau_arr (length tau_arr) 0 in
  let blackbody_emission_at_each_boundary :=
    map (fun t => quad (fun w => planck1 t w) WVNMLO WVNMHI) TEMPER in
  linear_spline_coefficients tau_arr_with_0 blackbody_emission_at_each_boundary false.

(** A BDRF Fourier mode is a scalar or a callable; a call returns a scalar or an
    array.  np.isscalar distinguishes the two. *)
Inductive bval : Type := VScal (r : R) | VArr (A : tensor).
Inductive bmode : Type := MScal (r : R) | MFun (f : list R -> list R -> bval).

(** Callable built from a pointwise reflectance, as the documentation asks:
    output of the shape of the outer product. *)
Definition pointwise_mode (rho : R -> R -> R) : bmode :=
  MFun (fun mu mup => VArr (tmat (length mu) (length mup)
                              (fun i j => rho (nth i mu 0) (nth j mup 0)))).

(** subroutines.py 459-486. The value is an array except for scalar modes.
    [2 * f(mu,mu) * mu[None,:] @ W] is [((2*f(mu,mu)) * mu[None,:]) @ W]. *)
Definition generate_emissivity_from_BDRF (leggauss : leggauss_t) (N : nat) (mode : bmode) : res tensor :=
  match mode with
  | MScal r => Ok (t0 (1 - r))
  | MFun f =>
      let (mu_arr_pos, W) := Gauss_Legendre_quad leggauss N 0 1 in
      let F := match f mu_arr_pos mu_arr_pos with VScal r => t0 r | VArr A => A end in
      let! P := tmul (tscal 2 F) (tnew 0 (t1 mu_arr_pos)) in
      match shp P with
      | [n; m] => if Nat.eqb m (length W)
                  then Ok (mkT [n] (fun idx => 1 - rsum m (fun j => elt P [hd 0%nat idx; j] * nth j W 0)))
                  else Err EShape
      | _ => Err EShape
      end
  end.

(** subroutines.py 490-570.  [A[:, [-1]]] and [A[:, :-1]] of a 2-d array. The
    closures keep [m] by value (default argument), hence [map]. *)
Definition last_col (A : tensor) : tensor :=
  match shp A with
  | [n; m] => mkT [n; 1%nat] (fun idx => elt A [hd 0%nat idx; (m - 1)%nat])
  | _ => A
  end.
Definition but_last_col (A : tensor) : tensor :=
  match shp A with
  | [n; m] => mkT [n; (m - 1)%nat] (elt A)
  | _ => A
  end.

Definition cache_BDRF_Fourier_modes (leggauss : leggauss_t) (N : nat) (modes : list bmode) (mu0 : R)
  : list bmode :=
  let mu0_caching := (Rltb 0 mu0 && Rleb mu0 1)%bool in
  let mu_arr_pos := fst (Gauss_Legendre_quad leggauss N 0 1) in
  if mu0_caching then
    let evaluated := map (fun md => match md with
                                    | MScal r => VScal r
                                    | MFun f => f mu_arr_pos (mu_arr_pos ++ [mu0])
                                    end) modes in
    map (fun m => MFun (fun mu neg_mup =>
           match nth m evaluated (VScal 0) with
           | VScal r => VScal r
           | VArr A => if Nat.eqb (length neg_mup) 1 then VArr (last_col A) else VArr (but_last_col A)
           end)) (seq 0 (length modes))
  else
    let evaluated := map (fun md => match md with
                                    | MScal r => VScal r
                                    | MFun f => f mu_arr_pos mu_arr_pos
                                    end) modes in
    map (fun m => MFun (fun mu neg_mup =>
           match nth m evaluated (VScal 0) with
           | VScal r => VScal r
           | VArr A => if Nat.eqb (length neg_mup) 1
                       then match nth m modes (MScal 0) with
                            | MFun f => f mu_arr_pos neg_mup
                            | MScal r => VScal r
                            end
                       else VArr A
           end)) (seq 0 (length modes)).

(** scipy.linalg.pascal(n, kind="upper"): binomial coefficients C(j,i). *)
Fixpoint binom (n k : nat) : nat :=
  match n, k with
  | _, O => 1
  | O, S _ => 0
  | S n', S k' => binom n' k' + binom n' (S k')
  end.
Definition pascal_upper (i j : nat) : nat := binom j i.

(** subroutines.py 574-610. [np.any(a_arr) == 0] holds iff every entry is zero. An
    entry [1/0] is non-finite.  Rows of [poly_coeffs] all have [Ncoeffs] entries. *)
Definition affine_row (Ncoeffs : nat) (row : list R) (inva b : R) : list R :=
  map (fun i =>
    rsum Ncoeffs (fun j =>
      INR (pascal_upper i j) * inva ^ j
      * (- b) ^ (if Nat.eqb (pascal_upper i j) 0 then 0 else j - i)
      * nth j row 0)) (seq 0 Ncoeffs).

Fixpoint affine_rows (Ncoeffs : nat) (rows : list (list R)) (a_arr b_arr : list R) : res (list (list R)) :=
  match rows, a_arr, b_arr with
  | [], [], [] => Ok []
  | r :: rs, a :: aa, b :: bs =>
      let! inva := cdiv 1 a in
      let! rest := affine_rows Ncoeffs rs aa bs in
      Ok (affine_row Ncoeffs r inva b :: rest)
  | _, _, _ => Err EShape
  end.

Definition affine_transform_poly_coeffs (Ncoeffs : nat) (poly_coeffs : list (list R)) (a_arr b_arr : list R)
  : res (list (list R)) :=
  if forallb (fun a => Reqb a 0) a_arr
  then Err (EValue "The scale factors must be non-zero.")
  else affine_rows Ncoeffs poly_coeffs a_arr b_arr.

(** scipy.interpolate.BarycentricInterpolator(nodes) with values [yi]: the
    Lagrange interpolation polynomial. *)
Fixpoint rprod (n : nat) (f : nat -> R) : R :=
  match n with O => 1 | S k => rprod k f * f k end.
Definition lagrange_basis (nodes : list R) (j : nat) (x : R) : R :=
  rprod (length nodes) (fun k => if Nat.eqb k j then 1 else (x - nth k nodes 0) / (nth j nodes 0 - nth k nodes 0)).
Definition barycentric (nodes : list R) (yi : nat -> R) (x : R) : R :=
  rsum (length nodes) (fun j => yi j * lagrange_basis nodes j x).

(** subroutines.py 709-742.  Python indexing with a possibly negative index [z] of
    an axis of length [n]: wraps once, IndexError outside [-n, n). *)
Definition wrap (n : nat) (z : Z) : res nat :=
  if ((0 <=? z) && (z <? Z.of_nat n))%Z%bool then Ok (Z.to_nat z)
  else if ((- Z.of_nat n <=? z) && (z <? 0))%Z%bool then Ok (Z.to_nat (z + Z.of_nat n))
  else Err EIndex.

Section DiagOrdered.
  Context {V : Type}.
  (** One row of fancy indexing: [A[indices - s, indices]]. *)
  Definition diag_row (n : nat) (A : nat -> nat -> V) (s : Z) : res (list V) :=
    rmap (fun j => let! i := wrap n (Z.of_nat j - s)%Z in Ok (A i j)) (seq 0 n).
  (** subroutines.py 709-742. *)
  Definition to_diag_ordered_form (n : nat) (A : nat -> nat -> V) (Nsuperdiags Nsubdiags : nat)
    : res (list (list V)) :=
    let! upper := rmap (fun r => diag_row n A (Z.of_nat (Nsuperdiags - r)))
                       (seq 0 (S Nsuperdiags)) in
    let! lower := rmap (fun r => diag_row n A (Z.of_nat n - 1 - Z.of_nat r)%Z)
                       (seq 0 Nsubdiags) in
    Ok (upper ++ lower).
End DiagOrdered.
