(** Properties C01-C13, C17: the helper functions of subroutines.py. *)
From Coq Require Import String Reals Lra Lia List Bool Arith ZArith.
From Coquelicot Require Import Coquelicot.
From Verif Require Import Base Tensor Spec M_Subroutines P_Quad P_Sub P_Sub2 P_Sub3 P_SubApi.
Import ListNotations.
Local Open Scope R_scope.

(** C01 *)
Theorem C01_prepend_is_cons : forall arr n v,
  (length arr = n -> prepend arr n v = Ok (v :: arr)) /\
  (length arr <> n -> length arr = 1%nat -> prepend arr n v = Ok (v :: repeat (nth 0 arr 0) n)) /\
  (length arr <> n -> length arr <> 1%nat -> prepend arr n v = Err EShape).
Proof. exact prepend_all. Qed.
Print Assumptions C01_prepend_is_cons.
Example C01_ex : prepend [2; 3] 2 1 = Ok [1; 2; 3]. Proof. reflexivity. Qed.

(** C02 *)
Theorem C02_transform_rule : forall xs ws a b c d k,
  a < b -> c < d ->
  transform_interval [a; b] c d a b = [c; d] /\
  (increasing xs -> increasing (transform_interval xs c d a b)) /\
  (exact_rule xs ws a b k ->
   exact_rule (transform_interval xs c d a b) (transform_weights ws c d a b) c d k).
Proof. exact transform_all. Qed.
Print Assumptions C02_transform_rule.
Example C02_ex : exact_rule [- / sqrt 3; / sqrt 3] [1; 1] (-1) 1 4. Proof. exact (proj2 (proj2 (proj2 (proj2 (proj2 leggauss2_ok))))). Qed.

(** C03 *)
Theorem C03_Gauss_Legendre : forall lg N c d,
  (0 < N)%nat -> c < d -> leggauss_ok N (lg N) ->
  let xs := fst (Gauss_Legendre_quad lg N c d) in
  let ws := snd (Gauss_Legendre_quad lg N c d) in
  length xs = N /\ length ws = N /\
  (forall i, (i < N)%nat -> c < nth i xs 0 < d /\ 0 < nth i ws 0) /\
  distinct xs /\ lsum ws = d - c /\ exact_rule xs ws c d (2 * N).
Proof. exact GL_all. Qed.
Print Assumptions C03_Gauss_Legendre.
Example C03_ex : leggauss_ok 2 (lg_12 2%nat) /\ leggauss_ok 1 (lg_12 1%nat).
Proof. exact (conj leggauss2_ok leggauss1_ok). Qed.

(** C04 *)
Theorem C04_Clenshaw_Curtis : forall Nphi c d, c < d ->
  (~ (2 < Nphi /\ Nphi mod 2 = 1)%Z -> exists msg, Clenshaw_Curtis_quad Nphi c d = Err (EValue msg)) /\
  ((2 < Nphi /\ Nphi mod 2 = 1)%Z ->
   exists xs ws, Clenshaw_Curtis_quad Nphi c d = Ok (xs, ws) /\
     Z.of_nat (length xs) = Nphi /\ length ws = length xs /\
     nth 0 xs 0 = c /\ nth (length xs - 1) xs 0 = d /\ increasing xs /\
     (forall k, (k < length ws)%nat -> nth k ws 0 = nth (length ws - 1 - k) ws 0) /\
     exact_rule xs ws c d (length xs)).
Proof. exact CC_all. Qed.
Print Assumptions C04_Clenshaw_Curtis.
Example C04_ex : (2 < 21 /\ 21 mod 2 = 1)%Z. Proof. split; reflexivity. Qed.

(** C05 *)
Theorem C05_finite_differences : forall Ntau a b, a <> b ->
  ((3 <= Ntau)%nat ->
   exists x M, generate_FD_mat Ntau a b = Ok (x, M) /\ length x = Ntau /\
    (forall i, (i < Ntau)%nat -> nth i x 0 = a + INR i * ((b - a) / INR (Ntau - 1))) /\
    (forall p i, (length p <= 3)%nat -> (i < Ntau)%nat ->
      is_derive (peval p) (nth i x 0) (rsum Ntau (fun j => M i j * peval p (nth j x 0))))) /\
  ((Ntau < 3)%nat -> generate_FD_mat Ntau a b = Err EIndex).
Proof. exact (fun Ntau a b H => conj (fun H3 => FD_spec Ntau a b H3 H) (FD_small Ntau a b)). Qed.
Print Assumptions C05_finite_differences.
Example C05_ex : 0 <> 2 /\ (3 <= 100)%nat. Proof. split; [lra|lia]. Qed.

(** C06.  np.squeeze drops the axes of length 1: the element of direction pair
    (i, j, k, l) sits at the indices of the remaining axes. *)
Theorem C06_scattering_angle : forall mu phi mu_p phi_p i j k l,
  (i < length mu)%nat -> (j < length phi)%nat -> (k < length mu_p)%nat -> (l < length phi_p)%nat ->
  let s := [length mu; length phi; length mu_p; length phi_p] in
  let nu := calculate_nu mu phi mu_p phi_p in
  shp nu = filter (fun n => negb (Nat.eqb n 1)) s /\
  elt nu (map snd (filter (fun p => negb (Nat.eqb (fst p) 1)) (combine s [i; j; k; l])))
   = dot3 (unit_vec (nth i mu 0) (nth j phi 0)) (unit_vec (nth k mu_p 0) (nth l phi_p 0)).
Proof. exact nu_all. Qed.
Print Assumptions C06_scattering_angle.
(** The values lie in [-1, 1], are 1 forward and -1 backward, and swapping the directions transposes the array. *)
Theorem C06_scattering_angle_range : forall mu phi mu_p phi_p i j k l,
  (i < length mu)%nat -> (j < length phi)%nat -> (k < length mu_p)%nat -> (l < length phi_p)%nat ->
  -1 <= nth i mu 0 <= 1 -> -1 <= nth k mu_p 0 <= 1 ->
  let at4 (s d : list nat) := map snd (filter (fun q => negb (Nat.eqb (fst q) 1)) (combine s d)) in
  let x := elt (calculate_nu mu phi mu_p phi_p) (at4 [length mu; length phi; length mu_p; length phi_p] [i; j; k; l]) in
  -1 <= x <= 1 /\
  (nth k mu_p 0 = nth i mu 0 -> nth l phi_p 0 = nth j phi 0 -> x = 1) /\
  (nth k mu_p 0 = - nth i mu 0 -> nth l phi_p 0 = nth j phi 0 + PI -> x = -1) /\
  x = elt (calculate_nu mu_p phi_p mu phi) (at4 [length mu_p; length phi_p; length mu; length phi] [k; l; i; j]).
Proof. exact nu_reported. Qed.
Print Assumptions C06_scattering_angle_range.
Example C06_ex : (1 < length [/ 2; / 3])%nat /\ -1 <= / 2 <= 1. Proof. simpl; split; [lia|lra]. Qed.

(** C07 *)
Theorem C07_affine_change_of_variable : forall n rows a_arr b_arr,
  (0 < length rows)%nat -> length a_arr = length rows -> length b_arr = length rows ->
  (forall r, In r rows -> length r = n) -> (forall a, In a a_arr -> a <> 0) ->
  exists out, affine_transform_poly_coeffs n rows a_arr b_arr = Ok out /\ length out = length rows /\
    forall l, (l < length rows)%nat -> length (nth l out []) = n /\
      forall x, peval (nth l out []) (nth l a_arr 0 * x + nth l b_arr 0) = peval (nth l rows []) x.
Proof. exact affine_all. Qed.
Print Assumptions C07_affine_change_of_variable.
Example C07_ex : length [[1; 2; 3]; [4; 5; 6]] = 2%nat /\ forall a, In a [2; / 2] -> a <> 0.
Proof. split; auto. simpl; intros a [<-|[<-|[]]]; lra. Qed.

(** C08 is false of the code: one zero among non-zero factors passes the check. *)
Theorem C08_zero_scale_rejected_refuted :
  exists n rows a_arr b_arr, length rows = length a_arr /\ length b_arr = length a_arr /\ In 0 a_arr /\
    forall msg, affine_transform_poly_coeffs n rows a_arr b_arr <> Err (EValue msg).
Proof. exact affine_guard_refuted. Qed.
Print Assumptions C08_zero_scale_rejected_refuted.
(** What does hold: ValueError if all factors are zero, and a zero factor never
    yields finite coefficients. Missing: the ValueError for a single zero. *)
Theorem C08_zero_scale_rejected_partial : forall n rows a_arr b_arr,
  ((forall a, In a a_arr -> a = 0) -> exists msg, affine_transform_poly_coeffs n rows a_arr b_arr = Err (EValue msg)) /\
  (In 0 a_arr -> forall r, affine_transform_poly_coeffs n rows a_arr b_arr <> Ok r).
Proof.
  exact (fun n rows a b => conj (affine_guard_all n rows a b) (fun H r => affine_zero_never_ok n rows a b r H)).
Qed.
Print Assumptions C08_zero_scale_rejected_partial.
Example C08_ex : In 0 [1; 0]. Proof. simpl; auto. Qed.

(** C09 *)
Theorem C09_linear_spline : forall x y,
  (~ ((1 < length x)%nat /\ length x = length y /\ increasing x) ->
     exists msg, linear_spline_coefficients x y true = Err (EValue msg)) /\
  ((1 < length x)%nat /\ length x = length y /\ increasing x ->
   exists rows, linear_spline_coefficients x y true = Ok rows /\ length rows = (length x - 1)%nat /\
    forall i, (S i < length x)%nat ->
     length (nth i rows []) = 2%nat /\
     peval (nth i rows []) (nth i x 0) = nth i y 0 /\
     peval (nth i rows []) (nth (S i) x 0) = nth (S i) y 0).
Proof. exact spline_all. Qed.
Print Assumptions C09_linear_spline.
Example C09_ex : increasing [0; 1; 3].
Proof. intros [|[|[|i]]] [|[|[|j]]] H; simpl in *; try lia; lra. Qed.

(** C10 *)
Theorem C10_thermal_source : forall quad tau_arr TEMPER lo hi,
  quad_ok quad -> 0 <= lo <= hi -> (0 < length tau_arr)%nat ->
  increasing tau_arr -> (forall x, In x tau_arr -> 0 < x) -> (forall t, In t TEMPER -> 0 <= t) ->
  (length TEMPER <> length tau_arr + 1)%nat /\
    (exists msg, generate_s_poly_coeffs quad tau_arr TEMPER lo hi = Err (EValue msg)) \/
  (length TEMPER = length tau_arr + 1)%nat /\
  exists rows, generate_s_poly_coeffs quad tau_arr TEMPER lo hi = Ok rows /\
    length rows = length tau_arr /\
    forall l, (l < length tau_arr)%nat ->
      let top := nth l (0 :: tau_arr) 0 in let bot := nth l tau_arr 0 in
      length (nth l rows []) = 2%nat /\
      peval (nth l rows []) top = RInt (planck_spec (nth l TEMPER 0)) lo hi /\
      peval (nth l rows []) bot = RInt (planck_spec (nth (S l) TEMPER 0)) lo hi /\
      (forall x, top <= x <= bot -> 0 <= peval (nth l rows []) x).
Proof. exact spoly_all. Qed.
Print Assumptions C10_thermal_source.
Example C10_ex : quad_ok (fun f a b => RInt f a b) /\ length [300; 280; 250] = (length [1; 2] + 1)%nat.
Proof. split; [intros f a b _|]; reflexivity. Qed.

(** C11.  [w] in cm^-1 (the docstring says m^-1). *)
Theorem C11_Planck : forall T w, 0 < w -> (forall t, In t T -> 0 <= t) ->
  Planck T w = Ok (map (fun t => planck_spec t w) T).
Proof. exact Planck_all. Qed.
Print Assumptions C11_Planck.
(** The returned values increase strictly with the temperature, from 0 at absolute zero. *)
Theorem C11_Planck_monotone : forall T w out, 0 < w -> (forall t, In t T -> 0 <= t) -> Planck T w = Ok out ->
  length out = length T /\
  forall i, (i < length T)%nat -> (nth i T 0 = 0 -> nth i out 0 = 0) /\ (0 < nth i T 0 -> 0 < nth i out 0) /\
  forall j, (j < length T)%nat -> nth i T 0 < nth j T 0 -> nth i out 0 < nth j out 0.
Proof. exact Planck_reported. Qed.
Print Assumptions C11_Planck_monotone.
Example C11_ex : forall t, In t [0; 300] -> 0 <= t. Proof. simpl; intros t [<-|[<-|[]]]; lra. Qed.

(** C111.  The emission of a boundary over a band of wavenumbers: the integral of Planck's law; 0 at absolute zero, more
    for every warmer boundary, and the sum over two adjoining bands. *)
Theorem C111_boundary_emission : forall quad T lo hi, quad_ok quad -> 0 <= lo <= hi -> (forall t, In t T -> 0 <= t) ->
  let b := blackbody_contrib_to_BCs quad T lo hi in
  length b = length T /\
  forall i, (i < length T)%nat ->
    nth i b 0 = RInt (planck_spec (nth i T 0)) lo hi /\ 0 <= nth i b 0 /\ (nth i T 0 = 0 -> nth i b 0 = 0) /\
    (lo < hi -> forall j, (j < length T)%nat -> nth i T 0 < nth j T 0 -> nth i b 0 < nth j b 0) /\
    (forall mid, lo <= mid <= hi -> nth i b 0 = nth i (blackbody_contrib_to_BCs quad T lo mid) 0 + nth i (blackbody_contrib_to_BCs quad T mid hi) 0).
Proof. exact blackbody_reported. Qed.
Print Assumptions C111_boundary_emission.
(** A boundary as warm as the atmosphere next to it emits what that atmosphere emits. *)
Theorem C111_boundary_matches_atmosphere : forall quad tau_arr TEMPER lo hi rows, quad_ok quad -> 0 <= lo <= hi -> (0 < length tau_arr)%nat ->
  increasing tau_arr -> (forall x, In x tau_arr -> 0 < x) -> (forall t, In t TEMPER -> 0 <= t) ->
  generate_s_poly_coeffs quad tau_arr TEMPER lo hi = Ok rows ->
  forall Tb, 0 <= Tb ->
  (Tb = nth 0 TEMPER 0 -> blackbody_contrib_to_BCs quad [Tb] lo hi = [peval (nth 0 rows []) 0]) /\
  (Tb = nth (length tau_arr) TEMPER 0 -> blackbody_contrib_to_BCs quad [Tb] lo hi = [peval (nth (length tau_arr - 1) rows []) (nth (length tau_arr - 1) tau_arr 0)]).
Proof. exact blackbody_layers. Qed.
Print Assumptions C111_boundary_matches_atmosphere.
Example C111_ex : quad_ok (fun f a b => RInt f a b) /\ (forall t, In t [300; 280; 250] -> 0 <= t) /\
  exists rows, generate_s_poly_coeffs (fun f a b => RInt f a b) [1; 2] [300; 280; 250] 500 600 = Ok rows.
Proof.
  assert (Q : quad_ok (fun f a b => RInt f a b)) by (intros f a b _; reflexivity).
  assert (HT : forall t, In t [300; 280; 250] -> 0 <= t) by (simpl; intros t [<-|[<-|[<-|[]]]]; lra).
  split; [exact Q|]. split; [exact HT|].
  destruct (spoly_all (fun f a b => RInt f a b) [1; 2] [300; 280; 250] 500 600 Q ltac:(lra) ltac:(simpl; lia)) as [(X & _)|(_ & rows & X & _)].
  - intros [|[|i]] [|[|j]] Hij; simpl in *; try lia; lra.
  - simpl; intros x [<-|[<-|[]]]; lra.
  - exact HT.
  - exfalso. apply X. reflexivity.
  - exists rows. exact X.
Qed.

(** C12 *)
Theorem C12_emissivity : forall lg N (rho : R -> R -> R),
  (0 < N)%nat -> leggauss_ok N (lg N) ->
  let mu := fst (Gauss_Legendre_quad lg N 0 1) in
  let W := snd (Gauss_Legendre_quad lg N 0 1) in
  exists e, generate_emissivity_from_BDRF lg N (pointwise_mode rho) = Ok e /\ shp e = [N] /\
    forall i, (i < N)%nat ->
      elt e [i] = 1 - 2 * rsum N (fun j => rho (nth i mu 0) (nth j mu 0) * nth j mu 0 * nth j W 0) /\
      ((forall j, (j < N)%nat -> 0 <= rho (nth i mu 0) (nth j mu 0)) ->
       2 * rsum N (fun j => rho (nth i mu 0) (nth j mu 0) * nth j mu 0 * nth j W 0) <= 1 ->
       0 <= elt e [i] <= 1).
Proof. exact emissivity_all. Qed.
Print Assumptions C12_emissivity.
Theorem C12_emissivity_Lambertian : forall lg N r, (0 < N)%nat -> leggauss_ok N (lg N) ->
  (exists e, generate_emissivity_from_BDRF lg N (MScal r) = Ok e /\ shp e = [] /\ elt e [] = 1 - r) /\
  (exists e, generate_emissivity_from_BDRF lg N (pointwise_mode (fun _ _ => r)) = Ok e /\ shp e = [N] /\
    forall i, (i < N)%nat -> elt e [i] = 1 - r).
Proof. exact emissivity_const. Qed.
Print Assumptions C12_emissivity_Lambertian.
Example C12_ex : leggauss_ok 2 (lg_12 2%nat). Proof. exact leggauss2_ok. Qed.

(** C13 holds for pointwise (callable) modes and at least two nodes per hemisphere... *)
Theorem C13_BDRF_cache_transparent_partial : forall lg N modes rhos mu0,
  leggauss_ok N (lg N) -> (2 <= N)%nat -> modes = map pointwise_mode rhos ->
  let nodes := fst (Gauss_Legendre_quad lg N 0 1) in
  forall m, (m < length modes)%nat ->
  exists f g, nth m modes (MScal 0) = MFun f /\
    nth m (cache_BDRF_Fourier_modes lg N modes mu0) (MScal 0) = MFun g /\
    (exists A B, f nodes nodes = VArr A /\ g nodes nodes = VArr B /\ teq A B) /\
    (0 < mu0 <= 1 -> exists A B, f nodes [mu0] = VArr A /\ g nodes [mu0] = VArr B /\ teq A B) /\
    (~ (0 < mu0 <= 1) -> forall x, exists A B, f nodes [x] = VArr A /\ g nodes [x] = VArr B /\ teq A B).
Proof. exact cache_ok. Qed.
Print Assumptions C13_BDRF_cache_transparent_partial.
Example C13_ex : leggauss_ok 2 (lg_12 2%nat) /\ (0 < length (map pointwise_mode [fun x y : R => Rmult x y]))%nat.
Proof. split; [exact leggauss2_ok|simpl; lia]. Qed.
(** ... and fails for NQuad = 2. *)
Theorem C13_BDRF_cache_transparent_refuted :
  exists (rho : R -> R -> R) mu0, 0 < mu0 <= 1 /\
    let nodes := fst (Gauss_Legendre_quad lg1 1 0 1) in
    exists f g A B, pointwise_mode rho = MFun f /\
      nth 0 (cache_BDRF_Fourier_modes lg1 1 [pointwise_mode rho] mu0) (MScal 0) = MFun g /\
      f nodes nodes = VArr A /\ g nodes nodes = VArr B /\ elt A [0; 0]%nat <> elt B [0; 0]%nat.
Proof. exact cache_N1_refuted. Qed.
Print Assumptions C13_BDRF_cache_transparent_refuted.

(** C17 *)
Theorem C17_diagonal_ordered_form : forall V n (A : nat -> nat -> V) u l (d : V),
  (u <= n)%nat -> (l <= n)%nat ->
  exists ab, to_diag_ordered_form n A u l = Ok ab /\ length ab = (u + l + 1)%nat /\
   (forall r, (r < u + l + 1)%nat -> length (nth r ab []) = n) /\
   (forall i j, (i < n)%nat -> (j < n)%nat -> (j <= i + u)%nat -> (i <= j + l)%nat ->
      nth j (nth (u + i - j) ab []) d = A i j).
Proof. exact @diag_ordered_ok. Qed.
Print Assumptions C17_diagonal_ordered_form.
Example C17_ex : (5 <= 12 /\ 5 <= 12)%nat. Proof. lia. Qed.
