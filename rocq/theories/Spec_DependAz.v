(** Vocabulary for statements about how the intensity at every azimuth depends on the optical properties. *)
From Coq Require Import String Reals List Bool Arith ZArith.
From Verif Require Import Base Tensor M_LinAlg M_Subroutines M_Assemble M_Pydisort Spec_Sol Spec_Phys Spec_Mono Spec_Depend Spec_Full.
Import ListNotations.
Local Open Scope R_scope.

(** No phase function is a pure forward peak. *)
Definition not_all_forward (p : py_in) : Prop := forall l, (l < nlayers p)%nat -> fwd p l < 1.
(** The most that the surface reflects from cosine [y] to [x], at any azimuth; [rho] its Fourier modes. *)
Definition surface_size (p : py_in) (rho : nat -> R -> R -> R) (x y : R) : R := rsum (length (p_BDRF p)) (fun m => Rabs (rho m x y)).
(** The change from [p] to [q] moves the intensity by no more than [e], given that the intensity in
    [p] is at most [M]: the radiation that is scattered, extinguished or emitted differently in a
    layer is at most what the absorption of that layer removes from a field of size [e], and likewise
    at the boundaries. *)
Record moves_by (e M : R) (p q : py_in) (mu : list R) (w vn vp vn' vp' : nat -> R) (rho : nat -> R -> R -> R) : Prop := mkMB {
  mb_layer : forall l t, (l < nlayers q)%nat -> top_of q l <= t <= bot_of q l ->
    (peak_dist p q l + scattering_dist p q l) * M
      + p_I0 q / (4 * PI) * (scattering_dist p q l + scattering_size q l * (depth_dist p q / p_mu0 q))
      + Rabs ((1 - albedo p l) * source p l t - (1 - albedo q l) * source q l t) <= (1 - albedo q l) * e;
  mb_n : forall i, (i < half q)%nat -> Rabs (vn i - vn' i) <= e;
  mb_p : forall i, (i < half q)%nat ->
    Rabs (vp i - vp' i) + p_I0 q / PI * surface_size q rho (nth i mu 0) (p_mu0 q) * depth_dist p q <= (1 - reflectance q mu w (rho 0%nat) i) * e
}.
(** Every entry of every reported intensity is at most [M]. *)
Definition u_bounded (p : py_in) (u : list R -> list R -> bool -> bool -> bool -> res pret) (M : R) : Prop :=
  forall tau phi A, depths_ok p tau -> u tau phi false false false = Ok (PVal (PT A)) -> forall idx, inb (shp A) idx -> Rabs (elt A idx) <= M.
