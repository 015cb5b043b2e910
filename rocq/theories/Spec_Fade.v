(** Vocabulary for statements about how far the influence of the boundaries reaches. *)
From Coq Require Import String Reals Lra Lia List Bool Arith ZArith.
From Verif Require Import Base Tensor M_LinAlg M_Subroutines M_Assemble M_Pydisort Spec_Sol Spec_Phys Spec_Mono.
Import ListNotations.
Local Open Scope R_scope.

(** Optical depth due to absorption alone between the top of the atmosphere and the optical depth [t]:
    every layer contributes the fraction of light it absorbs times the part of it that lies above [t]. *)
Definition absorbed (p : py_in) (t : R) : R := rsum (nlayers p) (fun l => (1 - albedo p l) * (Rmin t (bot_of p l) - Rmin t (top_of p l))).

(** A disturbance [d1] at the top and [d2] at the bottom, both fading with the absorption passed on the way to [t]. *)
Definition fading (d1 d2 : R) (p : py_in) (t : R) : R := d1 * exp (- absorbed p t) + d2 * exp (- (absorbed p (bottom p) - absorbed p t)).

(** The sources of two calls: the emission of the layers differs by at most [e], the downward boundary
    values by at most [e + d1], the upward ones by what a surface that emits [e + d2] contributes. *)
Record sources_near (e d1 d2 : R) (p q : py_in) (mu : list R) (w vn vp vn' vp' : nat -> R) (rho : R -> R -> R) : Prop := mkSNr {
  snr_e : 0 <= e;
  snr_1 : 0 <= d1;
  snr_2 : 0 <= d2;
  snr_I0 : p_I0 p = p_I0 q;
  snr_s : forall l t, (l < nlayers q)%nat -> top_of q l <= t <= bot_of q l -> Rabs (source p l t - source q l t) <= e;
  snr_n : forall i, (i < half q)%nat -> Rabs (vn i - vn' i) <= e + d1;
  snr_p : forall i, (i < half q)%nat -> Rabs (vp i - vp' i) <= (1 - reflectance q mu w rho i) * (e + d2)
}.

(** [A] and [B], which NumPy has squeezed, have the shape [s] before squeezing and differ entry by entry by at most [c]. *)
Definition within_each (s : list nat) (c : list nat -> R) (A B : tensor) : Prop :=
  shp A = shp (tsqueeze (mkT s c)) /\ shp B = shp A /\ forall idx, inb (shp A) idx -> Rabs (elt A idx - elt B idx) <= elt (tsqueeze (mkT s c)) idx.
