(** Vocabulary for statements about when the rates, at which radiation decays with depth, are real. *)
From Coq Require Import String Reals Lra Lia List Bool Arith ZArith.
From Verif Require Import Base Tensor M_LinAlg Spec_RTE M_Subroutines M_Assemble M_Pydisort Spec_Sol.
Import ListNotations.
Local Open Scope R_scope.

(** What a layer takes out of radiation with the intensities [x] in the upward directions, and [s]
    times as much in the mirrored downward directions, less what it scatters back into the same
    radiation, weighted with [x]: extinction minus scattering. [s] is 1 for radiation that is
    symmetric about the horizontal and -1 for antisymmetric radiation. *)
Definition net_loss (p : py_in) (mu : list R) (w : nat -> R) (m l : nat) (s : R) (x : vec) : R :=
  let K := D_spec (albedo_s p l) (wphase_s p l) (ncoeffs p) m in
  rsum (half p) (fun i => w i * (x i * (x i - rsum (half p) (fun j => w j * ((K (nth i mu 0) (nth j mu 0) + s * K (nth i mu 0) (- nth j mu 0)) * x j))))).

Definition nonzero (n : nat) (x : vec) : Prop := exists i, (i < n)%nat /\ x i <> 0.

(** Every such radiation loses. *)
Definition loses (p : py_in) (mu : list R) (w : nat -> R) (m l : nat) (s : R) : Prop :=
  forall x, nonzero (half p) x -> 0 < net_loss p mu w m l s x.

(** In mode [m] of layer [l] radiation of the one symmetry always loses, but some radiation of the
    other symmetry does not: its angular average is scattered back in full, or more. *)
Definition overscatters (p : py_in) (m l : nat) : Prop :=
  ~ negligible (albedo_s p l) (wphase_s p l) (ncoeffs p) m /\
  forall mu w, double_gauss (half p) mu w -> exists s, (s = 1 \/ s = -1) /\ loses p mu w m l (- s) /\
    exists x, nonzero (half p) x /\ net_loss p mu w m l s x <= 0.

(** Legendre coefficients [g^k] of the Henyey-Greenstein phase function with asymmetry [g]. It is
    positive in every direction. *)
Definition henyey_greenstein (p : py_in) (g : R) : Prop :=
  forall l k, (l < nlayers p)%nat -> (k < ncol (p_Leg p))%nat -> at2 (p_Leg p) l k = g ^ k.
