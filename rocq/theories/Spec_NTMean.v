(** Vocabulary for the azimuthal mean of the corrected intensity. *)
From Coq Require Import Reals Lra Lia List Bool Arith ZArith.
From Verif Require Import Base Tensor Spec M_LinAlg Spec_RTE M_Subroutines M_Assemble M_Pydisort Spec_Sol Spec_NT.
Import ListNotations.
Local Open Scope R_scope.

Section Mean.
  Variable p : py_in.
  (** What the delta-M scaling removes from the coefficient [k] of the phase function of layer [l]:
      the forward fraction from those kept, everything from those cut off. *)
  Definition removed (l k : nat) : R := if Nat.ltb k (ncoeffs p) then fwd p l else phase p l k.
  (** Azimuthal mean of the single-scattering source that the truncation loses, in the direction of
      polar cosine [x]. *)
  Definition mean_missing (l : nat) (x : R) : R :=
    albedo_s p l * p_I0 p / (4 * PI * (1 - fwd p l)) *
    rsum (ncol (p_Leg p)) (fun k => (2 * INR k + 1) * removed l k * legendre k x * legendre k (- p_mu0 p)).
  (** Azimuthal mean of the angular factor of the second-order correction. *)
  Definition mean_ims (x : R) : R :=
    p_I0 p / (4 * PI) * ((wavg p * favg p) ^ 2 / (1 - wavg p * favg p)) *
    rsum (ncol (p_Leg p)) (fun k => (2 * INR k + 1) * (2 * gavg p k - gavg p k ^ 2) * legendre k x * legendre k (- p_mu0 p)).
End Mean.
