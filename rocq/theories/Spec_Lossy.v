(** Vocabulary for statements about atmospheres that lose energy. *)
From Coq Require Import String Reals Lra Lia List Bool Arith ZArith.
From Verif Require Import Base Tensor M_LinAlg Spec_RTE M_Subroutines M_Assemble M_Pydisort Spec_Sol Spec_Valid Spec_Calls Spec_Rates.
Import ListNotations.
Local Open Scope R_scope.

(** What the surface reflects upwards in direction [i], in mode [m], of the downward intensities [x]. *)
Definition reflected (p : py_in) (mu : list R) (w : nat -> R) (rho : nat -> R -> R -> R) (m : nat) (x : vec) (i : nat) : R :=
  if Nat.ltb m (length (p_BDRF p)) then (if Nat.eqb m 0 then 2 else 1) * rsum (half p) (fun j => rho m (nth i mu 0) (nth j mu 0) * nth j mu 0 * w j * x j) else 0.

(** The surface does not amplify the square of the intensity, weighted as in the flux. *)
Definition no_gain (p : py_in) (mu : list R) (w : nat -> R) (rho : nat -> R -> R -> R) : Prop := forall m x, (m < nmodes p)%nat ->
  rsum (half p) (fun i => w i * nth i mu 0 * reflected p mu w rho m x i ^ 2) <= rsum (half p) (fun i => w i * nth i mu 0 * x i ^ 2).

(** Radiation of either symmetry about the horizontal loses in every layer and mode that scatter, and
    the surface does not amplify. *)
Record lossy (p : py_in) (mu : list R) (w : nat -> R) (rho : nat -> R -> R -> R) : Prop := mkLossy {
  lo_layers : forall m l s, (m < nmodes p)%nat -> (l < nlayers p)%nat -> ~ negligible (albedo_s p l) (wphase_s p l) (ncoeffs p) m -> s = 1 \/ s = -1 -> loses p mu w m l s;
  lo_surface : no_gain p mu w rho
}.

(** An accepted input whose boundary sources, source array and surface have one of the documented
    forms. (An isotropic source alone, without a beam or a positive boundary source, divides 0 by 0;
    the Nakajima-Tanaka corrections need a beam away from the nodes.) *)
Record well_formed (p : py_in) (rho : nat -> R -> R -> R) : Prop := mkWF {
  wf_valid : valid p;
  wf_bpos : exists v, bc_values (p_bpos p) (half p) v;
  wf_bneg : exists v, bc_values (p_bneg p) (half p) v;
  wf_rho : forall m, (m < length (p_BDRF p))%nat -> mode_is (nth m (p_BDRF p) (MScal 0)) (rho m);
  wf_rows : ~ has_source p -> nrow (p_s p) = 1%nat \/ nrow (p_s p) = nlayers p;
  wf_scale : has_source p -> 0 < p_I0 p \/ positive_entry (p_bpos p) \/ positive_entry (p_bneg p);
  wf_angle : p_NT p = true -> forall mu w i, double_gauss (half p) mu w -> (i < half p)%nat -> 1 / 100000000 <= Rabs (nth i mu 0 - p_mu0 p)
}.
Definition lossy_input (p : py_in) (rho : nat -> R -> R -> R) : Prop :=
  well_formed p rho /\ forall mu w, double_gauss (half p) mu w -> lossy p mu w rho.

(** Reflection is the same when the directions are swapped. *)
Definition reciprocal (p : py_in) (mu : list R) (rho : nat -> R -> R -> R) : Prop := forall m i j, (m < length (p_BDRF p))%nat -> (i < half p)%nat -> (j < half p)%nat ->
  rho m (nth i mu 0) (nth j mu 0) = rho m (nth j mu 0) (nth i mu 0).

(** Two streams (the cosines are 1/2 and -1/2): a quarter of the square of the rate at which
    radiation of mode [m] decays with scaled depth in layer [l]. *)
Definition rate2 (p : py_in) (m l : nat) : R :=
  let g := if Nat.eqb (ncoeffs p) 1 then 0 else phase_s p l 1 in
  if Nat.eqb m 0 then (1 - albedo_s p l) * (1 - 3/4 * (albedo_s p l * g)) else 1 - 9/8 * (albedo_s p l * g).
