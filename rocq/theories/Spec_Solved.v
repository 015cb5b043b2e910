(** Vocabulary for statements about which atmospheres are solved. *)
From Coq Require Import String Reals Lra Lia List Bool Arith ZArith.
From Verif Require Import Base Tensor M_LinAlg Spec_RTE M_Subroutines M_Assemble M_Pydisort Spec_Sol Spec_Valid Spec_Calls Spec_Phys.
Import ListNotations.
Local Open Scope R_scope.

(** The columns of an [n] x [n] matrix are linearly independent. *)
Definition independent (n : nat) (A : mat) : Prop :=
  forall v : vec, (forall i, (i < n)%nat -> rsum n (fun j => A i j * v j) = 0) -> forall j, (j < n)%nat -> v j = 0.
(** np.linalg.eig finds [n] independent real eigenvectors whenever there are so many, and
    np.linalg.inv inverts every matrix with independent columns. *)
Record linalg_total (la : linalg) : Prop := mkLAt {
  eig_total : forall n A (k : vec) (E : mat), independent n E ->
     (forall i j, (i < n)%nat -> (j < n)%nat -> rsum n (fun p => A i p * E p j) = E i j * k j) ->
     exists k' E', la_eig la (rows n n A) = Some (k', E') /\ independent n (of_rows E');
  inv_total : forall n A, independent n A -> exists B, la_inv la (rows n n A) = Some B
}.

(** The phase function that takes part (truncated and delta-M scaled) of layer [l] between
    the direction cosines [x] and [y] and azimuths that differ by [phi]. *)
Definition phase_fn (p : py_in) (l : nat) (x y phi : R) : R :=
  rsum (ncoeffs p) (fun m => (if Nat.eqb m 0 then 1 else 2) * phase_mode p m l x y * cos (INR m * phi)).
(** The reflection of the surface, from its Fourier modes [rho]. *)
Definition surface_fn (p : py_in) (rho : nat -> R -> R -> R) (x y phi : R) : R :=
  rsum (length (p_BDRF p)) (fun m => rho m x y * cos (INR m * phi)).

(** Neither is negative between any two of the directions [mu] (in layers that scatter), and the
    surface reflects at most what it receives. (Albedos below 1 are part of [valid].) *)
Record physical (p : py_in) (mu : list R) (w : nat -> R) (rho : nat -> R -> R -> R) : Prop := mkPhy {
  phy_phase : forall l i j phi, (l < nlayers p)%nat -> 0 < albedo_s p l -> (i < streams p)%nat -> (j < streams p)%nat ->
    0 <= phase_fn p l (nth i mu 0) (nth j mu 0) phi;
  phy_surface : forall i j phi, (i < half p)%nat -> (j < half p)%nat -> 0 <= surface_fn p rho (nth i mu 0) (nth j mu 0) phi;
  phy_albedo : forall i, (i < half p)%nat -> reflectance p mu w (rho 0%nat) i <= 1
}.

(** The direct beam decays like one of the free solutions [v exp(- tau / mu0)] of the transfer
    equation of mode [m] in layer [l], in which scattering takes part. *)
Definition resonant (p : py_in) (mu : list R) (w : nat -> R) (m l : nat) : Prop :=
  ~ negligible (albedo_s p l) (wphase_s p l) (ncoeffs p) m /\
  exists v : vec, (exists i, (i < streams p)%nat /\ v i <> 0) /\
  forall i, (i < streams p)%nat -> nth i mu 0 * (- / p_mu0 p * v i) =
    v i - rsum (streams p) (fun j => wnode (half p) w j * D_spec (albedo_s p l) (wphase_s p l) (ncoeffs p) m (nth i mu 0) (nth j mu 0) * v j).

(** An accepted input whose boundary sources, source array and surface have one of the documented
    forms, of a physical atmosphere. (An isotropic source alone, without a beam or a positive
    boundary source, divides 0 by 0; the Nakajima-Tanaka corrections need a beam away from the nodes.) *)
Record physical_input (p : py_in) (rho : nat -> R -> R -> R) : Prop := mkPIn {
  pi_valid : valid p;
  pi_bpos : exists v, bc_values (p_bpos p) (half p) v;
  pi_bneg : exists v, bc_values (p_bneg p) (half p) v;
  pi_rho : forall m, (m < length (p_BDRF p))%nat -> mode_is (nth m (p_BDRF p) (MScal 0)) (rho m);
  pi_rows : ~ has_source p -> nrow (p_s p) = 1%nat \/ nrow (p_s p) = nlayers p;
  pi_scale : has_source p -> 0 < p_I0 p \/ positive_entry (p_bpos p) \/ positive_entry (p_bneg p);
  pi_angle : p_NT p = true -> forall mu w i, double_gauss (half p) mu w -> (i < half p)%nat -> 1 / 100000000 <= Rabs (nth i mu 0 - p_mu0 p);
  pi_physical : forall mu w, double_gauss (half p) mu w -> physical p mu w rho
}.
(** No layer and mode resonates with the beam. *)
Definition no_resonance (p : py_in) : Prop :=
  0 < p_I0 p -> forall mu w m l, double_gauss (half p) mu w -> (m < nmodes p)%nat -> (l < nlayers p)%nat -> ~ resonant p mu w m l.
