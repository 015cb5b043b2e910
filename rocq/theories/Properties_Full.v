(** Properties C67 and C68: the intensity as a function of depth, direction and azimuth. *)
From Coq Require Import String Reals Lra Lia List Bool Arith ZArith.
From Coquelicot Require Import Coquelicot.
From Verif Require Import Base Tensor Spec M_LinAlg Spec_RTE M_Subroutines M_Assemble M_Pydisort Spec_Sol Spec_Valid Spec_Calls Spec_Unique Spec_Phys Spec_Full
  P_Sub3 P_Pydisort2 P_Max3 P_Addition P_Full P_Full3 Examples Examples3 Examples5 Examples7.
Import ListNotations.
Local Open Scope R_scope.

(** C67: the phase function that takes part is the azimuthal series that the calculation uses (the
    addition theorem of the Legendre polynomials). *)
Theorem C67_phase_function_series :
  forall p l x phi y psi, (0 < ncoeffs p)%nat -> -1 <= x <= 1 -> -1 <= y <= 1 ->
  phase_at p l (cos_between x phi y psi)
  = rsum (ncoeffs p) (fun m => (if Nat.eqb m 0 then 1 else 2) * phase_mode p m l x y * cos (INR m * (phi - psi))).
Proof. exact phase_modes. Qed.
Print Assumptions C67_phase_function_series.

(** C67: the intensity that [u] reports solves the radiative transfer problem, with scattering
    integrated over the azimuth. *)
Theorem C67_intensity_solves_transfer :
  forall p lg la jk out u, linalg_ok la -> leggauss_ok (half p) (lg (half p)) -> pydisort p lg la jk = Ok out -> po_u out = Some u -> all_modes p ->
  forall w vn vp rho, double_gauss (half p) (po_mu out) w -> boundary_data p vn vp rho ->
  (exists f, reports_u p u f) /\ forall f, reports_u p u f -> full_solution p (po_mu out) w vn vp rho f.
Proof. exact rep_solves. Qed.
Print Assumptions C67_intensity_solves_transfer.

(** C67: it is the only solution, if the phase function and the surface are those of a physical
    atmosphere: any field that solves the problem is what [u] reports. *)
Theorem C67_only_solution :
  forall p lg la jk out u, linalg_ok la -> leggauss_ok (half p) (lg (half p)) -> pydisort p lg la jk = Ok out -> po_u out = Some u -> all_modes p ->
  forall w vn vp rho, double_gauss (half p) (po_mu out) w -> boundary_data p vn vp rho ->
  phase_positive p -> surface_positive p (po_mu out) w rho ->
  forall g, full_solution p (po_mu out) w vn vp rho g -> reports_u p u g.
Proof. exact rep_only. Qed.
Print Assumptions C67_only_solution.
Example C67_nonvacuous jk : let p := p_az 3 1 2 1 in exists out u w, linalg_ok la_full /\ leggauss_ok (half p) (lg_12 (half p)) /\ pydisort p lg_12 la_full jk = Ok out /\
  po_u out = Some u /\ all_modes p /\ double_gauss (half p) (po_mu out) w /\ boundary_data p (fun _ => 2) (fun _ => 1) (fun _ _ _ => 1/2) /\
  phase_positive p /\ surface_positive p (po_mu out) w (fun _ _ _ => 1/2) /\ nmodes p = 2%nat /\ nlayers p = 2%nat /\
  forall l, (l < 2)%nat -> phase_at p l 1 <> phase_at p l (-1).
Proof.
  cbv zeta. destruct (az_ok 3 1 2 1 ltac:(lra) ltac:(lra) jk) as (out & H). destruct (az_facts 3 1 2 1 jk out H) as (u & w & F1 & F2 & F3 & F4).
  exists out, u, w. split; [exact la_full_ok|]. split; [exact lg_12_ok1|]. split; [exact H|]. split; [exact F1|]. split; [apply az_modes|]. split; [exact F2|]. split; [apply az_bd; lra|].
  split; [apply az_positive|]. split; [exact F3|]. split; [reflexivity|]. split; [reflexivity|]. intros l Hl. rewrite !az_phase_at by exact Hl. destruct (az_ab 3 1 2 1 l Hl) as (_ & A & _). lra.
Qed.

(** C68: the intensity is not negative at any depth, direction and azimuth. *)
Theorem C68_no_negative_intensity :
  forall p lg la jk out u, linalg_ok la -> leggauss_ok (half p) (lg (half p)) -> pydisort p lg la jk = Ok out -> po_u out = Some u -> all_modes p ->
  forall w vn vp rho, double_gauss (half p) (po_mu out) w -> boundary_data p vn vp rho ->
  phase_positive p -> surface_positive p (po_mu out) w rho ->
  (forall l t, (l < nlayers p)%nat -> top_of p l <= t <= bot_of p l -> 0 <= source p l t) ->
  (forall i, (i < half p)%nat -> 0 <= vn i) -> (forall i, (i < half p)%nat -> 0 <= vp i) ->
  forall tau phi, depths_ok p tau -> exists A, u tau phi false false false = Ok (PVal (PT A)) /\ nonneg A.
Proof. exact rep_nonneg. Qed.
Print Assumptions C68_no_negative_intensity.

(** C68: without a beam it does not exceed the strongest emission. *)
Theorem C68_bounded_intensity :
  forall p lg la jk out u, linalg_ok la -> leggauss_ok (half p) (lg (half p)) -> pydisort p lg la jk = Ok out -> po_u out = Some u -> all_modes p ->
  forall w vn vp rho, double_gauss (half p) (po_mu out) w -> boundary_data p vn vp rho ->
  phase_positive p -> surface_positive p (po_mu out) w rho ->
  forall B, p_I0 p = 0 -> (forall l t, (l < nlayers p)%nat -> top_of p l <= t <= bot_of p l -> source p l t <= B) ->
  (forall i, (i < half p)%nat -> vn i <= B) -> (forall i, (i < half p)%nat -> vp i <= (1 - reflectance p (po_mu out) w (rho 0%nat) i) * B) ->
  forall tau phi, depths_ok p tau -> exists A, u tau phi false false false = Ok (PVal (PT A)) /\ all_le A B.
Proof. exact rep_bounded. Qed.
Print Assumptions C68_bounded_intensity.
(** C68: if everything emits [B], it is [B] at every azimuth. *)
Theorem C68_equilibrium :
  forall p lg la jk out u, linalg_ok la -> leggauss_ok (half p) (lg (half p)) -> pydisort p lg la jk = Ok out -> po_u out = Some u -> all_modes p ->
  forall w vn vp rho, double_gauss (half p) (po_mu out) w -> boundary_data p vn vp rho ->
  phase_positive p -> surface_positive p (po_mu out) w rho ->
  forall B, p_I0 p = 0 -> (forall l t, (l < nlayers p)%nat -> top_of p l <= t <= bot_of p l -> source p l t = B) ->
  (forall i, (i < half p)%nat -> vn i = B) -> (forall i, (i < half p)%nat -> vp i = (1 - reflectance p (po_mu out) w (rho 0%nat) i) * B) ->
  forall tau phi, depths_ok p tau -> exists A, u tau phi false false false = Ok (PVal (PT A)) /\ all_eq A B.
Proof. exact rep_equi. Qed.
Print Assumptions C68_equilibrium.
Example C68_nonvacuous jk : let p := p_az 0 1 2 2 in exists out u w, linalg_ok la_full /\ leggauss_ok (half p) (lg_12 (half p)) /\ pydisort p lg_12 la_full jk = Ok out /\
  po_u out = Some u /\ all_modes p /\ double_gauss (half p) (po_mu out) w /\ boundary_data p (fun _ => 2) (fun _ => 1) (fun _ _ _ => 1/2) /\
  phase_positive p /\ surface_positive p (po_mu out) w (fun _ _ _ => 1/2) /\ p_I0 p = 0 /\ (forall l t, (l < nlayers p)%nat -> source p l t = 2) /\
  (forall i, (i < half p)%nat -> 1 = (1 - reflectance p (po_mu out) w (fun _ _ => 1/2) i) * 2) /\ nmodes p = 2%nat.
Proof.
  cbv zeta. destruct (az_ok 0 1 2 2 ltac:(lra) ltac:(lra) jk) as (out & H). destruct (az_facts 0 1 2 2 jk out H) as (u & w & F1 & F2 & F3 & F4).
  exists out, u, w. split; [exact la_full_ok|]. split; [exact lg_12_ok1|]. split; [exact H|]. split; [exact F1|]. split; [apply az_modes|]. split; [exact F2|]. split; [apply az_bd; lra|].
  split; [apply az_positive|]. split; [exact F3|]. split; [reflexivity|]. split; [intros; apply az_source; auto|]. split; [intros i Hi; rewrite F4 by exact Hi; lra|reflexivity].
Qed.

(** C68: more source, more intensity at every azimuth. *)
Theorem C68_more_source_more_intensity :
  forall p q lg la la' jk jk' out out' u u', linalg_ok la -> linalg_ok la' -> leggauss_ok (half p) (lg (half p)) ->
  pydisort p lg la jk = Ok out -> pydisort q lg la' jk' = Ok out' -> po_u out = Some u -> po_u out' = Some u' -> same_medium p q -> p_phi0 p = p_phi0 q ->
  all_modes p -> all_modes q ->
  forall w vn vp vn' vp' rho, double_gauss (half p) (po_mu out) w -> boundary_data p vn vp rho -> boundary_data q vn' vp' rho ->
  phase_positive q -> surface_positive q (po_mu out) w rho -> weaker p q vn vp vn' vp' -> forall tau phi, depths_ok p tau ->
  exists A B, u tau phi false false false = Ok (PVal (PT A)) /\ u' tau phi false false false = Ok (PVal (PT B)) /\ tle A B.
Proof. exact rep_le. Qed.
Print Assumptions C68_more_source_more_intensity.
Example C68_more_nonvacuous jk jk' : let p := p_az 3 1 2 1 in let q := p_az 4 2 3 5 in exists out out' u u' w, linalg_ok la_full /\ leggauss_ok (half p) (lg_12 (half p)) /\
  pydisort p lg_12 la_full jk = Ok out /\ pydisort q lg_12 la_full jk' = Ok out' /\ po_u out = Some u /\ po_u out' = Some u' /\ same_medium p q /\ p_phi0 p = p_phi0 q /\
  all_modes p /\ all_modes q /\ double_gauss (half p) (po_mu out) w /\ boundary_data p (fun _ => 2) (fun _ => 1) (fun _ _ _ => 1/2) /\ boundary_data q (fun _ => 3) (fun _ => 2) (fun _ _ _ => 1/2) /\
  phase_positive q /\ surface_positive q (po_mu out) w (fun _ _ _ => 1/2) /\ weaker p q (fun _ => 2) (fun _ => 1) (fun _ => 3) (fun _ => 2).
Proof.
  cbv zeta. destruct (az_ok 3 1 2 1 ltac:(lra) ltac:(lra) jk) as (out & H). destruct (az_ok 4 2 3 5 ltac:(lra) ltac:(lra) jk') as (out' & H').
  destruct (az_facts 3 1 2 1 jk out H) as (u & w & F1 & F2 & _). destruct (az_facts 4 2 3 5 jk' out' H') as (u' & _ & F1' & _ & _).
  exists out, out', u, u', w. split; [exact la_full_ok|]. split; [exact lg_12_ok1|]. split; [exact H|]. split; [exact H'|]. split; [exact F1|]. split; [exact F1'|]. split; [apply az_same|]. split; [reflexivity|].
  split; [apply az_modes|]. split; [apply az_modes|]. split; [exact F2|]. split; [apply az_bd; lra|]. split; [apply az_bd; lra|]. split; [apply az_positive|]. split; [apply az_surface; exact F2|].
  constructor; try (intros; cbn; lra). intros l t Hl _. change (nlayers (p_az 4 2 3 5)) with 2%nat in Hl. rewrite !az_source by exact Hl. lra.
Qed.
