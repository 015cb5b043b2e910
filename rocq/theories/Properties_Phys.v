(** Properties C61-C64: sign, bounds, equilibrium and superposition of the reported radiation. *)
From Coq Require Import String Reals Lra Lia List Bool Arith ZArith.
From Coquelicot Require Import Coquelicot.
From Verif Require Import Base Tensor Spec M_LinAlg Spec_RTE M_Subroutines M_Assemble M_Pydisort Spec_Sol Spec_Valid Spec_Calls Spec_Unique Spec_Phys
  P_Sub P_Sub3 P_Pydisort4 P_Max3 P_Max4 P_Super Examples Examples2 Examples3 Examples4.
Import ListNotations.
Local Open Scope R_scope.

(** C61: no negative radiation. If the sources are not negative, the phase function that takes part
    is not negative between the discrete directions (in its azimuthal mean), and the surface does not
    amplify, then mean intensities and fluxes are not negative anywhere. *)
Theorem C61_no_negative_radiation :
  forall p lg la jk out, linalg_ok la -> leggauss_ok (half p) (lg (half p)) -> pydisort p lg la jk = Ok out ->
  forall w vn vp rho, double_gauss (half p) (po_mu out) w -> boundary_data p vn vp rho ->
  phase_nonneg p (po_mu out) -> passive_surface p (po_mu out) w (rho 0%nat) -> beam_phase_nonneg p (po_mu out) ->
  (forall l t, (l < nlayers p)%nat -> top_of p l <= t <= bot_of p l -> 0 <= source p l t) ->
  (forall i, (i < half p)%nat -> 0 <= vn i) -> (forall i, (i < half p)%nat -> 0 <= vp i) ->
  forall tau, depths_ok p tau ->
  (exists A, po_u0 out tau false false false = Ok (PVal (PT A)) /\ nonneg A) /\
  (exists A, po_flux_up out tau false false = Ok (PVal (PT A)) /\ nonneg A) /\
  (exists A B, po_flux_down out tau false false = Ok (PTup [PT A; PT B]) /\ nonneg A /\ nonneg B).
Proof. exact call_nonneg. Qed.
Print Assumptions C61_no_negative_radiation.
Example C61_nonvacuous jk : let p := px 3 1 1 2 in exists out w, linalg_ok (la_ex []) /\ leggauss_ok (half p) (lg_12 (half p)) /\
  pydisort p lg_12 (la_ex []) jk = Ok out /\ double_gauss (half p) (po_mu out) w /\ boundary_data p (fun _ => 1) (fun _ => 1) (fun _ _ _ => 1 / 2) /\
  phase_nonneg p (po_mu out) /\ passive_surface p (po_mu out) w (fun _ _ => 1 / 2) /\ beam_phase_nonneg p (po_mu out) /\
  (forall l t, (l < nlayers p)%nat -> top_of p l <= t <= bot_of p l -> 0 <= source p l t) /\ 0 < p_I0 p /\ 0 < albedo_s p 0.
Proof.
  cbv zeta. destruct (s_ok 3 1 1 2 ltac:(lra) ltac:(lra) jk) as (out & H). destruct (s_facts 3 1 1 2 jk out H) as (w & F1 & F2 & F3 & F4 & _).
  exists out, w. split; [apply la_ex_ok|]. split; [apply s_lg|]. split; [exact H|]. split; [exact F1|]. split; [apply s_bd; lra|]. split; [exact F2|]. split; [exact F4|]. split; [exact F3|].
  split; [intros l t Hl _; rewrite s_source by exact Hl; lra|]. split; [cbn; lra|]. unfold albedo_s, scl, albedo, fwd. cbn. lra.
Qed.

(** C62: more source, more radiation. Two calls with the same layers and surface. *)
Theorem C62_more_source_more_radiation :
  forall p q lg la la' jk jk' out out', linalg_ok la -> linalg_ok la' -> leggauss_ok (half p) (lg (half p)) ->
  pydisort p lg la jk = Ok out -> pydisort q lg la' jk' = Ok out' -> same_medium p q ->
  forall w vn vp vn' vp' rho, double_gauss (half p) (po_mu out) w -> boundary_data p vn vp rho -> boundary_data q vn' vp' rho ->
  phase_nonneg q (po_mu out) -> beam_phase_nonneg q (po_mu out) -> passive_surface q (po_mu out) w (rho 0%nat) ->
  weaker p q vn vp vn' vp' -> forall tau, depths_ok p tau ->
  (exists A B, po_u0 out tau false false false = Ok (PVal (PT A)) /\ po_u0 out' tau false false false = Ok (PVal (PT B)) /\ tle A B) /\
  (exists A B, po_flux_up out tau false false = Ok (PVal (PT A)) /\ po_flux_up out' tau false false = Ok (PVal (PT B)) /\ tle A B) /\
  (exists A A0 B B0, po_flux_down out tau false false = Ok (PTup [PT A; PT A0]) /\ po_flux_down out' tau false false = Ok (PTup [PT B; PT B0]) /\ tle A B).
Proof. exact call_le. Qed.
Print Assumptions C62_more_source_more_radiation.
Example C62_nonvacuous jk jk' : let p := px 3 1 1 2 in let q := px 4 2 3 5 in exists out out' w, linalg_ok (la_ex []) /\ leggauss_ok (half p) (lg_12 (half p)) /\
  pydisort p lg_12 (la_ex []) jk = Ok out /\ pydisort q lg_12 (la_ex []) jk' = Ok out' /\ same_medium p q /\ double_gauss (half p) (po_mu out) w /\
  boundary_data p (fun _ => 1) (fun _ => 1) (fun _ _ _ => 1 / 2) /\ boundary_data q (fun _ => 3) (fun _ => 2) (fun _ _ _ => 1 / 2) /\
  phase_nonneg q (po_mu out) /\ beam_phase_nonneg q (po_mu out) /\ passive_surface q (po_mu out) w (fun _ _ => 1 / 2) /\
  weaker p q (fun _ => 1) (fun _ => 1) (fun _ => 3) (fun _ => 2) /\ 0 < albedo_s p 0.
Proof.
  cbv zeta. destruct (s_ok 3 1 1 2 ltac:(lra) ltac:(lra) jk) as (out & H). destruct (s_ok 4 2 3 5 ltac:(lra) ltac:(lra) jk') as (out' & H').
  destruct (s_facts 4 2 3 5 jk' out' H') as (w & F1 & F2 & F3 & F4 & _). pose proof (same_mu _ _ _ _ _ _ _ _ _ H H' eq_refl) as E.
  exists out, out', w. rewrite E. split; [apply la_ex_ok|]. split; [apply s_lg|]. split; [exact H|]. split; [exact H'|]. split; [apply s_same|]. split; [exact F1|].
  split; [apply s_bd; lra|]. split; [apply s_bd; lra|]. split; [exact F2|]. split; [exact F3|]. split; [exact F4|]. split.
  - constructor; try (intros; cbn; lra). intros l t Hl _. rewrite !s_source by exact Hl. lra.
  - unfold albedo_s, scl, albedo, fwd. cbn. lra.
Qed.

(** C63: without a beam the radiation is bounded by the sources. If nothing emits more than the
    isotropic intensity [B] (a surface of reflectance r emits at most (1 - r) B), intensities do not
    exceed [B] and fluxes do not exceed [PI * B]. *)
Theorem C63_bounded_by_sources :
  forall p lg la jk out, linalg_ok la -> leggauss_ok (half p) (lg (half p)) -> pydisort p lg la jk = Ok out ->
  forall w vn vp rho, double_gauss (half p) (po_mu out) w -> boundary_data p vn vp rho ->
  phase_nonneg p (po_mu out) -> passive_surface p (po_mu out) w (rho 0%nat) ->
  forall B, p_I0 p = 0 -> 0 <= B ->
  (forall l t, (l < nlayers p)%nat -> top_of p l <= t <= bot_of p l -> source p l t <= B) ->
  (forall i, (i < half p)%nat -> vn i <= B) -> (forall i, (i < half p)%nat -> vp i <= (1 - reflectance p (po_mu out) w (rho 0%nat) i) * B) ->
  forall tau, depths_ok p tau ->
  (exists A, po_u0 out tau false false false = Ok (PVal (PT A)) /\ all_le A B) /\
  (exists A, po_flux_up out tau false false = Ok (PVal (PT A)) /\ all_le A (PI * B)) /\
  (exists A A0, po_flux_down out tau false false = Ok (PTup [PT A; PT A0]) /\ all_le A (PI * B)).
Proof. exact call_bounded. Qed.
Print Assumptions C63_bounded_by_sources.
(** C63: if everything emits [B] exactly, the intensity is [B] in all directions at all depths and
    the fluxes are [PI * B], whatever the layers, the phase function and the surface. *)
Theorem C63_equilibrium :
  forall p lg la jk out, linalg_ok la -> leggauss_ok (half p) (lg (half p)) -> pydisort p lg la jk = Ok out ->
  forall w vn vp rho, double_gauss (half p) (po_mu out) w -> boundary_data p vn vp rho ->
  forall B, p_I0 p = 0 -> scattering_kept p ->
  (forall l t, (l < nlayers p)%nat -> top_of p l < t < bot_of p l -> source p l t = B) ->
  (forall i, (i < half p)%nat -> vn i = B) -> (forall i, (i < half p)%nat -> vp i = (1 - reflectance p (po_mu out) w (rho 0%nat) i) * B) ->
  linalg_unique la -> forall tau, depths_ok p tau ->
  (exists A, po_u0 out tau false false false = Ok (PVal (PT A)) /\ all_eq A B) /\
  (exists A, po_flux_up out tau false false = Ok (PVal (PT A)) /\ all_eq A (PI * B)) /\
  (exists A A0, po_flux_down out tau false false = Ok (PTup [PT A; PT A0]) /\ all_eq A (PI * B)).
Proof. exact call_equi. Qed.
Print Assumptions C63_equilibrium.
Example C63_nonvacuous jk : let p := px 0 1 2 2 in exists out w, linalg_ok (la_ex []) /\ linalg_unique (la_ex []) /\ leggauss_ok (half p) (lg_12 (half p)) /\
  pydisort p lg_12 (la_ex []) jk = Ok out /\ double_gauss (half p) (po_mu out) w /\ boundary_data p (fun _ => 2) (fun _ => 1) (fun _ _ _ => 1 / 2) /\
  phase_nonneg p (po_mu out) /\ passive_surface p (po_mu out) w (fun _ _ => 1 / 2) /\ p_I0 p = 0 /\ scattering_kept p /\
  (forall l t, (l < nlayers p)%nat -> source p l t = 2) /\
  (forall i, (i < half p)%nat -> 1 = (1 - reflectance p (po_mu out) w (fun _ _ => 1 / 2) i) * 2) /\ 0 < albedo_s p 0.
Proof.
  cbv zeta. destruct (s_ok 0 1 2 2 ltac:(lra) ltac:(lra) jk) as (out & H). destruct (s_facts 0 1 2 2 jk out H) as (w & F1 & F2 & F3 & F4 & F5).
  exists out, w. split; [apply la_ex_ok|]. split; [apply la_ex_unique|]. split; [apply s_lg|]. split; [exact H|]. split; [exact F1|]. split; [apply s_bd; lra|]. split; [exact F2|]. split; [exact F4|].
  split; [reflexivity|]. split; [apply s_kept|]. split; [intros l t Hl; apply s_source; exact Hl|]. split; [intros i Hi; rewrite F5 by exact Hi; lra|].
  unfold albedo_s, scl, albedo, fwd. cbn. lra.
Qed.

(** C64: superposition. If the sources of one call (beam, boundary values, isotropic source) are
    [a] times those of a second plus [b] times those of a third, so are its intensities and diffuse
    fluxes. (The intensity [u]: with the same number of modes and without the corrections for the
    truncated phase function.) *)
Theorem C64_superposition :
  forall a b p p' q lg la la' la'' jk jk' jk'' out out' out'', linalg_ok la -> linalg_ok la' -> linalg_ok la'' -> linalg_unique la'' ->
  leggauss_ok (half q) (lg (half q)) ->
  pydisort p lg la jk = Ok out -> pydisort p' lg la' jk' = Ok out' -> pydisort q lg la'' jk'' = Ok out'' ->
  same_medium p q -> same_medium p' q ->
  forall vn vp vn' vp' vn'' vp'' rho, boundary_data p vn vp rho -> boundary_data p' vn' vp' rho -> boundary_data q vn'' vp'' rho ->
  superposed a b p p' q vn vp vn' vp' vn'' vp'' -> forall tau, depths_ok q tau ->
  (exists A B C, po_u0 out tau false false false = Ok (PVal (PT A)) /\ po_u0 out' tau false false false = Ok (PVal (PT B)) /\
     po_u0 out'' tau false false false = Ok (PVal (PT C)) /\ tcomb a b A B C) /\
  (exists A B C, po_flux_up out tau false false = Ok (PVal (PT A)) /\ po_flux_up out' tau false false = Ok (PVal (PT B)) /\
     po_flux_up out'' tau false false = Ok (PVal (PT C)) /\ tcomb a b A B C) /\
  (exists A A0 B B0 C C0, po_flux_down out tau false false = Ok (PTup [PT A; PT A0]) /\ po_flux_down out' tau false false = Ok (PTup [PT B; PT B0]) /\
     po_flux_down out'' tau false false = Ok (PTup [PT C; PT C0]) /\ tcomb a b A B C) /\
  (forall u u' u'' phi, po_u out = Some u -> po_u out' = Some u' -> po_u out'' = Some u'' ->
     p_phi0 p = p_phi0 q -> p_phi0 p' = p_phi0 q -> nmodes p = nmodes q -> nmodes p' = nmodes q ->
     ~ nt_applies p -> ~ nt_applies p' -> ~ nt_applies q ->
     exists A B C, u tau phi false false false = Ok (PVal (PT A)) /\ u' tau phi false false false = Ok (PVal (PT B)) /\
     u'' tau phi false false false = Ok (PVal (PT C)) /\ tcomb a b A B C).
Proof. exact call_super. Qed.
Print Assumptions C64_superposition.
Example C64_nonvacuous jk jk' jk'' : let p := px 3 1 1 2 in let p' := px 0 1 2 2 in let q := px 6 5 8 10 in exists out out' out'',
  linalg_ok (la_ex []) /\ linalg_unique (la_ex []) /\ leggauss_ok (half q) (lg_12 (half q)) /\
  pydisort p lg_12 (la_ex []) jk = Ok out /\ pydisort p' lg_12 (la_ex []) jk' = Ok out' /\ pydisort q lg_12 (la_ex []) jk'' = Ok out'' /\
  same_medium p q /\ same_medium p' q /\ boundary_data p (fun _ => 1) (fun _ => 1) (fun _ _ _ => 1 / 2) /\
  boundary_data p' (fun _ => 2) (fun _ => 1) (fun _ _ _ => 1 / 2) /\ boundary_data q (fun _ => 8) (fun _ => 5) (fun _ _ _ => 1 / 2) /\
  superposed 2 3 p p' q (fun _ => 1) (fun _ => 1) (fun _ => 2) (fun _ => 1) (fun _ => 8) (fun _ => 5) /\ 0 < albedo_s p 0 /\
  p_phi0 p = p_phi0 q /\ nmodes p = nmodes q /\ nmodes p' = nmodes q /\ ~ nt_applies p /\ ~ nt_applies q.
Proof.
  cbv zeta. destruct (s_ok 3 1 1 2 ltac:(lra) ltac:(lra) jk) as (out & H). destruct (s_ok 0 1 2 2 ltac:(lra) ltac:(lra) jk') as (out' & H').
  destruct (s_ok 6 5 8 10 ltac:(lra) ltac:(lra) jk'') as (out'' & H'').
  exists out, out', out''. split; [apply la_ex_ok|]. split; [apply la_ex_unique|]. split; [apply s_lg|]. split; [exact H|]. split; [exact H'|]. split; [exact H''|].
  split; [apply s_same|]. split; [apply s_same|]. split; [apply s_bd; lra|]. split; [apply s_bd; lra|]. split; [apply s_bd; lra|]. split.
  - constructor; try (intros; cbn; lra). intros l t Hl _. rewrite !s_source by exact Hl. lra.
  - split; [unfold albedo_s, scl, albedo, fwd; cbn; lra|]. repeat (split; [reflexivity|]). split; intros (E & _); discriminate.
Qed.
