(** Properties C94-C95: how far the influence of the boundaries reaches. *)
From Coq Require Import String Reals Lra Lia List Bool Arith ZArith.
From Verif Require Import Base Tensor Spec M_LinAlg Spec_RTE M_Subroutines M_Assemble M_Pydisort Spec_Sol Spec_Valid Spec_Calls Spec_Phys Spec_Mono Spec_Full Spec_Fade
  P_Sub3 P_Pydisort4 P_Max3 P_Mono P_Fade Examples Examples2 Examples3 Examples5 Examples7 Examples8.
Import ListNotations.
Local Open Scope R_scope.

(** C94: two calls with the same layers, surface and beam. A change [d1] of what enters at the top and a
    change [d2] of what enters at the bottom, beyond the change [e] of the emission, act on the azimuthal
    mean of the intensity at the optical depth [t] by at most [e + fading d1 d2 q t]: each fades
    exponentially with the absorption on the way. The fluxes change by at most [PI] times this. *)
Theorem C94_boundaries_fade :
  forall p q lg la la' jk jk' out out', linalg_ok la -> linalg_ok la' -> leggauss_ok (half p) (lg (half p)) ->
  pydisort p lg la jk = Ok out -> pydisort q lg la' jk' = Ok out' -> same_medium p q ->
  forall w vn vp vn' vp' rho, double_gauss (half p) (po_mu out) w -> boundary_data p vn vp rho -> boundary_data q vn' vp' rho ->
  forall e d1 d2, sources_near e d1 d2 p q (po_mu out) w vn vp vn' vp' (rho 0%nat) -> phase_nonneg q (po_mu out) -> passive_surface q (po_mu out) w (rho 0%nat) ->
  forall tau, depths_ok p tau -> let c := fun k => e + fading d1 d2 q (nth k tau 0) in
  (exists A B, po_u0 out tau false false false = Ok (PVal (PT A)) /\ po_u0 out' tau false false false = Ok (PVal (PT B)) /\ within_each [streams q; length tau] (fun idx => c (nth 1 idx 0%nat)) A B) /\
  (exists A B, po_flux_up out tau false false = Ok (PVal (PT A)) /\ po_flux_up out' tau false false = Ok (PVal (PT B)) /\ within_each [length tau] (fun idx => PI * c (nth 0 idx 0%nat)) A B) /\
  (exists A A0 B B0, po_flux_down out tau false false = Ok (PTup [PT A; PT A0]) /\ po_flux_down out' tau false false = Ok (PTup [PT B; PT B0]) /\ within_each [length tau] (fun idx => PI * c (nth 0 idx 0%nat)) A B).
Proof. exact call_fade. Qed.
Print Assumptions C94_boundaries_fade.

(** C94: the same for the intensity at every azimuth. *)
Theorem C94_boundaries_fade_every_azimuth :
  forall p q lg la la' jk jk' out out', linalg_ok la -> linalg_ok la' -> leggauss_ok (half p) (lg (half p)) ->
  pydisort p lg la jk = Ok out -> pydisort q lg la' jk' = Ok out' -> same_medium p q ->
  forall w vn vp vn' vp' rho, double_gauss (half p) (po_mu out) w -> boundary_data p vn vp rho -> boundary_data q vn' vp' rho ->
  forall e d1 d2, sources_near e d1 d2 p q (po_mu out) w vn vp vn' vp' (rho 0%nat) ->
  forall u u', po_u out = Some u -> po_u out' = Some u' -> p_phi0 p = p_phi0 q -> all_modes p -> all_modes q -> phase_positive q -> surface_positive q (po_mu out) w rho ->
  forall tau phi, depths_ok p tau -> exists A B, u tau phi false false false = Ok (PVal (PT A)) /\ u' tau phi false false false = Ok (PVal (PT B)) /\
  within_each [streams q; length tau; length phi] (fun idx => e + fading d1 d2 q (nth (nth 1 idx 0%nat) tau 0)) A B.
Proof. exact call_fade_full. Qed.
Print Assumptions C94_boundaries_fade_every_azimuth.
Example C94_nonvacuous jk jk' : let p := p_mo (1/2) (1/2) 3 1 2 1 in let q := p_mo (1/2) (1/2) 3 2 5 (11/10) in
  exists out out' w, linalg_ok la_full /\ leggauss_ok (half p) (lg_12 (half p)) /\ pydisort p lg_12 la_full jk = Ok out /\ pydisort q lg_12 la_full jk' = Ok out' /\ same_medium p q /\
  double_gauss (half p) (po_mu out) w /\ boundary_data p (fun _ => 2) (fun _ => 1) (fun _ _ _ => 1/2) /\ boundary_data q (fun _ => 5) (fun _ => 2) (fun _ _ _ => 1/2) /\
  phase_nonneg q (po_mu out) /\ passive_surface q (po_mu out) w (fun _ _ => 1/2) /\
  sources_near (1/10) 3 2 p q (po_mu out) w (fun _ => 2) (fun _ => 1) (fun _ => 5) (fun _ => 2) (fun _ _ => 1/2) /\ absorbed q 1 = 1/2 /\ absorbed q 2 = 3/5 /\ absorbed q 3 = 7/10.
Proof.
  cbv zeta. destruct (mo_ok (1/2) (1/2) 3 1 2 1 ltac:(lra) ltac:(lra) ltac:(lra) ltac:(lra) jk) as (out & H). destruct (mo_ok (1/2) (1/2) 3 2 5 (11/10) ltac:(lra) ltac:(lra) ltac:(lra) ltac:(lra) jk') as (out' & H').
  destruct (mo_facts (1/2) (1/2) 3 2 5 (11/10) ltac:(lra) ltac:(lra) ltac:(lra) jk' out' H') as (w & F1 & F2 & F3 & F4 & F5). pose proof (same_mu _ _ _ _ _ _ _ _ _ H H' eq_refl) as E.
  exists out, out', w. rewrite E. split; [exact la_full_ok|]. split; [exact lg_12_ok1|]. split; [exact H|]. split; [exact H'|]. split; [constructor; reflexivity|]. split; [exact F1|].
  split; [apply mo_bd; lra|]. split; [apply mo_bd; lra|]. split; [exact F2|]. split; [exact F4|]. split; [|split; [|split]].
  - constructor; try lra; [reflexivity| | |].
    + intros l t Hl _. rewrite !mo_source by exact Hl. apply Rabs_le. lra.
    + intros i _. apply Rabs_le. lra.
    + intros i Hi. rewrite F5 by exact Hi. apply Rabs_le. lra.
  - unfold absorbed, albedo, bot_of, top_of. cbn. rewrite (Rmin_left 1 1), (Rmin_right 1 0), (Rmin_left 1 3) by lra. lra.
  - unfold absorbed, albedo, bot_of, top_of. cbn. rewrite (Rmin_right 2 1), (Rmin_right 2 0), (Rmin_left 2 3) by lra. lra.
  - unfold absorbed, albedo, bot_of, top_of. cbn. rewrite (Rmin_right 3 1), (Rmin_right 3 0), (Rmin_left 3 3) by lra. lra.
Qed.
Example C94_azimuth_nonvacuous jk jk' : let p := p_az 3 1 2 1 in let q := p_az 3 2 5 (11/10) in exists out out' u u' w, linalg_ok la_full /\ leggauss_ok (half p) (lg_12 (half p)) /\
  pydisort p lg_12 la_full jk = Ok out /\ pydisort q lg_12 la_full jk' = Ok out' /\ po_u out = Some u /\ po_u out' = Some u' /\ same_medium p q /\ p_phi0 p = p_phi0 q /\
  all_modes p /\ all_modes q /\ double_gauss (half p) (po_mu out) w /\ boundary_data p (fun _ => 2) (fun _ => 1) (fun _ _ _ => 1/2) /\ boundary_data q (fun _ => 5) (fun _ => 2) (fun _ _ _ => 1/2) /\
  phase_positive q /\ surface_positive q (po_mu out) w (fun _ _ _ => 1/2) /\ sources_near (1/10) 3 2 p q (po_mu out) w (fun _ => 2) (fun _ => 1) (fun _ => 5) (fun _ => 2) (fun _ _ => 1/2).
Proof.
  cbv zeta. destruct (az_ok 3 1 2 1 ltac:(lra) ltac:(lra) jk) as (out & H). destruct (az_ok 3 2 5 (11/10) ltac:(lra) ltac:(lra) jk') as (out' & H').
  destruct (az_facts 3 1 2 1 jk out H) as (u & w & F1 & F2 & F3 & F4). destruct (az_facts 3 2 5 (11/10) jk' out' H') as (u' & _ & F1' & _ & _).
  exists out, out', u, u', w. split; [exact la_full_ok|]. split; [exact lg_12_ok1|]. split; [exact H|]. split; [exact H'|]. split; [exact F1|]. split; [exact F1'|]. split; [apply az_same|]. split; [reflexivity|].
  split; [apply az_modes|]. split; [apply az_modes|]. split; [exact F2|]. split; [apply az_bd; lra|]. split; [apply az_bd; lra|]. split; [apply az_positive|]. split; [apply az_surface; exact F2|].
  constructor; try lra; [reflexivity| | |].
  - intros l t Hl _. change (nlayers (p_az 3 2 5 (11/10))) with 2%nat in Hl. rewrite !az_source by exact Hl. apply Rabs_le. lra.
  - intros i _. apply Rabs_le. lra.
  - intros i Hi. change (reflectance (p_az 3 2 5 (11/10)) (po_mu out) w (fun _ _ => 1/2) i) with (reflectance (p_az 3 1 2 1) (po_mu out) w (fun _ _ => 1/2) i). rewrite F4 by exact Hi. apply Rabs_le. lra.
Qed.

(** C95: without a beam, layers that emit about [B] are filled with about [B]: whatever enters through
    the top and the bottom, the intensity differs from [B] at the optical depth [t] by at most the
    spread [e] of the emission and what is left there of the disturbances from the two boundaries. *)
Theorem C95_interior_is_thermal :
  forall p lg la jk out u, linalg_ok la -> leggauss_ok (half p) (lg (half p)) -> pydisort p lg la jk = Ok out -> po_u out = Some u -> all_modes p -> p_I0 p = 0 ->
  forall w vn vp rho, double_gauss (half p) (po_mu out) w -> boundary_data p vn vp rho -> phase_positive p -> surface_positive p (po_mu out) w rho ->
  forall B e d1 d2, 0 <= d1 -> 0 <= d2 -> (forall l t, (l < nlayers p)%nat -> top_of p l <= t <= bot_of p l -> Rabs (source p l t - B) <= e) ->
  (forall i, (i < half p)%nat -> Rabs (vn i - B) <= e + d1) -> (forall i, (i < half p)%nat -> Rabs (vp i - (1 - reflectance p (po_mu out) w (rho 0%nat) i) * B) <= (1 - reflectance p (po_mu out) w (rho 0%nat) i) * (e + d2)) ->
  forall tau phi, depths_ok p tau -> exists A, u tau phi false false false = Ok (PVal (PT A)) /\
  within_each [streams p; length tau; length phi] (fun idx => e + fading d1 d2 p (nth (nth 1 idx 0%nat) tau 0)) A (tsqueeze (mkT [streams p; length tau; length phi] (fun _ => B))).
Proof. exact call_thermal. Qed.
Print Assumptions C95_interior_is_thermal.
Example C95_nonvacuous jk : let p := p_az 0 1 5 2 in exists out u w, linalg_ok la_full /\ leggauss_ok (half p) (lg_12 (half p)) /\ pydisort p lg_12 la_full jk = Ok out /\ po_u out = Some u /\
  all_modes p /\ p_I0 p = 0 /\ double_gauss (half p) (po_mu out) w /\ boundary_data p (fun _ => 5) (fun _ => 1) (fun _ _ _ => 1/2) /\ phase_positive p /\ surface_positive p (po_mu out) w (fun _ _ _ => 1/2) /\
  (forall l t, (l < nlayers p)%nat -> top_of p l <= t <= bot_of p l -> Rabs (source p l t - 2) <= 0) /\ (forall i, (i < half p)%nat -> Rabs (5 - 2) <= 0 + 3) /\
  (forall i, (i < half p)%nat -> Rabs (1 - (1 - reflectance p (po_mu out) w (fun _ _ => 1/2) i) * 2) <= (1 - reflectance p (po_mu out) w (fun _ _ => 1/2) i) * (0 + 0)) /\ fading 3 0 p 3 = 3 * exp (- (2/5)).
Proof.
  cbv zeta. destruct (az_ok 0 1 5 2 ltac:(lra) ltac:(lra) jk) as (out & H). destruct (az_facts 0 1 5 2 jk out H) as (u & w & F1 & F2 & F3 & F4).
  exists out, u, w. split; [exact la_full_ok|]. split; [exact lg_12_ok1|]. split; [exact H|]. split; [exact F1|]. split; [apply az_modes|]. split; [reflexivity|]. split; [exact F2|]. split; [apply az_bd; lra|].
  split; [apply az_positive|]. split; [exact F3|]. split; [|split; [|split]].
  - intros l t Hl _. rewrite az_source by exact Hl. rewrite Rabs_pos_eq; lra.
  - intros i _. rewrite Rabs_pos_eq; lra.
  - intros i Hi. rewrite F4 by exact Hi. rewrite Rabs_pos_eq; lra.
  - unfold fading. rewrite Rmult_0_l, Rplus_0_r. f_equal. f_equal. f_equal. unfold absorbed, albedo, bot_of, top_of. cbn. rewrite (Rmin_right 3 1), (Rmin_right 3 0), (Rmin_left 3 3) by lra. lra.
Qed.
