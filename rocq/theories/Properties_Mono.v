(** Properties C70-C71: how the reported radiation depends on the sources, the absorption and the surface. *)
From Coq Require Import String Reals Lra Lia List Bool Arith ZArith.
From Verif Require Import Base Tensor Spec M_LinAlg Spec_RTE M_Subroutines M_Assemble M_Pydisort Spec_Sol Spec_Valid Spec_Calls Spec_Phys Spec_Mono
  P_Sub3 P_Pydisort4 P_Max3 P_Mono Examples Examples2 Examples3 Examples5 Examples8.
Import ListNotations.
Local Open Scope R_scope.

(** C70: stability. Two calls with the same layers, surface and beam, whose other sources differ by at
    most [e], report intensities that differ by at most [e] and fluxes that differ by at most [PI * e]. *)
Theorem C70_stability :
  forall p q lg la la' jk jk' out out', linalg_ok la -> linalg_ok la' -> leggauss_ok (half p) (lg (half p)) ->
  pydisort p lg la jk = Ok out -> pydisort q lg la' jk' = Ok out' -> same_medium p q ->
  forall w vn vp vn' vp' rho, double_gauss (half p) (po_mu out) w -> boundary_data p vn vp rho -> boundary_data q vn' vp' rho ->
  phase_nonneg q (po_mu out) -> passive_surface q (po_mu out) w (rho 0%nat) ->
  forall e, sources_within e p q (po_mu out) w vn vp vn' vp' (rho 0%nat) -> forall tau, depths_ok p tau ->
  (exists A B, po_u0 out tau false false false = Ok (PVal (PT A)) /\ po_u0 out' tau false false false = Ok (PVal (PT B)) /\ twithin e A B) /\
  (exists A B, po_flux_up out tau false false = Ok (PVal (PT A)) /\ po_flux_up out' tau false false = Ok (PVal (PT B)) /\ twithin (PI * e) A B) /\
  (exists A A0 B B0, po_flux_down out tau false false = Ok (PTup [PT A; PT A0]) /\ po_flux_down out' tau false false = Ok (PTup [PT B; PT B0]) /\ twithin (PI * e) A B).
Proof.
  intros p q lg la la' jk jk' out out' H1 H2 H3 H4 H5 S w vn vp vn' vp' rho H6 H7 H8 H9 H10 e H11.
  exact (call_near p q lg la la' jk jk' out out' H1 H2 H3 H4 H5 w vn vp vn' vp' rho rho H6 H7 H8 H9 H10 e S eq_refl H11).
Qed.
Print Assumptions C70_stability.
Example C70_nonvacuous jk jk' : let p := p_mo (1/2) (1/2) 3 1 2 1 in let q := p_mo (1/2) (1/2) 3 (21/20) (19/10) (11/10) in
  exists out out' w, linalg_ok la_full /\ leggauss_ok (half p) (lg_12 (half p)) /\ pydisort p lg_12 la_full jk = Ok out /\ pydisort q lg_12 la_full jk' = Ok out' /\ same_medium p q /\
  double_gauss (half p) (po_mu out) w /\ boundary_data p (fun _ => 2) (fun _ => 1) (fun _ _ _ => 1/2) /\ boundary_data q (fun _ => 19/10) (fun _ => 21/20) (fun _ _ _ => 1/2) /\
  phase_nonneg q (po_mu out) /\ passive_surface q (po_mu out) w (fun _ _ => 1/2) /\
  sources_within (1/10) p q (po_mu out) w (fun _ => 2) (fun _ => 1) (fun _ => 19/10) (fun _ => 21/20) (fun _ _ => 1/2) /\ 0 < albedo_s p 0.
Proof.
  cbv zeta. destruct (mo_ok (1/2) (1/2) 3 1 2 1 ltac:(lra) ltac:(lra) ltac:(lra) ltac:(lra) jk) as (out & H). destruct (mo_ok (1/2) (1/2) 3 (21/20) (19/10) (11/10) ltac:(lra) ltac:(lra) ltac:(lra) ltac:(lra) jk') as (out' & H').
  destruct (mo_facts (1/2) (1/2) 3 (21/20) (19/10) (11/10) ltac:(lra) ltac:(lra) ltac:(lra) jk' out' H') as (w & F1 & F2 & F3 & F4 & F5). pose proof (same_mu _ _ _ _ _ _ _ _ _ H H' eq_refl) as E.
  exists out, out', w. rewrite E. split; [exact la_full_ok|]. split; [exact lg_12_ok1|]. split; [exact H|]. split; [exact H'|]. split; [constructor; reflexivity|]. split; [exact F1|].
  split; [apply mo_bd; lra|]. split; [apply mo_bd; lra|]. split; [exact F2|]. split; [exact F4|]. split.
  - constructor; [reflexivity| | |].
    + intros l t Hl _. rewrite !mo_source by exact Hl. apply Rabs_le. lra.
    + intros i _. apply Rabs_le. lra.
    + intros i Hi. rewrite F5 by exact Hi. apply Rabs_le. lra.
  - unfold albedo_s, scl, albedo, fwd. cbn. lra.
Qed.

(** C71: monotony. Two calls with the same layer boundaries, phase functions and direction of the beam:
    if the second atmosphere absorbs no more, emits no less, is lit no less, and lies over a surface
    that reflects no less, then it has no less radiation, everywhere and in every direction. *)
Theorem C71_monotone_in_everything :
  forall p q lg la la' jk jk' out out', linalg_ok la -> linalg_ok la' -> leggauss_ok (half p) (lg (half p)) ->
  pydisort p lg la jk = Ok out -> pydisort q lg la' jk' = Ok out' ->
  forall w vn vp vn' vp' rho rho', double_gauss (half p) (po_mu out) w -> boundary_data p vn vp rho -> boundary_data q vn' vp' rho' ->
  phase_nonneg q (po_mu out) -> passive_surface q (po_mu out) w (rho' 0%nat) -> beam_phase_nonneg q (po_mu out) -> passive_surface p (po_mu out) w (rho 0%nat) ->
  sources_nonneg p vn vp -> dimmer p q (po_mu out) vn vp vn' vp' (rho 0%nat) (rho' 0%nat) -> forall tau, depths_ok p tau ->
  (exists A B, po_u0 out tau false false false = Ok (PVal (PT A)) /\ po_u0 out' tau false false false = Ok (PVal (PT B)) /\ tle A B) /\
  (exists A B, po_flux_up out tau false false = Ok (PVal (PT A)) /\ po_flux_up out' tau false false = Ok (PVal (PT B)) /\ tle A B) /\
  (exists A A0 B B0, po_flux_down out tau false false = Ok (PTup [PT A; PT A0]) /\ po_flux_down out' tau false false = Ok (PTup [PT B; PT B0]) /\ tle A B).
Proof. exact call_dim. Qed.
Print Assumptions C71_monotone_in_everything.
Example C71_nonvacuous jk jk' : let p := p_mo (1/2) (1/4) 3 1 1 1 in let q := p_mo (4/5) (1/2) 4 2 3 3 in
  exists out out' w, linalg_ok la_full /\ leggauss_ok (half p) (lg_12 (half p)) /\ pydisort p lg_12 la_full jk = Ok out /\ pydisort q lg_12 la_full jk' = Ok out' /\
  double_gauss (half p) (po_mu out) w /\ boundary_data p (fun _ => 1) (fun _ => 1) (fun _ _ _ => 1/4) /\ boundary_data q (fun _ => 3) (fun _ => 2) (fun _ _ _ => 1/2) /\
  phase_nonneg q (po_mu out) /\ passive_surface q (po_mu out) w (fun _ _ => 1/2) /\ beam_phase_nonneg q (po_mu out) /\ passive_surface p (po_mu out) w (fun _ _ => 1/4) /\
  sources_nonneg p (fun _ => 1) (fun _ => 1) /\ dimmer p q (po_mu out) (fun _ => 1) (fun _ => 1) (fun _ => 3) (fun _ => 2) (fun _ _ => 1/4) (fun _ _ => 1/2).
Proof.
  cbv zeta. destruct (mo_ok (1/2) (1/4) 3 1 1 1 ltac:(lra) ltac:(lra) ltac:(lra) ltac:(lra) jk) as (out & H). destruct (mo_ok (4/5) (1/2) 4 2 3 3 ltac:(lra) ltac:(lra) ltac:(lra) ltac:(lra) jk') as (out' & H').
  destruct (mo_facts (4/5) (1/2) 4 2 3 3 ltac:(lra) ltac:(lra) ltac:(lra) jk' out' H') as (w & F1 & F2 & F3 & F4 & F5). pose proof (same_mu _ _ _ _ _ _ _ _ _ H H' eq_refl) as E.
  exists out, out', w. rewrite E. split; [exact la_full_ok|]. split; [exact lg_12_ok1|]. split; [exact H|]. split; [exact H'|]. split; [exact F1|].
  split; [apply mo_bd; lra|]. split; [apply mo_bd; lra|]. split; [exact F2|]. split; [exact F4|]. split; [exact F3|]. split; [|split].
  - constructor; [intros; lra|intros; lra|]. intros i Hi. rewrite (mo_refl (1/2) (1/4) 3 1 1 1 (po_mu out') w i F1 Hi). lra.
  - constructor; try (intros; lra). intros l t Hl _. rewrite mo_source by exact Hl. lra.
  - constructor; try reflexivity; try (intros; cbn; lra).
    + intros l Hl. destruct l as [|[|l]]; [| |cbn in Hl; lia]; unfold albedo; cbn; lra.
    + intros l t Hl _. rewrite !mo_source by exact Hl. destruct l as [|[|l]]; [| |cbn in Hl; lia]; unfold albedo; cbn; lra.
Qed.
