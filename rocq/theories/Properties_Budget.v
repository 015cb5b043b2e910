(** Properties C101-C102: the energy budget; emission and illumination are complementary. *)
From Coq Require Import String Reals Lra Lia List Bool Arith ZArith.
From Coquelicot Require Import Coquelicot.
From Verif Require Import Base Tensor Spec M_LinAlg Spec_RTE M_Subroutines M_Assemble M_Pydisort Spec_Sol Spec_Valid Spec_Calls Spec_Unique Spec_Phys Spec_Budget
  P_Sub P_Sub3 P_Pydisort4 P_Max3 P_Max4 P_Super P_Budget P_Kirch Examples Examples2 Examples3 Examples4.
Import ListNotations.
Local Open Scope R_scope.

(** C101: the net upward flux (upward minus downward diffuse minus direct) reported for any two depths.
    Between them at most [4 PI S] per unit optical depth is produced, where [S] bounds the emission; in
    particular, without emission the net flux never decreases downwards: every slab absorbs. What enters
    at the top is the prescribed illumination and the beam. A surface that does not emit sends up at most
    what arrives. Layers whose scattering is dropped (below the cut-off) are included. *)
Theorem C101_energy_budget :
  forall p lg la jk out, linalg_ok la -> leggauss_ok (half p) (lg (half p)) -> pydisort p lg la jk = Ok out ->
  forall w vn vp rho, double_gauss (half p) (po_mu out) w -> boundary_data p vn vp rho ->
  phase_nonneg p (po_mu out) -> passive_surface p (po_mu out) w (rho 0%nat) -> beam_phase_nonneg p (po_mu out) ->
  (forall l t, (l < nlayers p)%nat -> top_of p l <= t <= bot_of p l -> 0 <= source p l t) ->
  (forall i, (i < half p)%nat -> 0 <= vn i) -> (forall i, (i < half p)%nat -> 0 <= vp i) ->
  exists up dn,
    reports p (po_flux_up out) up /\ reports_down p (po_flux_down out) dn (direct p) /\
    dn 0 + direct p 0 = received p (po_mu out) w vn /\
    (forall S, (forall l t, (l < nlayers p)%nat -> top_of p l <= t <= bot_of p l -> (1 - albedo p l) * source p l t <= S) ->
       forall t1 t2, 0 <= t1 -> t1 <= t2 -> t2 <= bottom p ->
       up t1 - (dn t1 + direct p t1) <= up t2 - (dn t2 + direct p t2) + 4 * PI * S * (t2 - t1)) /\
    (returns_no_more p (po_mu out) w (rho 0%nat) -> (forall i, (i < half p)%nat -> vp i = 0) -> up (bottom p) <= dn (bottom p) + direct p (bottom p)).
Proof. exact call_budget. Qed.
Print Assumptions C101_energy_budget.
Example C101_nonvacuous jk : let p := px 3 1 1 2 in exists out w, linalg_ok (la_ex []) /\ leggauss_ok (half p) (lg_12 (half p)) /\
  pydisort p lg_12 (la_ex []) jk = Ok out /\ double_gauss (half p) (po_mu out) w /\ boundary_data p (fun _ => 1) (fun _ => 1) (fun _ _ _ => 1 / 2) /\
  phase_nonneg p (po_mu out) /\ passive_surface p (po_mu out) w (fun _ _ => 1 / 2) /\ beam_phase_nonneg p (po_mu out) /\
  (forall l t, (l < nlayers p)%nat -> top_of p l <= t <= bot_of p l -> 0 <= source p l t) /\
  (forall l t, (l < nlayers p)%nat -> top_of p l <= t <= bot_of p l -> (1 - albedo p l) * source p l t <= 3 / 2) /\ 0 < p_I0 p /\ 0 < albedo_s p 0.
Proof.
  cbv zeta. destruct (s_ok 3 1 1 2 ltac:(lra) ltac:(lra) jk) as (out & H). destruct (s_facts 3 1 1 2 jk out H) as (w & F1 & F2 & F3 & F4 & _).
  exists out, w. split; [apply la_ex_ok|]. split; [apply s_lg|]. split; [exact H|]. split; [exact F1|]. split; [apply s_bd; lra|]. split; [exact F2|]. split; [exact F4|]. split; [exact F3|].
  split; [intros l t Hl _; rewrite s_source by exact Hl; lra|]. split; [intros l t Hl _; rewrite s_source by exact Hl|].
  - assert (l = 0)%nat as -> by (cbn in Hl; lia). unfold albedo. cbn. lra.
  - split; [cbn; lra|]. unfold albedo_s, scl, albedo, fwd. cbn. lra.
Qed.

(** C101: without emission, what the surface absorbs is not negative and not more than what enters at
    the top minus what leaves there. In particular no atmosphere reflects more than it receives. *)
Theorem C101_reflects_no_more_than_it_receives :
  forall p lg la jk out, linalg_ok la -> leggauss_ok (half p) (lg (half p)) -> pydisort p lg la jk = Ok out ->
  forall w vn vp rho, double_gauss (half p) (po_mu out) w -> boundary_data p vn vp rho ->
  phase_nonneg p (po_mu out) -> passive_surface p (po_mu out) w (rho 0%nat) -> beam_phase_nonneg p (po_mu out) ->
  (forall l t, (l < nlayers p)%nat -> top_of p l <= t <= bot_of p l -> 0 <= source p l t) ->
  (forall i, (i < half p)%nat -> 0 <= vn i) -> (forall i, (i < half p)%nat -> 0 <= vp i) ->
  (forall l t, (l < nlayers p)%nat -> top_of p l <= t <= bot_of p l -> source p l t = 0) ->
  (forall i, (i < half p)%nat -> vp i = 0) -> returns_no_more p (po_mu out) w (rho 0%nat) ->
  exists up dn, reports p (po_flux_up out) up /\ reports_down p (po_flux_down out) dn (direct p) /\
    0 <= dn (bottom p) + direct p (bottom p) - up (bottom p) <= received p (po_mu out) w vn - up 0.
Proof. exact call_returns. Qed.
Print Assumptions C101_reflects_no_more_than_it_receives.
Example C101_reflects_nonvacuous jk : let p := px 3 0 1 0 in exists out w, linalg_ok (la_ex []) /\ leggauss_ok (half p) (lg_12 (half p)) /\
  pydisort p lg_12 (la_ex []) jk = Ok out /\ double_gauss (half p) (po_mu out) w /\ boundary_data p (fun _ => 1) (fun _ => 0) (fun _ _ _ => 1 / 2) /\
  phase_nonneg p (po_mu out) /\ passive_surface p (po_mu out) w (fun _ _ => 1 / 2) /\ beam_phase_nonneg p (po_mu out) /\
  (forall l t, (l < nlayers p)%nat -> top_of p l <= t <= bot_of p l -> source p l t = 0) /\
  returns_no_more p (po_mu out) w (fun _ _ => 1 / 2) /\ 0 < p_I0 p /\ 0 < albedo_s p 0.
Proof.
  cbv zeta. destruct (s_ok 3 0 1 0 ltac:(lra) ltac:(lra) jk) as (out & H). destruct (s_facts 3 0 1 0 jk out H) as (w & F1 & F2 & F3 & F4 & _).
  exists out, w. split; [apply la_ex_ok|]. split; [apply s_lg|]. split; [exact H|]. split; [exact F1|]. split; [apply s_bd; lra|]. split; [exact F2|]. split; [exact F4|]. split; [exact F3|].
  split; [intros l t Hl _; rewrite s_source by exact Hl; lra|]. split.
  - assert (E : forall y, returned (px 3 0 1 0) (po_mu out) w (fun _ _ => 1 / 2) y = 1 / 2).
    { intros y. unfold returned. change (Nat.ltb 0 (length (p_BDRF (px 3 0 1 0)))) with true. cbn match.
      rewrite rsum_scal_r, (dg_first (half (px 3 0 1 0)) (po_mu out) w); [field|cbn; lia|exact F1]. }
    constructor; intros; rewrite E; lra.
  - split; [cbn; lra|]. unfold albedo_s, scl, albedo, fwd. cbn. lra.
Qed.

(** C102: emission and illumination are complementary. Two answered calls for the same layers and
    surface without a beam, whose sources add up to those of equilibrium at the intensity [B], report
    intensities that add up to [B] in every direction at every depth, and fluxes that add up to [PI * B].
    (One call in which everything emits and nothing comes in from above, the other with the isotropic
    illumination [B] only: what is emitted is what is not reflected, Kirchhoff's law.) *)
Theorem C102_emission_is_absorption :
  forall p p' lg la la' jk jk' out out', linalg_ok la -> linalg_ok la' -> linalg_unique la -> leggauss_ok (half p) (lg (half p)) ->
  pydisort p lg la jk = Ok out -> pydisort p' lg la' jk' = Ok out' -> same_medium p' p -> scattering_kept p ->
  forall w vn vp vn' vp' rho B, double_gauss (half p) (po_mu out) w -> boundary_data p vn vp rho -> boundary_data p' vn' vp' rho ->
  complementary B p p' (po_mu out) w (rho 0%nat) vn vp vn' vp' -> forall tau, depths_ok p tau ->
  (exists A A', po_u0 out tau false false false = Ok (PVal (PT A)) /\ po_u0 out' tau false false false = Ok (PVal (PT A')) /\ add_up A A' B) /\
  (exists A A', po_flux_up out tau false false = Ok (PVal (PT A)) /\ po_flux_up out' tau false false = Ok (PVal (PT A')) /\ add_up A A' (PI * B)) /\
  (exists A A0 A' A0', po_flux_down out tau false false = Ok (PTup [PT A; PT A0]) /\ po_flux_down out' tau false false = Ok (PTup [PT A'; PT A0']) /\ add_up A A' (PI * B)).
Proof. exact call_complement. Qed.
Print Assumptions C102_emission_is_absorption.
Example C102_nonvacuous jk jk' : let p := px 0 1 (1 / 2) 2 in let p' := px 0 0 (3 / 2) 0 in exists out out' w,
  linalg_ok (la_ex []) /\ linalg_unique (la_ex []) /\ leggauss_ok (half p) (lg_12 (half p)) /\
  pydisort p lg_12 (la_ex []) jk = Ok out /\ pydisort p' lg_12 (la_ex []) jk' = Ok out' /\ same_medium p' p /\ scattering_kept p /\
  double_gauss (half p) (po_mu out) w /\ boundary_data p (fun _ => 1 / 2) (fun _ => 1) (fun _ _ _ => 1 / 2) /\ boundary_data p' (fun _ => 3 / 2) (fun _ => 0) (fun _ _ _ => 1 / 2) /\
  complementary 2 p p' (po_mu out) w (fun _ _ => 1 / 2) (fun _ => 1 / 2) (fun _ => 1) (fun _ => 3 / 2) (fun _ => 0) /\ depths_ok p [0; 1 / 2; 1] /\ 0 < albedo_s p 0.
Proof.
  cbv zeta. destruct (s_ok 0 1 (1 / 2) 2 ltac:(lra) ltac:(lra) jk) as (out & H). destruct (s_ok 0 0 (3 / 2) 0 ltac:(lra) ltac:(lra) jk') as (out' & H').
  destruct (s_facts 0 1 (1 / 2) 2 jk out H) as (w & F1 & F2 & F3 & F4 & F5).
  exists out, out', w. split; [apply la_ex_ok|]. split; [apply la_ex_unique|]. split; [apply s_lg|]. split; [exact H|]. split; [exact H'|]. split; [apply s_same|]. split; [apply s_kept|].
  split; [exact F1|]. split; [apply s_bd; lra|]. split; [apply s_bd; lra|]. split; [|split].
  - constructor.
    + split; reflexivity.
    + intros l t Hl _. rewrite !s_source by exact Hl. lra.
    + intros i Hi. lra.
    + intros i Hi. rewrite F5 by exact Hi. lra.
  - intros t Ht. cbn in Ht. assert (E : bottom (px 0 1 (1 / 2) 2) = 5 / 4) by reflexivity. rewrite E. destruct Ht as [<-|[<-|[<-|[]]]]; lra.
  - unfold albedo_s, scl, albedo, fwd. cbn. lra.
Qed.
