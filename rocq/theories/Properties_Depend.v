(** Property C76: how the reported radiation depends on the optical properties. *)
From Coq Require Import String Reals Lra Lia List Bool Arith ZArith.
From Verif Require Import Base Tensor Spec M_LinAlg Spec_RTE M_Subroutines M_Assemble M_Pydisort Spec_Sol Spec_Valid Spec_Calls Spec_Phys Spec_Mono Spec_Depend
  P_Sub3 P_Pydisort4 P_Max3 P_Mono P_Depend P_Depend2 Examples Examples2 Examples3 Examples5 Examples8.
Import ListNotations.
Local Open Scope R_scope.

(** C76: the radiation depends continuously on the optical properties. For an atmosphere over a surface that
    does not reflect everything and for every wanted accuracy [eps] there is a distance [d] such that every
    physical atmosphere whose albedos, phase functions, forward peaks, emission and boundary values are
    within [d] (same layers, beam and surface) has intensities and fluxes within [eps], at all depths. *)
Theorem C76_continuous :
  forall p lg la jk out, linalg_ok la -> leggauss_ok (half p) (lg (half p)) -> pydisort p lg la jk = Ok out ->
  forall w vn vp rho, double_gauss (half p) (po_mu out) w -> boundary_data p vn vp rho -> scattering_kept p ->
  (forall i, (i < half p)%nat -> reflectance p (po_mu out) w (rho 0%nat) i < 1) ->
  forall eps, 0 < eps -> exists d, 0 < d /\
  forall q la' jk' out' vn' vp', linalg_ok la' -> pydisort q lg la' jk' = Ok out' -> boundary_data q vn' vp' rho -> same_setting p q -> nearby d p q vn vp vn' vp' ->
  scattering_kept q -> phase_nonneg q (po_mu out) -> passive_surface q (po_mu out) w (rho 0%nat) -> forall tau, depths_ok p tau ->
  (exists A B, po_u0 out tau false false false = Ok (PVal (PT A)) /\ po_u0 out' tau false false false = Ok (PVal (PT B)) /\ twithin eps A B) /\
  (exists A B, po_flux_up out tau false false = Ok (PVal (PT A)) /\ po_flux_up out' tau false false = Ok (PVal (PT B)) /\ twithin eps A B) /\
  (exists A A0 B B0, po_flux_down out tau false false = Ok (PTup [PT A; PT A0]) /\ po_flux_down out' tau false false = Ok (PTup [PT B; PT B0]) /\ twithin eps A B).
Proof. exact call_continuous. Qed.
Print Assumptions C76_continuous.
(** A two-layer atmosphere with a beam, a forward peak, thermal emission and a reflecting surface, and at
    every distance [d] another one with a different albedo. *)
Example C76_continuous_nonvacuous jk : let p := p_mo (1/2) (1/2) 3 1 2 1 in
  exists out w, linalg_ok la_full /\ leggauss_ok (half p) (lg_12 (half p)) /\ pydisort p lg_12 la_full jk = Ok out /\
  double_gauss (half p) (po_mu out) w /\ boundary_data p (fun _ => 2) (fun _ => 1) (fun _ _ _ => 1/2) /\ scattering_kept p /\
  (forall i, (i < half p)%nat -> reflectance p (po_mu out) w (fun _ _ => 1/2) i < 1) /\
  forall d jk', 0 < d -> exists q out', pydisort q lg_12 la_full jk' = Ok out' /\ boundary_data q (fun _ => 2) (fun _ => 1) (fun _ _ _ => 1/2) /\ same_setting p q /\
    nearby d p q (fun _ => 2) (fun _ => 1) (fun _ => 2) (fun _ => 1) /\ scattering_kept q /\ phase_nonneg q (po_mu out) /\ passive_surface q (po_mu out) w (fun _ _ => 1/2) /\
    albedo p 0 < albedo q 0.
Proof.
  cbv zeta. destruct (mo_ok (1/2) (1/2) 3 1 2 1 ltac:(lra) ltac:(lra) ltac:(lra) ltac:(lra) jk) as (out & H).
  destruct (mo_facts (1/2) (1/2) 3 1 2 1 ltac:(lra) ltac:(lra) ltac:(lra) jk out H) as (w & F1 & F2 & F3 & F4 & F5).
  assert (K : forall om, 1/2 <= om <= 3/5 -> scattering_kept (p_mo om (1/2) 3 1 2 1)).
  { intros om Hom [|[|l]] Hl; [| |cbn in Hl; lia]; unfold albedo_s, scl, albedo, fwd; cbn -[Rle Rlt]; split; try lra; right; try lra.
    apply (Rmult_lt_reg_r (1 - om * (1 / 4))); [lra|]. replace ((1 - 1 / 4) * om / (1 - om * (1 / 4)) * (1 - om * (1 / 4))) with ((1 - 1 / 4) * om) by (field; lra). lra. }
  exists out, w. split; [exact la_full_ok|]. split; [exact lg_12_ok1|]. split; [exact H|]. split; [exact F1|]. split; [apply mo_bd; lra|]. split; [apply K; lra|].
  split; [intros i Hi; rewrite F5 by exact Hi; lra|]. intros d jk' Hd. set (h := Rmin d (1/10)). assert (H0 : 0 < h) by (apply Rmin_pos; lra). assert (H1 : h <= d) by apply Rmin_l. assert (H2 : h <= 1/10) by apply Rmin_r. clearbody h.
  destruct (mo_ok (1/2 + h) (1/2) 3 1 2 1 ltac:(lra) ltac:(lra) ltac:(lra) ltac:(lra) jk') as (out' & H').
  destruct (mo_facts (1/2 + h) (1/2) 3 1 2 1 ltac:(lra) ltac:(lra) ltac:(lra) jk' out' H') as (w' & G1 & G2 & G3 & G4 & G5). pose proof (same_mu _ _ _ _ _ _ _ _ _ H H' eq_refl) as E. rewrite <- E in *.
  exists (p_mo (1/2 + h) (1/2) 3 1 2 1), out'. split; [exact H'|]. split; [apply mo_bd; lra|]. split; [constructor; reflexivity|]. split; [|split; [apply K; lra|split; [exact G2|split]]].
  - constructor.
    + intros [|[|l]] Hl; [| |cbn in Hl; lia]; unfold albedo; cbn -[Rle Rlt Rabs]; apply Rabs_le; lra.
    + intros l k Hl Hk. unfold phase. cbn -[Rle Rlt Rabs Rminus]. rewrite Rminus_eq_0, Rabs_R0. lra.
    + intros l Hl. unfold fwd. cbn -[Rle Rlt Rabs Rminus]. rewrite Rminus_eq_0, Rabs_R0. lra.
    + intros l t Hl _. rewrite !mo_source by exact Hl. rewrite Rminus_eq_0, Rabs_R0. lra.
    + intros i Hi. rewrite Rminus_eq_0, Rabs_R0. lra.
    + intros i Hi. rewrite Rminus_eq_0, Rabs_R0. lra.
  - destruct F4 as [c1 c2 c3]. constructor; [exact c1|exact c2|exact c3].
  - unfold albedo. cbn. lra.
Qed.

(** C76, with constants: if the radiation in [p] is at most [M], then the change to [q] moves the intensities by at
    most [e] and the fluxes by at most [PI * e] (plus, downward, the change of the scaled beam), where [e] is the
    largest ratio of the change in scattering, extinction and emission to the absorption of [q]. *)
Theorem C76_change_bound :
  forall p q lg la la' jk jk' out out', linalg_ok la -> linalg_ok la' -> leggauss_ok (half p) (lg (half p)) ->
  pydisort p lg la jk = Ok out -> pydisort q lg la' jk' = Ok out' ->
  forall w vn vp vn' vp' rho, double_gauss (half p) (po_mu out) w -> boundary_data p vn vp rho -> boundary_data q vn' vp' rho ->
  same_setting p q -> scattering_kept p -> scattering_kept q -> phase_nonneg q (po_mu out) -> passive_surface q (po_mu out) w (rho 0%nat) ->
  forall e M, changes_by e M p q (po_mu out) w vn vp vn' vp' (rho 0%nat) -> u0_bounded p out M -> forall tau, depths_ok p tau ->
  (exists A B, po_u0 out tau false false false = Ok (PVal (PT A)) /\ po_u0 out' tau false false false = Ok (PVal (PT B)) /\ twithin e A B) /\
  (exists A B, po_flux_up out tau false false = Ok (PVal (PT A)) /\ po_flux_up out' tau false false = Ok (PVal (PT B)) /\ twithin (PI * e) A B) /\
  (exists A A0 B B0, po_flux_down out tau false false = Ok (PTup [PT A; PT A0]) /\ po_flux_down out' tau false false = Ok (PTup [PT B; PT B0]) /\ twithin (PI * e + p_I0 q * depth_dist p q) A B).
Proof. exact call_change. Qed.
Print Assumptions C76_change_bound.
Example C76_change_bound_nonvacuous jk jk' : let p := p_mo (1/2) (1/2) 3 1 2 1 in let q := p_mo (501/1000) (1/2) 3 1 2 1 in
  exists out out' w M, linalg_ok la_full /\ leggauss_ok (half p) (lg_12 (half p)) /\ pydisort p lg_12 la_full jk = Ok out /\ pydisort q lg_12 la_full jk' = Ok out' /\
  double_gauss (half p) (po_mu out) w /\ boundary_data p (fun _ => 2) (fun _ => 1) (fun _ _ _ => 1/2) /\ boundary_data q (fun _ => 2) (fun _ => 1) (fun _ _ _ => 1/2) /\
  same_setting p q /\ scattering_kept p /\ scattering_kept q /\ phase_nonneg q (po_mu out) /\ passive_surface q (po_mu out) w (fun _ _ => 1/2) /\
  changes_by (1/20 * (M + 1)) M p q (po_mu out) w (fun _ => 2) (fun _ => 1) (fun _ => 2) (fun _ => 1) (fun _ _ => 1/2) /\ u0_bounded p out M.
Proof.
  cbv zeta. destruct (mo_ok (1/2) (1/2) 3 1 2 1 ltac:(lra) ltac:(lra) ltac:(lra) ltac:(lra) jk) as (out & H). destruct (mo_ok (501/1000) (1/2) 3 1 2 1 ltac:(lra) ltac:(lra) ltac:(lra) ltac:(lra) jk') as (out' & H').
  destruct (mo_facts (501/1000) (1/2) 3 1 2 1 ltac:(lra) ltac:(lra) ltac:(lra) jk' out' H') as (w & F1 & F2 & F3 & F4 & F5). pose proof (same_mu _ _ _ _ _ _ _ _ _ H H' eq_refl) as E. rewrite <- E in *.
  assert (B1 : boundary_data (p_mo (1/2) (1/2) 3 1 2 1) (fun _ => 2) (fun _ => 1) (fun _ _ _ => 1/2)) by (apply mo_bd; lra).
  destruct (u0_bounded_ex (p_mo (1/2) (1/2) 3 1 2 1) lg_12 la_full jk out w _ _ _ la_full_ok lg_12_ok1 H F1 B1) as (M & HM & HB).
  exists out, out', w, M. split; [exact la_full_ok|]. split; [exact lg_12_ok1|]. split; [exact H|]. split; [exact H'|]. split; [exact F1|]. split; [exact B1|]. split; [apply mo_bd; lra|].
  split; [constructor; reflexivity|]. split; [|split; [|split; [exact F2|split; [exact F4|split; [|exact HB]]]]].
  - intros [|[|l]] Hl; [| |cbn in Hl; lia]; unfold albedo_s, scl, albedo, fwd; cbn -[Rle Rlt]; split; try lra; right; lra.
  - intros [|[|l]] Hl; [| |cbn in Hl; lia]; unfold albedo_s, scl, albedo, fwd; cbn -[Rle Rlt]; split; try lra; right; lra.
  - pose proof PI2_3_2 as P32. pose proof PI_RGT_0.
    assert (HI4 : 0 < 3 / (4 * PI) <= 1/2). { split; [apply Rdiv_lt_0_compat; lra|]. apply (Rmult_le_reg_r (4 * PI)); [lra|]. unfold Rdiv. rewrite Rmult_assoc, Rinv_l by lra. lra. }
    assert (HI : 0 < 3 / PI <= 1). { split; [apply Rdiv_lt_0_compat; lra|]. apply (Rmult_le_reg_r PI); [lra|]. unfold Rdiv. rewrite Rmult_assoc, Rinv_l by lra. lra. }
    assert (HD : depth_dist (p_mo (1/2) (1/2) 3 1 2 1) (p_mo (501/1000) (1/2) 3 1 2 1) = 1/4000).
    { unfold depth_dist, peak_dist, albedo, fwd, bot_of, top_of. cbn -[Rabs]. replace (1 / 2 * (1 / 4) - 501 / 1000 * (1 / 4)) with (- (1/4000)) by lra.
      replace (9 / 10 * 0 - 9 / 10 * 0) with 0 by ring. rewrite Rabs_Ropp, Rabs_R0, Rabs_pos_eq by lra. lra. }
    constructor.
    + intros l t Hl _. rewrite HD, !mo_source by exact Hl.
      unfold peak_dist, scattering_dist, scattering_size. change (ncoeffs (p_mo (501/1000) (1/2) 3 1 2 1)) with 2%nat. cbn [rsum INR].
      destruct l as [|[|l]]; [| |cbn in Hl; lia]; unfold scattering, albedo, fwd, phase; cbn -[Rabs Rle Rlt Rdiv Rmult Rplus Rminus IZR].
      * replace (1 / 2 * (1 / 4) - 501 / 1000 * (1 / 4)) with (- (1/4000)) by lra. replace (1 / 2 * (1 - 1 / 4) - 501 / 1000 * (1 - 1 / 4)) with (- (3/4000)) by lra.
        replace (1 / 2 * (2 / 5 - 1 / 4) - 501 / 1000 * (2 / 5 - 1 / 4)) with (- (3/20000)) by lra. replace ((1 - 1 / 2) * 1 - (1 - 501 / 1000) * 1) with (1/1000) by lra.
        rewrite !Rabs_Ropp, !Rabs_pos_eq by lra. set (c := 3 / (4 * PI)) in *. nra.
      * replace (9 / 10 * 0 - 9 / 10 * 0) with 0 by ring. rewrite !Rminus_eq_0, !Rabs_R0, !Rabs_pos_eq by lra. set (c := 3 / (4 * PI)) in *. nra.
    + intros i _. rewrite Rminus_eq_0, Rabs_R0. lra.
    + intros i Hi. rewrite F5, HD by exact Hi. unfold reflects. cbn -[Rabs Rle Rlt Rdiv Rmult Rplus Rminus IZR]. rewrite Rminus_eq_0, Rabs_R0, Rabs_pos_eq by lra. set (c := 3 / PI) in *. nra.
Qed.
