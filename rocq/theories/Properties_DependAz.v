(** Property C107: how the reported intensity at every azimuth depends on the optical properties. *)
From Coq Require Import String Reals Lra Lia List Bool Arith ZArith.
From Verif Require Import Base Tensor Spec M_LinAlg Spec_RTE M_Subroutines M_Assemble M_Pydisort Spec_Sol Spec_Valid Spec_Calls Spec_Phys Spec_Mono Spec_Depend Spec_Full Spec_DependAz
  P_Sub3 P_Pydisort4 P_Max3 P_Mono P_Depend P_Depend2 P_DependAz P_DependAz2 Examples Examples2 Examples3 Examples5 Examples16.
Import ListNotations.
Local Open Scope R_scope.

(** C107: the intensity depends continuously on the optical properties, at every azimuth. For an atmosphere over a
    surface that does not reflect everything and for every wanted accuracy [eps] there is a distance [d] such that every
    atmosphere with a phase function that is nowhere negative and whose albedos, phase functions, forward peaks, emission
    and boundary values are within [d] (same layers, beam and surface) has intensities within [eps], at all depths, directions
    and azimuths. *)
Theorem C107_continuous :
  forall p lg la jk out u, linalg_ok la -> leggauss_ok (half p) (lg (half p)) -> pydisort p lg la jk = Ok out -> po_u out = Some u -> all_modes p -> not_all_forward p ->
  forall w vn vp rho, double_gauss (half p) (po_mu out) w -> boundary_data p vn vp rho -> (forall i, (i < half p)%nat -> reflectance p (po_mu out) w (rho 0%nat) i < 1) ->
  forall eps, 0 < eps -> exists d, 0 < d /\
  forall q la' jk' out' u' vn' vp', linalg_ok la' -> pydisort q lg la' jk' = Ok out' -> po_u out' = Some u' -> all_modes q -> boundary_data q vn' vp' rho -> same_setting p q -> p_phi0 p = p_phi0 q ->
  nearby d p q vn vp vn' vp' -> phase_positive q -> surface_positive q (po_mu out) w rho -> forall tau phi, depths_ok p tau ->
  exists A B, u tau phi false false false = Ok (PVal (PT A)) /\ u' tau phi false false false = Ok (PVal (PT B)) /\ twithin eps A B.
Proof. exact call_continuous_az. Qed.
Print Assumptions C107_continuous.
(** A two-layer atmosphere with a beam, a forward peak, thermal emission and a reflecting surface, and at
    every distance [d] another one with a different albedo. *)
Example C107_continuous_nonvacuous jk : let p := p_da (4/5) 3 1 2 1 in
  exists out u w, linalg_ok la_full /\ leggauss_ok (half p) (lg_12 (half p)) /\ pydisort p lg_12 la_full jk = Ok out /\ po_u out = Some u /\ all_modes p /\ not_all_forward p /\
  double_gauss (half p) (po_mu out) w /\ boundary_data p (fun _ => 2) (fun _ => 1) (fun _ _ _ => 1/2) /\
  (forall i, (i < half p)%nat -> reflectance p (po_mu out) w (fun _ _ => 1/2) i < 1) /\ nmodes p = 2%nat /\
  forall d jk', 0 < d -> exists q out' u', pydisort q lg_12 la_full jk' = Ok out' /\ po_u out' = Some u' /\ all_modes q /\ boundary_data q (fun _ => 2) (fun _ => 1) (fun _ _ _ => 1/2) /\
    same_setting p q /\ p_phi0 p = p_phi0 q /\ nearby d p q (fun _ => 2) (fun _ => 1) (fun _ => 2) (fun _ => 1) /\ phase_positive q /\ surface_positive q (po_mu out) w (fun _ _ _ => 1/2) /\
    albedo p 0 < albedo q 0.
Proof.
  cbv zeta. destruct (da_ok (4/5) 3 1 2 1 ltac:(lra) ltac:(lra) ltac:(lra) jk) as (out & H).
  destruct (da_facts (4/5) 3 1 2 1 jk out H) as (u & w & F1 & F2 & F3 & F4).
  exists out, u, w. split; [exact la_full_ok|]. split; [exact lg_12_ok1|]. split; [exact H|]. split; [exact F1|]. split; [apply da_modes; lra|]. split; [apply da_forward|]. split; [exact F2|]. split; [apply da_bd; lra|].
  split; [intros i Hi; rewrite F4 by exact Hi; lra|]. split; [reflexivity|].
  intros d jk' Hd. set (h := Rmin d (1/100)). assert (H0 : 0 < h) by (apply Rmin_pos; lra). assert (H1 : h <= d) by apply Rmin_l. assert (H2 : h <= 1/100) by apply Rmin_r. clearbody h.
  destruct (da_ok (4/5 + h) 3 1 2 1 ltac:(lra) ltac:(lra) ltac:(lra) jk') as (out' & H').
  destruct (da_facts (4/5 + h) 3 1 2 1 jk' out' H') as (u' & w' & G1 & G2 & G3 & G4).
  exists (p_da (4/5 + h) 3 1 2 1), out', u'. split; [exact H'|]. split; [exact G1|]. split; [apply da_modes; lra|]. split; [apply da_bd; lra|]. split; [constructor; reflexivity|]. split; [reflexivity|]. split; [|split; [apply da_positive; lra|split]].
  - constructor.
    + intros [|[|l]] Hl; [| |cbn in Hl; lia]; unfold albedo; cbn -[Rle Rlt Rabs]; apply Rabs_le; lra.
    + intros l k Hl Hk. unfold phase. cbn -[Rle Rlt Rabs Rminus]. rewrite Rminus_eq_0, Rabs_R0. lra.
    + intros l Hl. unfold fwd. cbn -[Rle Rlt Rabs Rminus]. rewrite Rminus_eq_0, Rabs_R0. lra.
    + intros l t Hl _. rewrite !da_source by exact Hl. rewrite Rminus_eq_0, Rabs_R0. lra.
    + intros i Hi. rewrite Rminus_eq_0, Rabs_R0. lra.
    + intros i Hi. rewrite Rminus_eq_0, Rabs_R0. lra.
  - destruct F3 as [c1 c2 c3]. constructor; [exact c1|exact c2|exact c3].
  - unfold albedo. cbn. lra.
Qed.

(** C107, with constants: if the intensity in [p] is at most [M], then the change to [q] moves it by at most [e] at every depth,
    direction and azimuth, where [e] is the largest ratio of the change in scattering, extinction and emission to the absorption
    of [q]. *)
Theorem C107_change_bound :
  forall p q lg la la' jk jk' out out' u u', linalg_ok la -> linalg_ok la' -> leggauss_ok (half p) (lg (half p)) ->
  pydisort p lg la jk = Ok out -> pydisort q lg la' jk' = Ok out' -> po_u out = Some u -> po_u out' = Some u' -> all_modes p -> all_modes q ->
  forall w vn vp vn' vp' rho, double_gauss (half p) (po_mu out) w -> boundary_data p vn vp rho -> boundary_data q vn' vp' rho ->
  same_setting p q -> p_phi0 p = p_phi0 q -> not_all_forward p -> not_all_forward q -> phase_positive q -> surface_positive q (po_mu out) w rho ->
  forall e M, moves_by e M p q (po_mu out) w vn vp vn' vp' rho -> u_bounded p u M -> forall tau phi, depths_ok p tau ->
  exists A B, u tau phi false false false = Ok (PVal (PT A)) /\ u' tau phi false false false = Ok (PVal (PT B)) /\ twithin e A B.
Proof. exact call_moves_by. Qed.
Print Assumptions C107_change_bound.
Example C107_change_bound_nonvacuous jk jk' : let p := p_da (4/5) 3 1 2 1 in let q := p_da (801/1000) 3 1 2 1 in
  exists out out' u u' w M, linalg_ok la_full /\ leggauss_ok (half p) (lg_12 (half p)) /\ pydisort p lg_12 la_full jk = Ok out /\ pydisort q lg_12 la_full jk' = Ok out' /\
  po_u out = Some u /\ po_u out' = Some u' /\ all_modes p /\ all_modes q /\
  double_gauss (half p) (po_mu out) w /\ boundary_data p (fun _ => 2) (fun _ => 1) (fun _ _ _ => 1/2) /\ boundary_data q (fun _ => 2) (fun _ => 1) (fun _ _ _ => 1/2) /\
  same_setting p q /\ p_phi0 p = p_phi0 q /\ not_all_forward p /\ not_all_forward q /\ phase_positive q /\ surface_positive q (po_mu out) w (fun _ _ _ => 1/2) /\
  moves_by (1/20 * (M + 1)) M p q (po_mu out) w (fun _ => 2) (fun _ => 1) (fun _ => 2) (fun _ => 1) (fun _ _ _ => 1/2) /\ u_bounded p u M.
Proof.
  cbv zeta. destruct (da_ok (4/5) 3 1 2 1 ltac:(lra) ltac:(lra) ltac:(lra) jk) as (out & H). destruct (da_ok (801/1000) 3 1 2 1 ltac:(lra) ltac:(lra) ltac:(lra) jk') as (out' & H').
  destruct (da_facts (4/5) 3 1 2 1 jk out H) as (u & w & F1 & F2 & F3 & F4). destruct (da_facts (801/1000) 3 1 2 1 jk' out' H') as (u' & w' & G1 & G2 & G3 & G4).
  assert (B1 : boundary_data (p_da (4/5) 3 1 2 1) (fun _ => 2) (fun _ => 1) (fun _ _ _ => 1/2)) by (apply da_bd; lra).
  assert (AM : all_modes (p_da (4/5) 3 1 2 1)) by (apply da_modes; lra).
  destruct (u_bounded_ex (p_da (4/5) 3 1 2 1) lg_12 la_full jk out u w _ _ _ la_full_ok lg_12_ok1 H F1 AM F2 B1) as (M & HM & HB).
  exists out, out', u, u', w, M. split; [exact la_full_ok|]. split; [exact lg_12_ok1|]. split; [exact H|]. split; [exact H'|]. split; [exact F1|]. split; [exact G1|]. split; [exact AM|]. split; [apply da_modes; lra|].
  split; [exact F2|]. split; [exact B1|]. split; [apply da_bd; lra|]. split; [constructor; reflexivity|]. split; [reflexivity|]. split; [apply da_forward|]. split; [apply da_forward|]. split; [apply da_positive; lra|].
  split; [destruct F3 as [c1 c2 c3]; constructor; [exact c1|exact c2|exact c3]|]. split; [|exact HB].
  pose proof PI2_3_2 as P32. pose proof PI_RGT_0.
  assert (HI4 : 0 < 3 / (4 * PI) <= 1/2). { split; [apply Rdiv_lt_0_compat; lra|]. apply (Rmult_le_reg_r (4 * PI)); [lra|]. unfold Rdiv. rewrite Rmult_assoc, Rinv_l by lra. lra. }
  assert (HI : 0 < 3 / PI <= 1). { split; [apply Rdiv_lt_0_compat; lra|]. apply (Rmult_le_reg_r PI); [lra|]. unfold Rdiv. rewrite Rmult_assoc, Rinv_l by lra. lra. }
  assert (HD : depth_dist (p_da (4/5) 3 1 2 1) (p_da (801/1000) 3 1 2 1) = 1/4000).
  { unfold depth_dist, peak_dist, albedo, fwd, bot_of, top_of. cbn -[Rabs]. replace (4 / 5 * (1 / 4) - 801 / 1000 * (1 / 4)) with (- (1/4000)) by lra.
    replace (9 / 10 * 0 - 9 / 10 * 0) with 0 by ring. rewrite Rabs_Ropp, Rabs_R0, Rabs_pos_eq by lra. lra. }
  constructor.
  - intros l t Hl _. rewrite HD, !da_source by exact Hl.
    unfold peak_dist, scattering_dist, scattering_size. change (ncoeffs (p_da (801/1000) 3 1 2 1)) with 2%nat. cbn [rsum INR].
    destruct l as [|[|l]]; [| |cbn in Hl; lia]; unfold scattering, albedo, fwd, phase; cbn -[Rabs Rle Rlt Rdiv Rmult Rplus Rminus IZR].
    + replace (4 / 5 * (1 / 4) - 801 / 1000 * (1 / 4)) with (- (1/4000)) by lra. replace (4 / 5 * (1 - 1 / 4) - 801 / 1000 * (1 - 1 / 4)) with (- (3/4000)) by lra.
      replace (4 / 5 * (2 / 5 - 1 / 4) - 801 / 1000 * (2 / 5 - 1 / 4)) with (- (3/20000)) by lra. replace ((1 - 4 / 5) * 1 - (1 - 801 / 1000) * 1) with (1/1000) by lra.
      rewrite !Rabs_Ropp, !Rabs_pos_eq by lra. set (c := 3 / (4 * PI)) in *. nra.
    + replace (9 / 10 * 0 - 9 / 10 * 0) with 0 by ring. rewrite !Rminus_eq_0, !Rabs_R0, !Rabs_pos_eq by lra. set (c := 3 / (4 * PI)) in *. nra.
  - intros i _. rewrite Rminus_eq_0, Rabs_R0. lra.
  - intros i Hi. rewrite HD. replace (reflectance _ (po_mu out) w (fun _ _ => 1/2) i) with (1/2) by (symmetry; exact (F4 i Hi)). unfold surface_size. cbn -[Rabs Rle Rlt Rdiv Rmult Rplus Rminus IZR]. rewrite Rminus_eq_0, Rabs_R0, Rabs_pos_eq by lra. set (c := 3 / PI) in *. nra.
Qed.
