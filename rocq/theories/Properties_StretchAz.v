(** Property C109: how the reported intensity at every azimuth depends on all numerical arguments. *)
From Coq Require Import String Reals Lra Lia List Bool Arith ZArith.
From Verif Require Import Base Tensor Spec M_LinAlg Spec_RTE M_Subroutines M_Assemble M_Pydisort Spec_Sol Spec_Valid Spec_Calls Spec_Phys Spec_Mono Spec_Depend Spec_Full Spec_DependAz Spec_Stretch Spec_StretchAz
  P_Sub3 P_Pydisort4 P_Max3 P_Mono P_Depend P_Depend2 P_DependAz P_DependAz2 P_Stretch P_Stretch2 P_StretchAz P_StretchAz2 Examples Examples2 Examples3 Examples5 Examples17.
Import ListNotations.
Local Open Scope R_scope.

(** C109: the intensity depends continuously on all numerical arguments together, at every azimuth. For an atmosphere
    over a surface that does not reflect everything and for every wanted accuracy [eps] there is a distance [d] such that
    every atmosphere (same number of layers and streams) with a phase function that is nowhere negative and whose layer
    boundaries, albedos, phase functions, forward peaks, emission (at the same place of each layer), boundary values,
    beam strength, direction of the sun (its height and its azimuth) and modes of the surface reflection are within [d]
    has intensities within [eps], in all directions, at all azimuths and at depths that lie at the same place of the same
    layer. *)
Theorem C109_continuous :
  forall p lg la jk out u, linalg_ok la -> leggauss_ok (half p) (lg (half p)) -> pydisort p lg la jk = Ok out -> po_u out = Some u -> all_modes p -> not_all_forward p ->
  forall w vn vp rho, double_gauss (half p) (po_mu out) w -> boundary_data p vn vp rho -> (forall i, (i < half p)%nat -> reflectance p (po_mu out) w (rho 0%nat) i < 1) ->
  forall eps, 0 < eps -> exists d, 0 < d /\
  forall q la' jk' out' u' vn' vp' rho', linalg_ok la' -> pydisort q lg la' jk' = Ok out' -> po_u out' = Some u' -> all_modes q -> boundary_data q vn' vp' rho' -> same_frame p q ->
  near_sky d p q (po_mu out) vn vp vn' vp' rho rho' -> phase_positive q -> surface_positive q (po_mu out) w rho' -> forall tau tau' phi, Forall2 (corresponds p q) tau tau' ->
  exists A B, u tau phi false false false = Ok (PVal (PT A)) /\ u' tau' phi false false false = Ok (PVal (PT B)) /\ twithin eps A B.
Proof. exact call_shift_continuous. Qed.
Print Assumptions C109_continuous.
(** Two layers with a beam, a forward peak, emission that grows with depth and a reflecting surface, and at every
    distance [d] another atmosphere with a thicker and brighter upper layer, a darker surface and a brighter sun that
    stands lower and at another azimuth. *)
Example C109_continuous_nonvacuous jk : let p := p_st (4/5) 1 3 0 in
  exists out u w, linalg_ok la_full /\ leggauss_ok (half p) (lg_12 (half p)) /\ pydisort p lg_12 la_full jk = Ok out /\ po_u out = Some u /\ all_modes p /\ not_all_forward p /\
  double_gauss (half p) (po_mu out) w /\ boundary_data p (fun _ => 2) (fun _ => 1) (fun _ _ _ => 1/2 - 0) /\
  (forall i, (i < half p)%nat -> reflectance p (po_mu out) w (fun _ _ => 1/2 - 0) i < 1) /\ nmodes p = 2%nat /\
  forall d jk', 0 < d -> exists q out' u' h, 0 < h /\ pydisort q lg_12 la_full jk' = Ok out' /\ po_u out' = Some u' /\ all_modes q /\ boundary_data q (fun _ => 2) (fun _ => 1) (fun _ _ _ => 1/2 - h) /\ same_frame p q /\
    near_sky d p q (po_mu out) (fun _ => 2) (fun _ => 1) (fun _ => 2) (fun _ => 1) (fun _ _ _ => 1/2 - 0) (fun _ _ _ => 1/2 - h) /\ phase_positive q /\
    surface_positive q (po_mu out) w (fun _ _ _ => 1/2 - h) /\
    albedo p 0 < albedo q 0 /\ bottom p < bottom q /\ 0 < p_I0 p < p_I0 q /\ p_mu0 q < p_mu0 p /\ p_phi0 p < p_phi0 q /\ Forall2 (corresponds p q) [1/2; 2] [bot_of q 0 / 2; bot_of q 0 + 1].
Proof.
  cbv zeta. destruct (st_ok (4/5) 1 3 0 ltac:(lra) ltac:(lra) ltac:(lra) jk) as (out & H).
  destruct (st_facts (4/5) 1 3 0 ltac:(lra) ltac:(lra) ltac:(lra) jk out H) as (w & F1 & F2 & F3 & F4 & F5). destruct (st_u (4/5) 1 3 0 jk out H) as (u & Fu).
  exists out, u, w. split; [exact la_full_ok|]. split; [exact lg_12_ok1|]. split; [exact H|]. split; [exact Fu|]. split; [apply st_modes; lra|]. split; [apply st_forward|]. split; [exact F1|]. split; [apply st_bd; lra|].
  split; [intros i Hi; rewrite F5 by exact Hi; lra|]. split; [reflexivity|]. intros d jk' Hd. set (h := Rmin d (1/10)). assert (H0 : 0 < h) by (apply Rmin_pos; lra). assert (H1 : h <= d) by apply Rmin_l. assert (H2 : h <= 1/10) by apply Rmin_r. clearbody h.
  destruct (st_ok (4/5 + h) (1 + h) (3 + h) h ltac:(lra) ltac:(lra) ltac:(lra) jk') as (out' & H'). destruct (st_u (4/5 + h) (1 + h) (3 + h) h jk' out' H') as (u' & Gu).
  exists (p_st (4/5 + h) (1 + h) (3 + h) h), out', u', h. split; [exact H0|]. split; [exact H'|]. split; [exact Gu|]. split; [apply st_modes; lra|]. split; [apply st_bd; lra|]. split; [constructor; reflexivity|].
  split; [apply (st_near_sky (4/5) 1 3 (4/5 + h) h d (po_mu out)); lra || (apply Rabs_le; lra)|]. split; [apply st_positive; lra|]. split; [apply st_surface; first [exact F1 | lra]|].
  split; [unfold albedo; cbn; lra|]. split; [unfold bottom; cbn; lra|]. split; [cbn; lra|]. split; [cbn; lra|]. split; [cbn; lra|]. apply st_corr; lra.
Qed.

(** C109, with constants: if the intensity in [p] is at most [M], then the change to [q] moves it by at most [e] at every
    azimuth, where [e] is the largest ratio of what the layers extinguish, scatter and emit differently to the absorption
    of [q]. *)
Theorem C109_change_bound :
  forall p q lg la la' jk jk' out out' u u', linalg_ok la -> linalg_ok la' -> leggauss_ok (half p) (lg (half p)) ->
  pydisort p lg la jk = Ok out -> pydisort q lg la' jk' = Ok out' -> po_u out = Some u -> po_u out' = Some u' -> all_modes p -> all_modes q ->
  forall w vn vp vn' vp' rho rho', double_gauss (half p) (po_mu out) w -> boundary_data p vn vp rho -> boundary_data q vn' vp' rho' ->
  same_frame p q -> not_all_forward p -> not_all_forward q -> phase_positive q -> surface_positive q (po_mu out) w rho' ->
  forall e M, shifts_by e M p q (po_mu out) w vn vp vn' vp' rho rho' -> u_bounded p u M -> forall tau tau' phi, Forall2 (corresponds p q) tau tau' ->
  exists A B, u tau phi false false false = Ok (PVal (PT A)) /\ u' tau' phi false false false = Ok (PVal (PT B)) /\ twithin e A B.
Proof. exact call_shifts_by. Qed.
Print Assumptions C109_change_bound.
(** The same atmosphere, and for every [e] another one whose change moves the intensity by no more than [e]. *)
Example C109_change_bound_nonvacuous jk : let p := p_st (4/5) 1 3 0 in
  exists out u w M, linalg_ok la_full /\ leggauss_ok (half p) (lg_12 (half p)) /\ pydisort p lg_12 la_full jk = Ok out /\ po_u out = Some u /\ all_modes p /\ not_all_forward p /\
  double_gauss (half p) (po_mu out) w /\ boundary_data p (fun _ => 2) (fun _ => 1) (fun _ _ _ => 1/2 - 0) /\ u_bounded p u M /\
  forall e jk', 0 < e -> exists q out' u' h, 0 < h /\ pydisort q lg_12 la_full jk' = Ok out' /\ po_u out' = Some u' /\ all_modes q /\ not_all_forward q /\ boundary_data q (fun _ => 2) (fun _ => 1) (fun _ _ _ => 1/2 - h) /\ same_frame p q /\
    phase_positive q /\ surface_positive q (po_mu out) w (fun _ _ _ => 1/2 - h) /\
    shifts_by e M p q (po_mu out) w (fun _ => 2) (fun _ => 1) (fun _ => 2) (fun _ => 1) (fun _ _ _ => 1/2 - 0) (fun _ _ _ => 1/2 - h) /\
    bottom p < bottom q /\ 0 < p_I0 p < p_I0 q /\ p_mu0 q < p_mu0 p /\ p_phi0 p < p_phi0 q /\ Forall2 (corresponds p q) [1/2; 2] [bot_of q 0 / 2; bot_of q 0 + 1].
Proof.
  cbv zeta. destruct (st_ok (4/5) 1 3 0 ltac:(lra) ltac:(lra) ltac:(lra) jk) as (out & H).
  destruct (st_facts (4/5) 1 3 0 ltac:(lra) ltac:(lra) ltac:(lra) jk out H) as (w & F1 & F2 & F3 & F4 & F5). destruct (st_u (4/5) 1 3 0 jk out H) as (u & Fu).
  assert (B1 : boundary_data (p_st (4/5) 1 3 0) (fun _ => 2) (fun _ => 1) (fun _ _ _ => 1/2 - 0)) by (apply st_bd; lra).
  assert (AM : all_modes (p_st (4/5) 1 3 0)) by (apply st_modes; lra).
  destruct (u_bounded_ex (p_st (4/5) 1 3 0) lg_12 la_full jk out u w _ _ _ la_full_ok lg_12_ok1 H Fu AM F1 B1) as (M & HM & HB).
  exists out, u, w, M. split; [exact la_full_ok|]. split; [exact lg_12_ok1|]. split; [exact H|]. split; [exact Fu|]. split; [exact AM|]. split; [apply st_forward|]. split; [exact F1|]. split; [exact B1|]. split; [exact HB|].
  intros e jk' He. destruct (shift_small (p_st (4/5) 1 3 0) (st_valid (4/5) 1 3 0 ltac:(lra) ltac:(lra) ltac:(lra)) (po_mu out) w (fun _ _ _ => 1/2 - 0) M HM F1) with (e := e) as (d & Hd & HD); [apply st_forward|intros i Hi; rewrite F5 by exact Hi; lra|exact He|].
  set (h := Rmin d (1/10)). assert (H0 : 0 < h) by (apply Rmin_pos; lra). assert (H1 : h <= d) by apply Rmin_l. assert (H2 : h <= 1/10) by apply Rmin_r. clearbody h.
  destruct (st_ok (4/5) (1 + h) (3 + h) h ltac:(lra) ltac:(lra) ltac:(lra) jk') as (out' & H'). destruct (st_u (4/5) (1 + h) (3 + h) h jk' out' H') as (u' & Gu).
  exists (p_st (4/5) (1 + h) (3 + h) h), out', u', h. split; [exact H0|]. split; [exact H'|]. split; [exact Gu|]. split; [apply st_modes; lra|]. split; [apply st_forward|]. split; [apply st_bd; lra|]. split; [constructor; reflexivity|].
  split; [apply st_positive; lra|]. split; [apply st_surface; first [exact F1 | lra]|].
  destruct (HD (p_st (4/5) (1 + h) (3 + h) h) (fun _ => 2) (fun _ => 1) (fun _ => 2) (fun _ => 1) (fun _ _ _ => 1/2 - h)) as (D1 & _).
  { apply st_valid; lra. }
  { constructor; reflexivity. }
  { apply (st_near_sky (4/5) 1 3 (4/5) h d (po_mu out)); lra || (apply Rabs_le; lra). }
  split; [exact D1|]. split; [unfold bottom; cbn; lra|]. split; [cbn; lra|]. split; [cbn; lra|]. split; [cbn; lra|]. apply st_corr; lra.
Qed.
