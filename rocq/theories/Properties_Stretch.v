(** Property C108: how the reported radiation depends on all numerical arguments, the thicknesses of the layers and the sun included. *)
From Coq Require Import String Reals Lra Lia List Bool Arith ZArith.
From Verif Require Import Base Tensor Spec M_LinAlg Spec_RTE M_Subroutines M_Assemble M_Pydisort Spec_Sol Spec_Valid Spec_Calls Spec_Phys Spec_Mono Spec_Depend Spec_Stretch
  P_Sub3 P_Pydisort4 P_Max3 P_Mono P_Depend P_Depend2 P_Stretch P_Stretch2 Examples Examples2 Examples3 Examples5 Examples17.
Import ListNotations.
Local Open Scope R_scope.

(** C108: the radiation depends continuously on all numerical arguments together. For an atmosphere over a surface
    that does not reflect everything and for every wanted accuracy [eps] there is a distance [d] such that every
    physical atmosphere (same number of layers and streams) whose layer boundaries, albedos, phase functions, forward
    peaks, emission (at the same place of each layer), boundary values, beam strength, direction of the sun and surface
    reflection are within [d] has intensities and fluxes within [eps], at depths that lie at the same place of the same
    layer. If there is a beam, the same holds of the reported direct flux. *)
Theorem C108_continuous :
  forall p lg la jk out, linalg_ok la -> leggauss_ok (half p) (lg (half p)) -> pydisort p lg la jk = Ok out ->
  forall w vn vp rho, double_gauss (half p) (po_mu out) w -> boundary_data p vn vp rho -> scattering_kept p ->
  (forall i, (i < half p)%nat -> reflectance p (po_mu out) w (rho 0%nat) i < 1) ->
  forall eps, 0 < eps -> exists d, 0 < d /\
  forall q la' jk' out' vn' vp' rho', linalg_ok la' -> pydisort q lg la' jk' = Ok out' -> boundary_data q vn' vp' rho' -> same_frame p q ->
  near_deformed d p q (po_mu out) vn vp vn' vp' (rho 0%nat) (rho' 0%nat) ->
  scattering_kept q -> phase_nonneg q (po_mu out) -> passive_surface q (po_mu out) w (rho' 0%nat) -> forall tau tau', Forall2 (corresponds p q) tau tau' ->
  (exists A B, po_u0 out tau false false false = Ok (PVal (PT A)) /\ po_u0 out' tau' false false false = Ok (PVal (PT B)) /\ twithin eps A B) /\
  (exists A B, po_flux_up out tau false false = Ok (PVal (PT A)) /\ po_flux_up out' tau' false false = Ok (PVal (PT B)) /\ twithin eps A B) /\
  (exists A A0 B B0, po_flux_down out tau false false = Ok (PTup [PT A; PT A0]) /\ po_flux_down out' tau' false false = Ok (PTup [PT B; PT B0]) /\ twithin eps A B /\
     (0 < p_I0 p -> 0 < p_I0 q /\ twithin eps A0 B0)).
Proof. exact call_stretch_continuous. Qed.
Print Assumptions C108_continuous.
(** Two layers with a beam, a forward peak, emission that grows with depth and a reflecting surface, and at every
    distance [d] another atmosphere with a thicker and brighter upper layer, a darker surface and a brighter sun that
    stands lower. *)
Example C108_continuous_nonvacuous jk : let p := p_st (1/2) 1 3 0 in
  exists out w, linalg_ok la_full /\ leggauss_ok (half p) (lg_12 (half p)) /\ pydisort p lg_12 la_full jk = Ok out /\
  double_gauss (half p) (po_mu out) w /\ boundary_data p (fun _ => 2) (fun _ => 1) (fun _ _ _ => 1/2 - 0) /\ scattering_kept p /\
  (forall i, (i < half p)%nat -> reflectance p (po_mu out) w (fun _ _ => 1/2 - 0) i < 1) /\
  forall d jk', 0 < d -> exists q out' h, 0 < h /\ pydisort q lg_12 la_full jk' = Ok out' /\ boundary_data q (fun _ => 2) (fun _ => 1) (fun _ _ _ => 1/2 - h) /\ same_frame p q /\
    near_deformed d p q (po_mu out) (fun _ => 2) (fun _ => 1) (fun _ => 2) (fun _ => 1) (fun _ _ => 1/2 - 0) (fun _ _ => 1/2 - h) /\ scattering_kept q /\ phase_nonneg q (po_mu out) /\
    passive_surface q (po_mu out) w (fun _ _ => 1/2 - h) /\
    albedo p 0 < albedo q 0 /\ bottom p < bottom q /\ 0 < p_I0 p < p_I0 q /\ p_mu0 q < p_mu0 p /\ Forall2 (corresponds p q) [1/2; 2] [bot_of q 0 / 2; bot_of q 0 + 1].
Proof.
  cbv zeta. destruct (st_ok (1/2) 1 3 0 ltac:(lra) ltac:(lra) ltac:(lra) jk) as (out & H).
  destruct (st_facts (1/2) 1 3 0 ltac:(lra) ltac:(lra) ltac:(lra) jk out H) as (w & F1 & F2 & F3 & F4 & F5).
  exists out, w. split; [exact la_full_ok|]. split; [exact lg_12_ok1|]. split; [exact H|]. split; [exact F1|]. split; [apply st_bd; lra|]. split; [apply st_kept; lra|].
  split; [intros i Hi; rewrite F5 by exact Hi; lra|]. intros d jk' Hd. set (h := Rmin d (1/10)). assert (H0 : 0 < h) by (apply Rmin_pos; lra). assert (H1 : h <= d) by apply Rmin_l. assert (H2 : h <= 1/10) by apply Rmin_r. clearbody h.
  destruct (st_ok (1/2 + h) (1 + h) (3 + h) h ltac:(lra) ltac:(lra) ltac:(lra) jk') as (out' & H').
  destruct (st_facts (1/2 + h) (1 + h) (3 + h) h ltac:(lra) ltac:(lra) ltac:(lra) jk' out' H') as (w' & G1 & G2 & G3 & G4 & G5). pose proof (same_mu _ _ _ _ _ _ _ _ _ H H' eq_refl) as E. rewrite <- E in *.
  exists (p_st (1/2 + h) (1 + h) (3 + h) h), out', h. split; [exact H0|]. split; [exact H'|]. split; [apply st_bd; lra|]. split; [constructor; reflexivity|].
  split; [apply (st_near (1/2) 1 3 (1/2 + h) h d (po_mu out)); lra || (apply Rabs_le; lra)|]. split; [apply st_kept; lra|]. split; [exact G2|]. split; [|split; [|split; [|split; [|split]]]].
  - constructor; [intros; lra|intros; lra|intros i Hi; rewrite (st_refl (1/2 + h) (1 + h) (3 + h) h (po_mu out) w i F1 Hi); lra].
  - unfold albedo. cbn. lra.
  - unfold bottom. cbn. lra.
  - cbn. lra.
  - cbn. lra.
  - apply st_corr; lra.
Qed.

(** C108, with constants: if the radiation in [p] is at most [M], then the change to [q] moves the intensities by at
    most [e], the fluxes by at most [PI * e] and the direct flux by at most [b] (and with it the diffuse downward flux,
    by the change of the scaled and the true beam), where [e] is the largest ratio of what the layers extinguish,
    scatter and emit differently to the absorption of [q], and [b] is the change of the beam. *)
Theorem C108_change_bound :
  forall p q lg la la' jk jk' out out', linalg_ok la -> linalg_ok la' -> leggauss_ok (half p) (lg (half p)) ->
  pydisort p lg la jk = Ok out -> pydisort q lg la' jk' = Ok out' ->
  forall w vn vp vn' vp' rho rho', double_gauss (half p) (po_mu out) w -> boundary_data p vn vp rho -> boundary_data q vn' vp' rho' ->
  same_frame p q -> scattering_kept p -> scattering_kept q -> phase_nonneg q (po_mu out) -> passive_surface q (po_mu out) w (rho' 0%nat) ->
  forall e M b, deforms_by e M p q (po_mu out) w vn vp vn' vp' (rho 0%nat) (rho' 0%nat) -> beams_within b p q -> u0_bounded p out M ->
  forall tau tau', Forall2 (corresponds p q) tau tau' ->
  (exists A B, po_u0 out tau false false false = Ok (PVal (PT A)) /\ po_u0 out' tau' false false false = Ok (PVal (PT B)) /\ twithin e A B) /\
  (exists A B, po_flux_up out tau false false = Ok (PVal (PT A)) /\ po_flux_up out' tau' false false = Ok (PVal (PT B)) /\ twithin (PI * e) A B) /\
  (exists A A0 B B0, po_flux_down out tau false false = Ok (PTup [PT A; PT A0]) /\ po_flux_down out' tau' false false = Ok (PTup [PT B; PT B0]) /\
     twithin (PI * e + 2 * b) A B /\ (0 < p_I0 p -> 0 < p_I0 q -> twithin b A0 B0)).
Proof. exact call_stretch. Qed.
Print Assumptions C108_change_bound.
(** The same atmosphere, and for every [e] another one whose change moves the radiation by no more than [e]. *)
Example C108_change_bound_nonvacuous jk : let p := p_st (1/2) 1 3 0 in
  exists out w M, linalg_ok la_full /\ leggauss_ok (half p) (lg_12 (half p)) /\ pydisort p lg_12 la_full jk = Ok out /\
  double_gauss (half p) (po_mu out) w /\ boundary_data p (fun _ => 2) (fun _ => 1) (fun _ _ _ => 1/2 - 0) /\ scattering_kept p /\ u0_bounded p out M /\
  forall e jk', 0 < e -> exists q out' h, 0 < h /\ pydisort q lg_12 la_full jk' = Ok out' /\ boundary_data q (fun _ => 2) (fun _ => 1) (fun _ _ _ => 1/2 - h) /\ same_frame p q /\
    scattering_kept q /\ phase_nonneg q (po_mu out) /\ passive_surface q (po_mu out) w (fun _ _ => 1/2 - h) /\
    deforms_by e M p q (po_mu out) w (fun _ => 2) (fun _ => 1) (fun _ => 2) (fun _ => 1) (fun _ _ => 1/2 - 0) (fun _ _ => 1/2 - h) /\ beams_within e p q /\
    bottom p < bottom q /\ 0 < p_I0 p < p_I0 q /\ p_mu0 q < p_mu0 p /\ Forall2 (corresponds p q) [1/2; 2] [bot_of q 0 / 2; bot_of q 0 + 1].
Proof.
  cbv zeta. destruct (st_ok (1/2) 1 3 0 ltac:(lra) ltac:(lra) ltac:(lra) jk) as (out & H).
  destruct (st_facts (1/2) 1 3 0 ltac:(lra) ltac:(lra) ltac:(lra) jk out H) as (w & F1 & F2 & F3 & F4 & F5).
  assert (B1 : boundary_data (p_st (1/2) 1 3 0) (fun _ => 2) (fun _ => 1) (fun _ _ _ => 1/2 - 0)) by (apply st_bd; lra).
  destruct (u0_bounded_ex (p_st (1/2) 1 3 0) lg_12 la_full jk out w _ _ _ la_full_ok lg_12_ok1 H F1 B1) as (M & HM & HB).
  exists out, w, M. split; [exact la_full_ok|]. split; [exact lg_12_ok1|]. split; [exact H|]. split; [exact F1|]. split; [exact B1|]. split; [apply st_kept; lra|]. split; [exact HB|].
  intros e jk' He. destruct (deform_small (p_st (1/2) 1 3 0) (st_valid (1/2) 1 3 0 ltac:(lra) ltac:(lra) ltac:(lra)) (po_mu out) w (fun _ _ => 1/2 - 0) M HM F1) with (e := e) as (d & Hd & HD); [intros i Hi; rewrite F5 by exact Hi; lra|exact He|].
  set (h := Rmin d (1/10)). assert (H0 : 0 < h) by (apply Rmin_pos; lra). assert (H1 : h <= d) by apply Rmin_l. assert (H2 : h <= 1/10) by apply Rmin_r. clearbody h.
  destruct (st_ok (1/2) (1 + h) (3 + h) h ltac:(lra) ltac:(lra) ltac:(lra) jk') as (out' & H').
  destruct (st_facts (1/2) (1 + h) (3 + h) h ltac:(lra) ltac:(lra) ltac:(lra) jk' out' H') as (w' & G1 & G2 & G3 & G4 & G5). pose proof (same_mu _ _ _ _ _ _ _ _ _ H H' eq_refl) as E. rewrite <- E in *.
  exists (p_st (1/2) (1 + h) (3 + h) h), out', h. split; [exact H0|]. split; [exact H'|]. split; [apply st_bd; lra|]. split; [constructor; reflexivity|]. split; [apply st_kept; lra|]. split; [exact G2|].
  destruct (HD (p_st (1/2) (1 + h) (3 + h) h) (fun _ => 2) (fun _ => 1) (fun _ => 2) (fun _ => 1) (fun _ _ => 1/2 - h)) as (D1 & D2 & _).
  { apply st_valid; lra. }
  { constructor; reflexivity. }
  { apply (st_near (1/2) 1 3 (1/2) h d (po_mu out)); lra || (apply Rabs_le; lra). }
  split; [|split; [exact D1|split; [exact D2|split; [|split; [|split]]]]].
  - constructor; [intros; lra|intros; lra|intros i Hi; rewrite (st_refl (1/2) (1 + h) (3 + h) h (po_mu out) w i F1 Hi); lra].
  - unfold bottom. cbn. lra.
  - cbn. lra.
  - cbn. lra.
  - apply st_corr; lra.
Qed.
