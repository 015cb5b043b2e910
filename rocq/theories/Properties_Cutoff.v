(** C110 and C112: weak scattering. *)
From Coq Require Import Reals List Lra Lia.
From Verif Require Import Base Tensor Spec M_LinAlg M_Subroutines M_Assemble M_Pydisort Spec_RTE Spec_Sol Spec_Valid Spec_Calls Spec_Phys Spec_Mono Spec_Depend Spec_Solved Examples3 Examples5 P_Sub3 P_Error Examples18 P_Depend2 Spec_Cutoff P_Cutoff P_Cutoff2 P_Cutoff3 P_Cutoff4 P_Cutoff5 P_Cutoff6.
Import ListNotations.
Local Open Scope R_scope.

(** C110, the cut-off: one layer of optical thickness [T] that scatters the share [a] of what it removes, evenly into
    all directions, lit from above with intensity 1, over a black surface.  Up to [a = 2e-8] nothing is reported to
    come up from it; above, at least [a/4 * (exp (-2t) - exp (2t - 4T))] does, which does not vanish as [a] comes down to 2e-8. *)
Theorem C110_cut_off : forall T a, 0 < T -> 0 <= a < 1 ->
  forall lg la jk out, linalg_ok la -> leggauss_ok (half (p_wk T a)) (lg (half (p_wk T a))) -> pydisort (p_wk T a) lg la jk = Ok out ->
  forall t, 0 <= t <= T -> exists A, po_u0 out [t] false false false = Ok (PVal (PT A)) /\ shp A = [2%nat] /\
    (a <= 2 / 100000000 -> elt A [0%nat] = 0) /\ (2 / 100000000 < a -> a / 4 * (exp (- 2 * t) - exp (2 * t - 4 * T)) <= elt A [0%nat]).
Proof. exact wk_reported. Qed.
Print Assumptions C110_cut_off.
(** Every such call is answered. *)
Example C110_cut_off_nonvacuous T a : 0 < T -> 0 <= a < 1 -> forall jk,
  linalg_ok la_full /\ leggauss_ok (half (p_wk T a)) (lg_12 (half (p_wk T a))) /\ exists out, pydisort (p_wk T a) lg_12 la_full jk = Ok out.
Proof. intros HT Ha jk. split; [exact la_full_ok|]. split; [exact lg_12_ok1|]. apply wk_ok; assumption. Qed.

(** C110 as far as it holds: between atmospheres none of whose layers scatters a positive share up to 2e-8.  Missing:
    pairs with such layers, for which it fails (below). *)
Theorem C110_continuous_partial : forall p lg la jk out, linalg_ok la -> leggauss_ok (half p) (lg (half p)) -> pydisort p lg la jk = Ok out ->
  forall w vn vp rho, double_gauss (half p) (po_mu out) w -> boundary_data p vn vp rho -> scattering_kept p ->
  (forall i, (i < half p)%nat -> reflectance p (po_mu out) w (rho 0%nat) i < 1) ->
  forall eps, 0 < eps -> exists d, 0 < d /\
  forall q la' jk' out' vn' vp', linalg_ok la' -> pydisort q lg la' jk' = Ok out' -> boundary_data q vn' vp' rho -> same_setting p q -> nearby d p q vn vp vn' vp' ->
  scattering_kept q -> phase_nonneg q (po_mu out) -> passive_surface q (po_mu out) w (rho 0%nat) -> forall tau, depths_ok p tau ->
  exists A B, po_u0 out tau false false false = Ok (PVal (PT A)) /\ po_u0 out' tau false false false = Ok (PVal (PT B)) /\ twithin eps A B.
Proof. exact kept_continuous. Qed.
Print Assumptions C110_continuous_partial.
Example C110_continuous_partial_nonvacuous a : 2 / 100000000 < a < 1 -> scattering_kept (p_wk 1 a) /\
  boundary_data (p_wk 1 a) (fun _ => 1) (fun _ => 0) (fun _ _ _ => 0) /\ (forall mu w i, reflectance (p_wk 1 a) mu w (fun _ _ => 0) i < 1) /\
  (forall mu, phase_nonneg (p_wk 1 a) mu) /\ (forall mu w, passive_surface (p_wk 1 a) mu w (fun _ _ => 0)) /\
  forall jk, exists out, pydisort (p_wk 1 a) lg_12 la_full jk = Ok out.
Proof.
  intros Ha. split; [|split; [apply wk_bd|split; [|split; [|split]]]].
  - intros l Hl. change (nlayers (p_wk 1 a)) with 1%nat in Hl. destruct (wk_scl 1 a l Hl) as (_ & -> & -> & _). lra.
  - intros mu w i. rewrite wk_refl. lra.
  - intros mu. apply wk_nonneg; lra.
  - intros mu w. apply wk_passive; lra.
  - intros jk. apply wk_ok; lra.
Qed.

(** C110 fails: the statement of C76_continuous (for the intensities) without its premise that no layer's scattering
    lies below the cut-off is false. *)
Theorem C110_continuous_refuted : ~ forall p lg la jk out, linalg_ok la -> leggauss_ok (half p) (lg (half p)) -> pydisort p lg la jk = Ok out ->
  forall w vn vp rho, double_gauss (half p) (po_mu out) w -> boundary_data p vn vp rho -> (forall l, (l < nlayers p)%nat -> fwd p l < 1) ->
  (forall i, (i < half p)%nat -> reflectance p (po_mu out) w (rho 0%nat) i < 1) ->
  forall eps, 0 < eps -> exists d, 0 < d /\
  forall q la' jk' out' vn' vp', linalg_ok la' -> pydisort q lg la' jk' = Ok out' -> boundary_data q vn' vp' rho -> same_setting p q -> nearby d p q vn vp vn' vp' ->
  (forall l, (l < nlayers q)%nat -> fwd q l < 1) -> phase_nonneg q (po_mu out) -> passive_surface q (po_mu out) w (rho 0%nat) -> forall tau, depths_ok p tau ->
  exists A B, po_u0 out tau false false false = Ok (PVal (PT A)) /\ po_u0 out' tau false false false = Ok (PVal (PT B)) /\ twithin eps A B.
Proof. exact wk_jump. Qed.
Print Assumptions C110_continuous_refuted.

(** C110, the size of the jump: C76_change_bound without the premise that scattering is kept.  What is left out adds at
    most [J], where the absorption of every layer removes at least [4e-8 * NLeg * (M + I0 / (4 pi))] from radiation of size [J]. *)
Theorem C110_change_bound :
  forall p q lg la la' jk jk' out out', linalg_ok la -> linalg_ok la' -> leggauss_ok (half p) (lg (half p)) ->
  pydisort p lg la jk = Ok out -> pydisort q lg la' jk' = Ok out' ->
  forall w vn vp vn' vp' rho, double_gauss (half p) (po_mu out) w -> boundary_data p vn vp rho -> boundary_data q vn' vp' rho ->
  same_setting p q -> (forall l, (l < nlayers p)%nat -> fwd p l < 1) -> (forall l, (l < nlayers q)%nat -> fwd q l < 1) ->
  phase_nonneg q (po_mu out) -> passive_surface q (po_mu out) w (rho 0%nat) ->
  forall e J M, changes_by e M p q (po_mu out) w vn vp vn' vp' (rho 0%nat) ->
  0 <= J -> (forall l, (l < nlayers q)%nat -> 4 * (INR (ncoeffs q) / 100000000) * (M + p_I0 q / (4 * PI)) <= (1 - albedo q l) * J) ->
  u0_bounded p out M -> forall tau, depths_ok p tau ->
  (exists A B, po_u0 out tau false false false = Ok (PVal (PT A)) /\ po_u0 out' tau false false false = Ok (PVal (PT B)) /\ twithin (e + J) A B) /\
  (exists A B, po_flux_up out tau false false = Ok (PVal (PT A)) /\ po_flux_up out' tau false false = Ok (PVal (PT B)) /\ twithin (PI * (e + J)) A B) /\
  (exists A A0 B B0, po_flux_down out tau false false = Ok (PTup [PT A; PT A0]) /\ po_flux_down out' tau false false = Ok (PTup [PT B; PT B0]) /\ twithin (PI * (e + J) + p_I0 q * depth_dist p q) A B).
Proof. exact call_cut. Qed.
Print Assumptions C110_change_bound.

(** C110 for all atmospheres, up to the jump [J].  Missing: [J = 0], for which it fails. *)
Theorem C110_continuous_up_to_jump_partial : forall p lg la jk out, linalg_ok la -> leggauss_ok (half p) (lg (half p)) -> pydisort p lg la jk = Ok out ->
  forall w vn vp rho, double_gauss (half p) (po_mu out) w -> boundary_data p vn vp rho -> (forall l, (l < nlayers p)%nat -> fwd p l < 1) ->
  (forall i, (i < half p)%nat -> reflectance p (po_mu out) w (rho 0%nat) i < 1) ->
  forall M J, u0_bounded p out M -> (forall l, (l < nlayers p)%nat -> 4 * (INR (ncoeffs p) / 100000000) * (M + p_I0 p / (4 * PI)) < (1 - albedo p l) * J) ->
  forall eps, 0 < eps -> exists d, 0 < d /\
  forall q la' jk' out' vn' vp', linalg_ok la' -> pydisort q lg la' jk' = Ok out' -> boundary_data q vn' vp' rho -> same_setting p q -> nearby d p q vn vp vn' vp' ->
  (forall l, (l < nlayers q)%nat -> fwd q l < 1) -> phase_nonneg q (po_mu out) -> passive_surface q (po_mu out) w (rho 0%nat) -> forall tau, depths_ok p tau ->
  (exists A B, po_u0 out tau false false false = Ok (PVal (PT A)) /\ po_u0 out' tau false false false = Ok (PVal (PT B)) /\ twithin (J + eps) A B) /\
  (exists A B, po_flux_up out tau false false = Ok (PVal (PT A)) /\ po_flux_up out' tau false false = Ok (PVal (PT B)) /\ twithin (PI * J + eps) A B) /\
  (exists A A0 B B0, po_flux_down out tau false false = Ok (PTup [PT A; PT A0]) /\ po_flux_down out' tau false false = Ok (PTup [PT B; PT B0]) /\ twithin (PI * J + eps) A B).
Proof. exact call_continuous_cut. Qed.
Print Assumptions C110_continuous_up_to_jump_partial.
(** Two calls on either side of the cut-off, at every distance [d], with the bounds [M] and [J]. *)
Example C110_change_bound_nonvacuous jk : let p := p_wk 1 (2 / 100000000) in
  exists out w M J, linalg_ok la_full /\ leggauss_ok (half p) (lg_12 (half p)) /\ pydisort p lg_12 la_full jk = Ok out /\ double_gauss (half p) (po_mu out) w /\
  boundary_data p (fun _ => 1) (fun _ => 0) (fun _ _ _ => 0) /\ (forall l, (l < nlayers p)%nat -> fwd p l < 1) /\ (forall i, (i < half p)%nat -> reflectance p (po_mu out) w (fun _ _ => 0) i < 1) /\
  u0_bounded p out M /\ (forall l, (l < nlayers p)%nat -> 4 * (INR (ncoeffs p) / 100000000) * (M + p_I0 p / (4 * PI)) < (1 - albedo p l) * J) /\
  forall d jk', 0 < d -> exists q out', pydisort q lg_12 la_full jk' = Ok out' /\ boundary_data q (fun _ => 1) (fun _ => 0) (fun _ _ _ => 0) /\ same_setting p q /\
    nearby d p q (fun _ => 1) (fun _ => 0) (fun _ => 1) (fun _ => 0) /\ (forall l, (l < nlayers q)%nat -> fwd q l < 1) /\ phase_nonneg q (po_mu out) /\ passive_surface q (po_mu out) w (fun _ _ => 0) /\
    2 / 100000000 < albedo q 0.
Proof.
  cbv zeta. set (c := 2 / 100000000). set (p := p_wk 1 c). assert (Hc : 0 <= c < 1) by (unfold c; lra). assert (H1 : 0 < 1) by lra.
  destruct (wk_ok 1 c H1 Hc jk) as (out & Hp). destruct (wk_dg 1 c jk out Hp) as (w & HD).
  destruct (u0_bounded_ex p lg_12 la_full jk out w _ _ _ la_full_ok lg_12_ok1 Hp HD (wk_bd 1 c (fun _ _ _ => 0))) as (M & HM & HB).
  exists out, w, M, (1 + M). split; [exact la_full_ok|]. split; [exact lg_12_ok1|]. split; [exact Hp|]. split; [exact HD|]. split; [apply wk_bd|].
  assert (F : forall a l, (l < 1)%nat -> fwd (p_wk 1 a) l < 1) by (intros a l Hl; destruct (wk_scl 1 a l Hl) as (_ & _ & -> & _); lra).
  split; [intros l Hl; apply F; exact Hl|]. split; [intros i Hi; unfold p; rewrite wk_refl; lra|]. split; [exact HB|]. split.
  { intros l Hl. change (nlayers p) with 1%nat in Hl. unfold p at 3. destruct (wk_scl 1 c l Hl) as (_ & _ & _ & ->). change (ncoeffs p) with 2%nat. change (p_I0 p) with 0. unfold Rdiv at 2. rewrite Rmult_0_l. cbn [INR]. unfold c. nra. }
  intros d jk' Hd. set (h := Rmin d (1/2)). assert (Hh : 0 < h) by (apply Rmin_pos; lra). assert (Hh1 : h <= d) by apply Rmin_l. assert (Hh2 : h <= 1/2) by apply Rmin_r. clearbody h.
  assert (Hq : 0 <= c + h < 1) by (unfold c; lra). destruct (wk_ok 1 (c + h) H1 Hq jk') as (out' & Hok'). exists (p_wk 1 (c + h)), out'.
  split; [exact Hok'|]. split; [apply wk_bd|]. split; [constructor; reflexivity|]. split; [|split; [intros l Hl; apply F; exact Hl|split; [apply wk_nonneg; assumption|split; [apply wk_passive; assumption|]]]].
  - constructor.
    + intros l Hl. change (nlayers (p_wk 1 (c + h))) with 1%nat in Hl. unfold p. destruct (wk_scl 1 c l Hl) as (_ & _ & _ & ->). destruct (wk_scl 1 (c + h) l Hl) as (_ & _ & _ & ->). rewrite Rabs_left; lra.
    + intros l k Hl Hk. change (phase p l k) with (phase (p_wk 1 (c + h)) l k). rewrite Rminus_eq_0, Rabs_R0. lra.
    + intros l Hl. change (fwd p l) with (fwd (p_wk 1 (c + h)) l). rewrite Rminus_eq_0, Rabs_R0. lra.
    + intros l t Hl Ht. unfold p. rewrite !wk_source, Rminus_eq_0, Rabs_R0. lra.
    + intros i Hi. rewrite Rminus_eq_0, Rabs_R0. lra.
    + intros i Hi. rewrite Rminus_eq_0, Rabs_R0. lra.
  - destruct (wk_scl 1 (c + h) 0%nat ltac:(lia)) as (_ & _ & _ & ->). lra.
Qed.

(** C112: the reported mean intensity differs from every solution [V] of the equation that keeps all scattering, with the
    same boundary conditions, by at most [J], where the absorption of every layer removes at least
    [2e-8 * NLeg * (M + I0 / (4 pi))] from radiation of size [J] and [M] bounds [V]. *)
Theorem C112_left_out : forall p lg la jk out, linalg_ok la -> leggauss_ok (half p) (lg (half p)) -> pydisort p lg la jk = Ok out ->
  forall w vn vp rho, double_gauss (half p) (po_mu out) w -> boundary_data p vn vp rho -> (forall l, (l < nlayers p)%nat -> fwd p l < 1) ->
  phase_nonneg p (po_mu out) -> passive_surface p (po_mu out) w (rho 0%nat) ->
  forall V M J, keeps_all p (po_mu out) w vn vp (rho 0%nat) V -> (forall i t, (i < streams p)%nat -> 0 <= t <= bottom p -> Rabs (V i t) <= M) ->
  0 <= J -> (forall l, (l < nlayers p)%nat -> 2 * (INR (ncoeffs p) / 100000000) * (M + p_I0 p / (4 * PI)) <= (1 - albedo p l) * J) ->
  forall t, 0 <= t <= bottom p -> exists A, po_u0 out [t] false false false = Ok (PVal (PT A)) /\ shp A = [streams p] /\
    forall i, (i < streams p)%nat -> Rabs (V i t - elt A [i]) <= J.
Proof. exact kept_reported. Qed.
Print Assumptions C112_left_out.
(** A layer whose scattering is left out, the solution that keeps it (which has upward radiation), and the bounds. *)
Example C112_left_out_nonvacuous jk : let p := p_wk 1 (1 / 100000000) in exists out w V M J,
  linalg_ok la_full /\ leggauss_ok (half p) (lg_12 (half p)) /\ pydisort p lg_12 la_full jk = Ok out /\ double_gauss (half p) (po_mu out) w /\
  boundary_data p (fun _ => 1) (fun _ => 0) (fun _ _ _ => 0) /\ (forall l, (l < nlayers p)%nat -> fwd p l < 1) /\ phase_nonneg p (po_mu out) /\ passive_surface p (po_mu out) w (fun _ _ => 0) /\
  keeps_all p (po_mu out) w (fun _ => 1) (fun _ => 0) (fun _ _ => 0) V /\ (forall i t, (i < streams p)%nat -> 0 <= t <= bottom p -> Rabs (V i t) <= M) /\
  0 <= J /\ (forall l, (l < nlayers p)%nat -> 2 * (INR (ncoeffs p) / 100000000) * (M + p_I0 p / (4 * PI)) <= (1 - albedo p l) * J) /\
  0 < V 0%nat 0.
Proof.
  cbv zeta. set (c := 1 / 100000000). set (p := p_wk 1 c). assert (Hc : 0 <= c < 1) by (unfold c; lra). assert (Hc0 : 0 < c) by (unfold c; lra). assert (H1 : 0 < 1) by lra.
  destruct (wk_ok 1 c H1 Hc jk) as (out & Hp). destruct (wk_dg 1 c jk out Hp) as (w & HD). destruct (two_bound 1 c H1 Hc) as (M & HM & HB).
  exists out, w, (two_streams 1 c), M, (1 + M). split; [exact la_full_ok|]. split; [exact lg_12_ok1|]. split; [exact Hp|]. split; [exact HD|]. split; [apply wk_bd|].
  split; [intros l Hl; unfold p; change (nlayers p) with 1%nat in Hl; destruct (wk_scl 1 c l Hl) as (_ & _ & -> & _); lra|]. split; [apply wk_nonneg; assumption|]. split; [apply wk_passive; assumption|].
  split; [exact (two_keeps 1 c H1 Hc lg_12 la_full jk out w lg_12_ok1 Hp HD)|]. split; [exact HB|]. split; [lra|]. split; [|apply two_up; assumption].
  intros l Hl. change (nlayers p) with 1%nat in Hl. unfold p at 3. destruct (wk_scl 1 c l Hl) as (_ & _ & _ & ->). change (ncoeffs p) with 2%nat. change (p_I0 p) with 0. unfold Rdiv at 2. rewrite Rmult_0_l. cbn [INR]. unfold c. nra.
Qed.

(** C112 for the fluxes: they differ from those of [V] by at most [pi * J].  ([sdepth p t] is the depth scaled by the
    forward peak and [direct p t] the direct beam that is reported apart.) *)
Theorem C112_left_out_fluxes : forall p lg la jk out, linalg_ok la -> leggauss_ok (half p) (lg (half p)) -> pydisort p lg la jk = Ok out ->
  forall w vn vp rho, double_gauss (half p) (po_mu out) w -> boundary_data p vn vp rho -> (forall l, (l < nlayers p)%nat -> fwd p l < 1) ->
  phase_nonneg p (po_mu out) -> passive_surface p (po_mu out) w (rho 0%nat) ->
  forall V M J, keeps_all p (po_mu out) w vn vp (rho 0%nat) V -> (forall i t, (i < streams p)%nat -> 0 <= t <= bottom p -> Rabs (V i t) <= M) ->
  0 <= J -> (forall l, (l < nlayers p)%nat -> 2 * (INR (ncoeffs p) / 100000000) * (M + p_I0 p / (4 * PI)) <= (1 - albedo p l) * J) ->
  forall tau, depths_ok p tau ->
  (exists A, po_flux_up out tau false false = Ok (PVal (PT A)) /\ twithin (PI * J) A (tsqueeze (mkT [length tau] (fun idx =>
     2 * PI * rsum (half p) (fun i => w i * nth i (po_mu out) 0 * V i (nth (nth 0 idx 0%nat) tau 0)))))) /\
  (exists A B, po_flux_down out tau false false = Ok (PTup [PT A; PT B]) /\ twithin (PI * J) A (tsqueeze (mkT [length tau] (fun idx => let t := nth (nth 0 idx 0%nat) tau 0 in
     2 * PI * rsum (half p) (fun i => w i * nth i (po_mu out) 0 * V (half p + i)%nat t) + p_mu0 p * p_I0 p * exp (- sdepth p t / p_mu0 p) - direct p t)))).
Proof. exact kept_fluxes. Qed.
Print Assumptions C112_left_out_fluxes.
(** The hypotheses on the call, [V], [M] and [J] are those of [C112_left_out]; depths that are allowed. *)
Example C112_left_out_fluxes_nonvacuous jk : let p := p_wk 1 (1 / 100000000) in exists out w V M J,
  pydisort p lg_12 la_full jk = Ok out /\ double_gauss (half p) (po_mu out) w /\ keeps_all p (po_mu out) w (fun _ => 1) (fun _ => 0) (fun _ _ => 0) V /\
  (forall i t, (i < streams p)%nat -> 0 <= t <= bottom p -> Rabs (V i t) <= M) /\ 0 <= J /\
  (forall l, (l < nlayers p)%nat -> 2 * (INR (ncoeffs p) / 100000000) * (M + p_I0 p / (4 * PI)) <= (1 - albedo p l) * J) /\ depths_ok p [0; 1 / 2; 1].
Proof.
  cbv zeta. destruct (C112_left_out_nonvacuous jk) as (out & w & V & M & J & _ & _ & H1 & H2 & _ & _ & _ & _ & H3 & H4 & H5 & H6 & _).
  exists out, w, V, M, J. repeat (split; [assumption|]). assert (E : bottom (p_wk 1 (1 / 100000000)) = 1) by reflexivity.
  intros t Ht. rewrite E. destruct Ht as [<-|[<-|[<-|[]]]]; lra.
Qed.

(** C112 by what is reported: the same bound where [M] bounds the reported mean intensity, so that it can be computed. *)
Theorem C112_left_out_reported : forall p lg la jk out, linalg_ok la -> leggauss_ok (half p) (lg (half p)) -> pydisort p lg la jk = Ok out ->
  forall w vn vp rho, double_gauss (half p) (po_mu out) w -> boundary_data p vn vp rho -> (forall l, (l < nlayers p)%nat -> fwd p l < 1) ->
  phase_nonneg p (po_mu out) -> passive_surface p (po_mu out) w (rho 0%nat) ->
  forall M J, (forall t, 0 <= t <= bottom p -> exists A, po_u0 out [t] false false false = Ok (PVal (PT A)) /\ forall i, (i < streams p)%nat -> Rabs (elt A [i]) <= M) ->
  0 <= J -> (forall l, (l < nlayers p)%nat -> 2 * (INR (ncoeffs p) / 100000000) * (M + p_I0 p / (4 * PI)) <= (1 - albedo p l) * J) ->
  forall V, keeps_all p (po_mu out) w vn vp (rho 0%nat) V ->
  forall t, 0 <= t <= bottom p -> exists A, po_u0 out [t] false false false = Ok (PVal (PT A)) /\ shp A = [streams p] /\
    forall i, (i < streams p)%nat -> Rabs (V i t - elt A [i]) <= J.
Proof. exact near_reported. Qed.
Print Assumptions C112_left_out_reported.
Example C112_left_out_reported_nonvacuous jk : let p := p_wk 1 (1 / 100000000) in exists out w V M J,
  linalg_ok la_full /\ leggauss_ok (half p) (lg_12 (half p)) /\ pydisort p lg_12 la_full jk = Ok out /\ double_gauss (half p) (po_mu out) w /\
  boundary_data p (fun _ => 1) (fun _ => 0) (fun _ _ _ => 0) /\ (forall l, (l < nlayers p)%nat -> fwd p l < 1) /\ phase_nonneg p (po_mu out) /\ passive_surface p (po_mu out) w (fun _ _ => 0) /\
  (forall t, 0 <= t <= bottom p -> exists A, po_u0 out [t] false false false = Ok (PVal (PT A)) /\ forall i, (i < streams p)%nat -> Rabs (elt A [i]) <= M) /\
  0 <= J /\ (forall l, (l < nlayers p)%nat -> 2 * (INR (ncoeffs p) / 100000000) * (M + p_I0 p / (4 * PI)) <= (1 - albedo p l) * J) /\
  keeps_all p (po_mu out) w (fun _ => 1) (fun _ => 0) (fun _ _ => 0) V.
Proof.
  cbv zeta. destruct (C112_left_out_nonvacuous jk) as (out & w & V & M & J & H1 & H2 & H3 & H4 & H5 & H6 & H7 & H8 & H9 & H10 & H11 & H12 & _). set (p := p_wk 1 (1 / 100000000)) in *.
  assert (HM : 0 <= M). { refine (Rle_trans _ _ _ (Rabs_pos (V 0%nat 0)) (H10 0%nat 0 _ _)); [cbn; lia|change (bottom p) with 1; lra]. }
  exists out, w, V, (M + J), (1 + (M + J)). repeat (split; [assumption|]). split; [|split; [lra|split; [|assumption]]].
  - intros t Ht. destruct (C112_left_out p lg_12 la_full jk out H1 H2 H3 w (fun _ => 1) (fun _ => 0) (fun _ _ _ => 0) H4 H5 H6 H7 H8 V M J H9 H10 H11 H12 t Ht) as (A & EA & _ & HA).
    exists A. split; [exact EA|]. intros i Hi. pose proof (HA i Hi) as D. pose proof (H10 i t Hi Ht) as B. replace (elt A [i]) with (V i t - (V i t - elt A [i])) by ring. eapply Rle_trans; [apply Rabs_triang|]. rewrite Rabs_Ropp. lra.
  - intros l Hl. change (nlayers p) with 1%nat in Hl. unfold p at 3. destruct (wk_scl 1 (1 / 100000000) l Hl) as (_ & _ & _ & ->). change (ncoeffs p) with 2%nat. change (p_I0 p) with 0. unfold Rdiv at 2. rewrite Rmult_0_l. cbn [INR]. nra.
Qed.

(** C112: there is at most one solution that keeps all scattering. *)
Theorem C112_only_solution : forall p mu w vn vp rho V W, valid p -> double_gauss (half p) mu w -> phase_nonneg p mu -> passive_surface p mu w rho ->
  keeps_all p mu w vn vp rho V -> keeps_all p mu w vn vp rho W -> forall i t, (i < streams p)%nat -> 0 <= t <= bottom p -> V i t = W i t.
Proof. exact kept_unique. Qed.
Print Assumptions C112_only_solution.
Example C112_only_solution_nonvacuous : let p := p_wk 1 (1 / 100000000) in exists mu w V,
  valid p /\ double_gauss (half p) mu w /\ phase_nonneg p mu /\ passive_surface p mu w (fun _ _ => 0) /\ keeps_all p mu w (fun _ => 1) (fun _ => 0) (fun _ _ => 0) V.
Proof.
  cbv zeta. destruct (C112_left_out_nonvacuous junk0) as (out & w & V & M & J & _ & _ & H1 & H2 & _ & _ & H3 & H4 & H5 & _).
  exists (po_mu out), w, V. split; [exact (P_Pydisort4.call_valid _ _ _ _ _ H1)|]. repeat (split; [assumption|]). assumption.
Qed.

(** C112: nothing is left out unless a layer scatters a positive share up to 2e-8: else the reported mean intensity is
    the solution that keeps all scattering. *)
Theorem C112_nothing_left_out : forall p lg la jk out, linalg_ok la -> leggauss_ok (half p) (lg (half p)) -> pydisort p lg la jk = Ok out ->
  forall w vn vp rho, double_gauss (half p) (po_mu out) w -> boundary_data p vn vp rho -> scattering_kept p ->
  exists V, keeps_all p (po_mu out) w vn vp (rho 0%nat) V /\ reports_u0 p out V.
Proof. exact kept_exact. Qed.
Print Assumptions C112_nothing_left_out.
(** A layer with three times the least share that is kept. *)
Example C112_nothing_left_out_nonvacuous jk : let p := p_wk 1 (6 / 100000000) in exists out w,
  linalg_ok la_full /\ leggauss_ok (half p) (lg_12 (half p)) /\ pydisort p lg_12 la_full jk = Ok out /\ double_gauss (half p) (po_mu out) w /\
  boundary_data p (fun _ => 1) (fun _ => 0) (fun _ _ _ => 0) /\ scattering_kept p.
Proof.
  cbv zeta. set (c := 6 / 100000000). set (p := p_wk 1 c). assert (Hc : 0 <= c < 1) by (unfold c; lra). assert (H1 : 0 < 1) by lra.
  destruct (wk_ok 1 c H1 Hc jk) as (out & Hp). destruct (wk_dg 1 c jk out Hp) as (w & HD). exists out, w.
  split; [exact la_full_ok|]. split; [exact lg_12_ok1|]. split; [exact Hp|]. split; [exact HD|]. split; [apply wk_bd|].
  intros l Hl. unfold p. change (nlayers p) with 1%nat in Hl. destruct (wk_scl 1 c l Hl) as (E1 & E2 & E3 & E4). rewrite ?E1, ?E2, ?E3, ?E4. unfold c. split; [lra|right; lra].
Qed.

(** C112: the solution that keeps all scattering exists, so the bounds above always have something to compare with. *)
Theorem C112_solution_exists : forall p mu w vn vp rho, valid p -> double_gauss (half p) mu w -> phase_nonneg p mu -> passive_surface p mu w rho ->
  exists V, keeps_all p mu w vn vp rho V.
Proof. exact kept_exists. Qed.
Print Assumptions C112_solution_exists.
(** A layer at half the share that is left out, and one at three times the least share that is kept. *)
Example C112_solution_exists_nonvacuous c : c = 1 / 100000000 \/ c = 6 / 100000000 -> let p := p_wk 1 c in exists mu w,
  valid p /\ double_gauss (half p) mu w /\ phase_nonneg p mu /\ passive_surface p mu w (fun _ _ => 0).
Proof.
  intros Hc'. cbv zeta. assert (Hc : 0 <= c < 1) by (destruct Hc'; subst c; lra). assert (H1 : 0 < 1) by lra.
  destruct (wk_ok 1 c H1 Hc junk0) as (out & Hp). destruct (wk_dg 1 c junk0 out Hp) as (w & HD). exists (po_mu out), w.
  split; [exact (P_Pydisort4.call_valid _ _ _ _ _ Hp)|]. split; [exact HD|]. split; [apply wk_nonneg; lra|apply wk_passive; lra].
Qed.

(** C112 in one statement: there is exactly one solution [V] that keeps all scattering, and the reported mean intensity
    and fluxes are near it, with a bound that can be computed from what is reported. *)
Theorem C112_error_known : forall p lg la jk out, linalg_ok la -> leggauss_ok (half p) (lg (half p)) -> pydisort p lg la jk = Ok out ->
  forall w vn vp rho, double_gauss (half p) (po_mu out) w -> boundary_data p vn vp rho -> (forall l, (l < nlayers p)%nat -> fwd p l < 1) ->
  phase_nonneg p (po_mu out) -> passive_surface p (po_mu out) w (rho 0%nat) ->
  forall M J, (forall t, 0 <= t <= bottom p -> exists A, po_u0 out [t] false false false = Ok (PVal (PT A)) /\ forall i, (i < streams p)%nat -> Rabs (elt A [i]) <= M) ->
  0 <= J -> (forall l, (l < nlayers p)%nat -> 2 * (INR (ncoeffs p) / 100000000) * (M + p_I0 p / (4 * PI)) <= (1 - albedo p l) * J) ->
  exists V, keeps_all p (po_mu out) w vn vp (rho 0%nat) V /\
  (forall W, keeps_all p (po_mu out) w vn vp (rho 0%nat) W -> forall i t, (i < streams p)%nat -> 0 <= t <= bottom p -> W i t = V i t) /\
  (forall t, 0 <= t <= bottom p -> exists A, po_u0 out [t] false false false = Ok (PVal (PT A)) /\ shp A = [streams p] /\ forall i, (i < streams p)%nat -> Rabs (V i t - elt A [i]) <= J) /\
  (forall tau, depths_ok p tau ->
  (exists A, po_flux_up out tau false false = Ok (PVal (PT A)) /\ twithin (PI * J) A (tsqueeze (mkT [length tau] (fun idx =>
     2 * PI * rsum (half p) (fun i => w i * nth i (po_mu out) 0 * V i (nth (nth 0 idx 0%nat) tau 0)))))) /\
  (exists A B, po_flux_down out tau false false = Ok (PTup [PT A; PT B]) /\ twithin (PI * J) A (tsqueeze (mkT [length tau] (fun idx => let t := nth (nth 0 idx 0%nat) tau 0 in
     2 * PI * rsum (half p) (fun i => w i * nth i (po_mu out) 0 * V (half p + i)%nat t) + p_mu0 p * p_I0 p * exp (- sdepth p t / p_mu0 p) - direct p t))))).
Proof. exact kept_all_in_all. Qed.
Print Assumptions C112_error_known.
Example C112_error_known_nonvacuous jk : let p := p_wk 1 (1 / 100000000) in exists out w M J,
  linalg_ok la_full /\ leggauss_ok (half p) (lg_12 (half p)) /\ pydisort p lg_12 la_full jk = Ok out /\ double_gauss (half p) (po_mu out) w /\
  boundary_data p (fun _ => 1) (fun _ => 0) (fun _ _ _ => 0) /\ (forall l, (l < nlayers p)%nat -> fwd p l < 1) /\ phase_nonneg p (po_mu out) /\ passive_surface p (po_mu out) w (fun _ _ => 0) /\
  (forall t, 0 <= t <= bottom p -> exists A, po_u0 out [t] false false false = Ok (PVal (PT A)) /\ forall i, (i < streams p)%nat -> Rabs (elt A [i]) <= M) /\
  0 <= J /\ (forall l, (l < nlayers p)%nat -> 2 * (INR (ncoeffs p) / 100000000) * (M + p_I0 p / (4 * PI)) <= (1 - albedo p l) * J).
Proof.
  cbv zeta. destruct (C112_left_out_reported_nonvacuous jk) as (out & w & V & M & J & H1 & H2 & H3 & H4 & H5 & H6 & H7 & H8 & H9 & H10 & H11 & _).
  exists out, w, M, J. repeat (split; [assumption|]). assumption.
Qed.

(** C112, the sign of the error: where nothing negative comes in, what is reported lies between 0 and the solution that
    keeps all scattering, so leaving out weak scattering never adds radiation. *)
Theorem C112_never_adds : forall p lg la jk out, linalg_ok la -> leggauss_ok (half p) (lg (half p)) -> pydisort p lg la jk = Ok out ->
  forall w vn vp rho, double_gauss (half p) (po_mu out) w -> boundary_data p vn vp rho ->
  phase_nonneg p (po_mu out) -> passive_surface p (po_mu out) w (rho 0%nat) -> beam_phase_nonneg p (po_mu out) ->
  (forall l t, (l < nlayers p)%nat -> top_of p l <= t <= bot_of p l -> 0 <= source p l t) ->
  (forall i, (i < half p)%nat -> 0 <= vn i) -> (forall i, (i < half p)%nat -> 0 <= vp i) ->
  forall V, keeps_all p (po_mu out) w vn vp (rho 0%nat) V ->
  forall t, 0 <= t <= bottom p -> exists A, po_u0 out [t] false false false = Ok (PVal (PT A)) /\ shp A = [streams p] /\
    forall i, (i < streams p)%nat -> 0 <= elt A [i] <= V i t.
Proof. exact reported_below. Qed.
Print Assumptions C112_never_adds.
(** Nor to the fluxes. *)
Theorem C112_never_adds_flux : forall p lg la jk out, linalg_ok la -> leggauss_ok (half p) (lg (half p)) -> pydisort p lg la jk = Ok out ->
  forall w vn vp rho, double_gauss (half p) (po_mu out) w -> boundary_data p vn vp rho ->
  phase_nonneg p (po_mu out) -> passive_surface p (po_mu out) w (rho 0%nat) -> beam_phase_nonneg p (po_mu out) ->
  (forall l t, (l < nlayers p)%nat -> top_of p l <= t <= bot_of p l -> 0 <= source p l t) ->
  (forall i, (i < half p)%nat -> 0 <= vn i) -> (forall i, (i < half p)%nat -> 0 <= vp i) ->
  forall V, keeps_all p (po_mu out) w vn vp (rho 0%nat) V ->
  forall tau, depths_ok p tau ->
  (exists A, po_flux_up out tau false false = Ok (PVal (PT A)) /\ tle A (tsqueeze (mkT [length tau] (fun idx =>
     2 * PI * rsum (half p) (fun i => w i * nth i (po_mu out) 0 * V i (nth (nth 0 idx 0%nat) tau 0)))))) /\
  (exists A B, po_flux_down out tau false false = Ok (PTup [PT A; PT B]) /\ tle A (tsqueeze (mkT [length tau] (fun idx => let t := nth (nth 0 idx 0%nat) tau 0 in
     2 * PI * rsum (half p) (fun i => w i * nth i (po_mu out) 0 * V (half p + i)%nat t) + p_mu0 p * p_I0 p * exp (- sdepth p t / p_mu0 p) - direct p t)))).
Proof. exact fluxes_below. Qed.
Print Assumptions C112_never_adds_flux.
(** For both: a case where the solution that keeps all scattering has upward radiation at the top. *)
Example C112_never_adds_nonvacuous jk : let p := p_wk 1 (1 / 100000000) in exists out w V,
  linalg_ok la_full /\ leggauss_ok (half p) (lg_12 (half p)) /\ pydisort p lg_12 la_full jk = Ok out /\ double_gauss (half p) (po_mu out) w /\
  boundary_data p (fun _ => 1) (fun _ => 0) (fun _ _ _ => 0) /\ phase_nonneg p (po_mu out) /\ passive_surface p (po_mu out) w (fun _ _ => 0) /\ beam_phase_nonneg p (po_mu out) /\
  (forall l t, (l < nlayers p)%nat -> top_of p l <= t <= bot_of p l -> 0 <= source p l t) /\
  keeps_all p (po_mu out) w (fun _ => 1) (fun _ => 0) (fun _ _ => 0) V /\ 0 < V 0%nat 0.
Proof.
  cbv zeta. destruct (C112_left_out_nonvacuous jk) as (out & w & V & M & J & H1 & H2 & H3 & H4 & H5 & H6 & H7 & H8 & H9 & _ & _ & _ & H10). set (p := p_wk 1 (1 / 100000000)) in *.
  exists out, w, V. repeat (split; [assumption|]). split; [apply wk_nonneg; lra|]. split; [|split; assumption].
  intros l t _ _. unfold p. rewrite wk_source. lra.
Qed.
