(** Properties C48-C50 and parts of C41 and C58: the Nakajima-Tanaka corrections of the intensity. *)
From Coq Require Import String Reals Lra Lia List Bool Arith ZArith.
From Coquelicot Require Import Coquelicot.
From Verif Require Import Base Tensor Spec M_LinAlg Spec_RTE M_Subroutines M_Assemble M_Pydisort Spec_Sol Spec_Valid Spec_Calls Spec_Anti Spec_NT
  P_Sub P_Sub3 P_Pydisort4 P_Absorb P_Refute P_NT3 P_NT4 Examples Examples3.
Import ListNotations.
Local Open Scope R_scope.

(** C48: the corrected intensity is the Fourier series of the computed modes, plus the source lost
    by the truncation in the layer of the depth asked for times the intensity [G] of a unit source
    in all layers, plus the second-order correction [W]. If the lost source is the same in all
    layers, the second term is the intensity which this source produces, as documented. *)
Theorem C48_correction_partial :
  forall p lg la jk out, linalg_ok la -> leggauss_ok (half p) (lg (half p)) -> pydisort p lg la jk = Ok out ->
  forall u, po_u out = Some u -> nt_finite p (po_mu out) ->
  exists w U G W,
    double_gauss (half p) (po_mu out) w /\ modes_of p out U /\ solves_rte p (po_mu out) w U /\
    (forall m i, (m < nmodes p)%nat -> (i < streams p)%nat -> cont_on 0 (bottom p) (U m i)) /\
    top_condition p U /\ bottom_condition p (po_mu out) w U /\
    scattered_once p (po_mu out) (fun _ _ _ => 1) (fun i t _ => G i t) /\
    second_order p (po_mu out) W /\
    nt_is p u false (fun i t phi => rsum (nmodes p) (fun m => U m i t * cos (INR m * (p_phi0 p - phi)))
                                    + missing p (lay p t) (nth i (po_mu out) 0) phi * G i t + W i t phi) /\
    ((forall l i phi, (l < nlayers p)%nat -> (i < streams p)%nat ->
        missing p l (nth i (po_mu out) 0) phi = missing p 0 (nth i (po_mu out) 0) phi) ->
     scattered_once p (po_mu out) (missing p) (fun i t phi => missing p (lay p t) (nth i (po_mu out) 0) phi * G i t)).
Proof.
  intros p lg la jk out H1 H2 H3 u H4 H5. destruct (nt_solution p lg la jk out H1 H2 H3 u H4 H5) as (w & U & G & W & A1 & A2 & A3 & A4 & A5 & A6 & A7 & _ & A8 & _ & A9).
  exists w, U, G, W. repeat (split; [assumption|]). exact (once_scaled p lg la jk out H3 G A7).
Qed.
Print Assumptions C48_correction_partial.
Example C48_nonvacuous jk : exists out u, linalg_ok la_id /\ leggauss_ok (half (p_tms (1 / 1000000000) (1 / 1000000000))) (lg_12 (half (p_tms (1 / 1000000000) (1 / 1000000000)))) /\
  pydisort (p_tms (1 / 1000000000) (1 / 1000000000)) lg_12 la_id jk = Ok out /\ po_u out = Some u /\ nt_finite (p_tms (1 / 1000000000) (1 / 1000000000)) (po_mu out) /\
  nlayers (p_tms (1 / 1000000000) (1 / 1000000000)) = 2%nat /\
  (forall l i phi, (l < 2)%nat -> missing (p_tms (1 / 1000000000) (1 / 1000000000)) l (nth i (po_mu out) 0) phi = missing (p_tms (1 / 1000000000) (1 / 1000000000)) 0 (nth i (po_mu out) 0) phi) /\
  missing (p_tms (1 / 1000000000) (1 / 1000000000)) 0 (nth 0 (po_mu out) 0) (PI / 2) <> 0.
Proof.
  assert (Ha : 0 < 1 / 1000000000 <= 2 / 1000000000) by lra.
  destruct (tms_ok _ _ Ha Ha jk) as (out & H). destruct (call_u _ _ _ _ _ H eq_refl) as (u & Hu). exists out, u.
  split; [exact la_id_ok|]. split; [exact leggauss1_ok|]. split; [exact H|]. split; [exact Hu|]. split; [exact (tms_finite _ _ Ha Ha jk out H)|].
  split; [reflexivity|]. split; [intros; apply tms_alike; auto|]. rewrite (tms_mu _ _ jk out H). apply (tms_missing_ne _ _ Ha Ha). lia.
Qed.

(** The full property is false: if the lost source differs between two neighbouring layers, the
    reported intensity jumps at their common boundary. *)
Theorem C48_jump_refuted :
  (forall p lg la jk out, linalg_ok la -> leggauss_ok (half p) (lg (half p)) -> pydisort p lg la jk = Ok out ->
   forall u, po_u out = Some u -> nt_finite p (po_mu out) -> forall f, nt_is p u false f ->
   forall i l phi, (i < streams p)%nat -> (S l < nlayers p)%nat -> fwd p l <> 1 -> fwd p (S l) <> 1 ->
   missing p l (nth i (po_mu out) 0) phi <> missing p (S l) (nth i (po_mu out) 0) phi ->
   ~ cont_on 0 (bottom p) (fun t => f i t phi)) /\
  (forall jk, exists p out u, linalg_ok la_id /\ leggauss_ok (half p) (lg_12 (half p)) /\ pydisort p lg_12 la_id jk = Ok out /\ po_u out = Some u /\
   nt_finite p (po_mu out) /\ (exists f, nt_is p u false f) /\
   exists i l phi, (i < streams p)%nat /\ (S l < nlayers p)%nat /\ fwd p l <> 1 /\ fwd p (S l) <> 1 /\
   missing p l (nth i (po_mu out) 0) phi <> missing p (S l) (nth i (po_mu out) 0) phi).
Proof.
  split.
  - intros p lg la jk out H1 H2 H3 u H4 H5 f H6 i l phi. exact (nt_jump p lg la jk out H1 H2 H3 u H4 H5 f i l phi H6).
  - intros jk. assert (Ha : 0 < 1 / 1000000000 <= 2 / 1000000000) by lra. assert (Hb : 0 < 2 / 1000000000 <= 2 / 1000000000) by lra.
    destruct (tms_ok _ _ Ha Hb jk) as (out & H). destruct (call_u _ _ _ _ _ H eq_refl) as (u & Hu). pose proof (tms_finite _ _ Ha Hb jk out H) as HF.
    exists (p_tms (1 / 1000000000) (2 / 1000000000)), out, u. split; [exact la_id_ok|]. split; [exact leggauss1_ok|]. split; [exact H|]. split; [exact Hu|]. split; [exact HF|]. split.
    + destruct (nt_solution (p_tms (1 / 1000000000) (2 / 1000000000)) lg_12 la_id jk out la_id_ok leggauss1_ok H u Hu HF) as (w & U & G & W & _ & _ & _ & _ & _ & _ & _ & _ & _ & _ & A9). eexists. exact A9.
    + exists 0%nat, 0%nat, (PI / 2). split; [cbn; lia|]. split; [cbn; lia|]. split; [unfold fwd; cbn; lra|]. split; [unfold fwd; cbn; lra|].
      rewrite (tms_mu _ _ jk out H). apply (tms_differ _ _ Ha Hb). lra.
Qed.
Print Assumptions C48_jump_refuted.

(** The corrections vanish for the light that enters: the corrected intensity meets the boundary
    conditions. *)
Theorem C48_boundaries :
  forall p lg la jk out, linalg_ok la -> leggauss_ok (half p) (lg (half p)) -> pydisort p lg la jk = Ok out ->
  forall u, po_u out = Some u -> nt_finite p (po_mu out) -> forall f, nt_is p u false f ->
  (forall v, bc_values (p_bneg p) (half p) v -> fwd p 0 <> 1 -> forall i phi, (i < half p)%nat -> f (half p + i)%nat 0 phi = v i) /\
  (forall v, bc_values (p_bpos p) (half p) v -> p_BDRF p = [] -> fwd p (nlayers p - 1) <> 1 ->
     forall i phi, (i < half p)%nat -> f i (bottom p) phi = v i).
Proof.
  intros p lg la jk out H1 H2 H3 u H4 H5 f H6. split.
  - intros v Hv. exact (nt_top p lg la jk out H1 H2 H3 u H4 H5 f v H6 Hv).
  - intros v Hv. exact (nt_bottom p lg la jk out H1 H2 H3 u H4 H5 f v H6 Hv).
Qed.
Print Assumptions C48_boundaries.
Example C48_boundaries_nonvacuous jk : exists p out u f, linalg_ok la_id /\ leggauss_ok (half p) (lg_12 (half p)) /\ pydisort p lg_12 la_id jk = Ok out /\ po_u out = Some u /\
  nt_finite p (po_mu out) /\ nt_is p u false f /\ bc_values (p_bneg p) (half p) (fun _ => 0) /\ bc_values (p_bpos p) (half p) (fun _ => 0) /\ p_BDRF p = [] /\ fwd p 0 <> 1 /\ fwd p (nlayers p - 1) <> 1.
Proof.
  assert (Ha : 0 < 1 / 1000000000 <= 2 / 1000000000) by lra. assert (Hb : 0 < 2 / 1000000000 <= 2 / 1000000000) by lra.
  destruct (tms_ok _ _ Ha Hb jk) as (out & H). destruct (call_u _ _ _ _ _ H eq_refl) as (u & Hu). pose proof (tms_finite _ _ Ha Hb jk out H) as HF.
  destruct (nt_solution (p_tms (1 / 1000000000) (2 / 1000000000)) lg_12 la_id jk out la_id_ok leggauss1_ok H u Hu HF) as (w & U & G & W & _ & _ & _ & _ & _ & _ & _ & _ & _ & _ & A9).
  exists (p_tms (1 / 1000000000) (2 / 1000000000)), out, u. eexists. split; [exact la_id_ok|]. split; [exact leggauss1_ok|]. split; [exact H|]. split; [exact Hu|]. split; [exact HF|]. split; [exact A9|].
  split; [apply bc_scal; reflexivity|]. split; [apply bc_scal; reflexivity|]. split; [reflexivity|]. split; unfold fwd; cbn; lra.
Qed.

(** C49: with one layer, or without an isotropic source and with the same scaling of optical depth
    in all layers, the flagged intensity is an antiderivative of the unflagged one. *)
Theorem C49_antiderivative_partial :
  forall p lg la jk out, linalg_ok la -> leggauss_ok (half p) (lg (half p)) -> pydisort p lg la jk = Ok out ->
  forall u, po_u out = Some u -> nt_finite p (po_mu out) ->
  nlayers p = 1%nat \/ ~ has_source p -> (forall l k, (l < nlayers p)%nat -> (k < nlayers p)%nat -> scl p l = scl p k) ->
  exists f F, nt_is p u false f /\ nt_is p u true F /\
    forall i phi, (i < streams p)%nat -> antiderivative p (fun t => F i t phi) (fun t => f i t phi).
Proof. exact nt_anti. Qed.
Print Assumptions C49_antiderivative_partial.
Example C49_nonvacuous jk : exists p out u, linalg_ok la_id /\ leggauss_ok (half p) (lg_12 (half p)) /\ pydisort p lg_12 la_id jk = Ok out /\ po_u out = Some u /\
  nt_finite p (po_mu out) /\ nlayers p = 2%nat /\ ~ has_source p /\ (forall l k, (l < nlayers p)%nat -> (k < nlayers p)%nat -> scl p l = scl p k).
Proof.
  assert (Ha : 0 < 1 / 1000000000 <= 2 / 1000000000) by lra.
  destruct (tms_ok _ _ Ha Ha jk) as (out & H). destruct (call_u _ _ _ _ _ H eq_refl) as (u & Hu). exists (p_tms (1 / 1000000000) (1 / 1000000000)), out, u.
  split; [exact la_id_ok|]. split; [exact leggauss1_ok|]. split; [exact H|]. split; [exact Hu|]. split; [exact (tms_finite _ _ Ha Ha jk out H)|].
  split; [reflexivity|]. split; [apply tms_nosource|]. intros [|[|l]] [|[|k]] Hl Hk; cbn in Hl, Hk; try lia; reflexivity.
Qed.

(** The full property is false: if the scaling differs between the two lowest layers, the flagged
    upward intensity is not an antiderivative. *)
Theorem C49_antiderivative_refuted :
  (forall p lg la jk out, linalg_ok la -> leggauss_ok (half p) (lg (half p)) -> pydisort p lg la jk = Ok out ->
   forall u, po_u out = Some u -> nt_finite p (po_mu out) -> ~ has_source p ->
   forall f F, nt_is p u false f -> nt_is p u true F ->
   forall i phi l, (i < half p)%nat -> S (S l) = nlayers p -> scl p l <> scl p (S l) -> fwd p l <> 1 -> missing p l (nth i (po_mu out) 0) phi <> 0 ->
   ~ antiderivative p (fun t => F i t phi) (fun t => f i t phi)) /\
  (forall jk, exists p out u, linalg_ok la_id /\ leggauss_ok (half p) (lg_12 (half p)) /\ pydisort p lg_12 la_id jk = Ok out /\ po_u out = Some u /\
   nt_finite p (po_mu out) /\ ~ has_source p /\ (exists f F, nt_is p u false f /\ nt_is p u true F) /\
   exists i phi l, (i < half p)%nat /\ S (S l) = nlayers p /\ scl p l <> scl p (S l) /\ fwd p l <> 1 /\ missing p l (nth i (po_mu out) 0) phi <> 0).
Proof.
  split.
  - intros p lg la jk out H1 H2 H3 u H4 H5 Hs f F H6 H7 i phi l. exact (nt_anti_wrong p lg la jk out H1 H2 H3 u H4 H5 (or_intror Hs) f F i phi l H6 H7).
  - intros jk. assert (Ha : 0 < 1 / 1000000000 <= 2 / 1000000000) by lra. assert (Hb : 0 < 2 / 1000000000 <= 2 / 1000000000) by lra.
    destruct (tms_ok _ _ Ha Hb jk) as (out & H). destruct (call_u _ _ _ _ _ H eq_refl) as (u & Hu). pose proof (tms_finite _ _ Ha Hb jk out H) as HF.
    exists (p_tms (1 / 1000000000) (2 / 1000000000)), out, u. split; [exact la_id_ok|]. split; [exact leggauss1_ok|]. split; [exact H|]. split; [exact Hu|]. split; [exact HF|].
    split; [apply tms_nosource|]. split.
    + destruct (nt_flag (p_tms (1 / 1000000000) (2 / 1000000000)) lg_12 la_id jk out la_id_ok leggauss1_ok H u Hu HF) as (h & A & _ & N1 & N2); [right; apply tms_nosource|]. eexists _, _. split; [exact N1|exact N2].
    + exists 0%nat, (PI / 2), 0%nat. split; [cbn; lia|]. split; [reflexivity|]. split; [apply (tms_differ _ _ Ha Hb); lra|]. split; [unfold fwd; cbn; lra|].
      rewrite (tms_mu _ _ jk out H). apply (tms_missing_ne _ _ Ha Hb). lia.
Qed.
Print Assumptions C49_antiderivative_refuted.

(** C50: the second-order correction is part of [C48_correction_partial] ([second_order]: the
    documented double integral) and its antiderivative of [C49_antiderivative_partial]. Its shape
    is wrong with one stream per hemisphere: every call with several azimuths fails. *)
Theorem C50_second_order_partial :
  forall p lg la jk out, linalg_ok la -> leggauss_ok (half p) (lg (half p)) -> pydisort p lg la jk = Ok out ->
  forall u, po_u out = Some u -> nt_finite p (po_mu out) ->
  exists f W, nt_is p u false (fun i t phi => f i t phi + W i t phi) /\ second_order p (po_mu out) W /\
    (forall i phi, (i < streams p)%nat -> W i 0 phi = 0) /\
    (exists U G, modes_of p out U /\ forall i t phi, f i t phi =
       rsum (nmodes p) (fun m => U m i t * cos (INR m * (p_phi0 p - phi))) + missing p (lay p t) (nth i (po_mu out) 0) phi * G i t).
Proof. exact nt_second. Qed.
Print Assumptions C50_second_order_partial.
Example C50_nonvacuous jk : exists p out u, linalg_ok la_id /\ leggauss_ok (half p) (lg_12 (half p)) /\ pydisort p lg_12 la_id jk = Ok out /\ po_u out = Some u /\
  nt_finite p (po_mu out) /\ nlayers p = 2%nat.
Proof.
  assert (Ha : 0 < 1 / 1000000000 <= 2 / 1000000000) by lra. assert (Hb : 0 < 2 / 1000000000 <= 2 / 1000000000) by lra.
  destruct (tms_ok _ _ Ha Hb jk) as (out & H). destruct (call_u _ _ _ _ _ H eq_refl) as (u & Hu). pose proof (tms_finite _ _ Ha Hb jk out H) as HF.
  exists (p_tms (1 / 1000000000) (2 / 1000000000)), out, u. split; [exact la_id_ok|]. split; [exact leggauss1_ok|]. split; [exact H|]. split; [exact Hu|]. split; [exact HF|]. reflexivity.
Qed.

Theorem C50_shape_refuted :
  (forall p lg la jk out, linalg_ok la -> leggauss_ok (half p) (lg (half p)) -> pydisort p lg la jk = Ok out ->
   forall u, po_u out = Some u -> nt_finite p (po_mu out) -> half p = 1%nat ->
   forall tau phi, (2 <= length phi)%nat -> tau <> [] -> depths_ok p tau -> (forall t, In t tau -> fwd p (lay p t) <> 1) ->
   u tau phi false false false = Err EShape) /\
  (forall jk, exists p out u, pydisort p lg_12 la_id jk = Ok out /\ po_u out = Some u /\ u [1] [0; 1] false false false = Err EShape).
Proof.
  split.
  - intros p lg la jk out H1 H2 H3 u H4 H5 HN tau phi Hp Hne Ht Hf. exact (nt_two_streams p lg la jk out H1 H2 H3 u H4 H5 tau phi HN Hp Hne Ht Hf).
  - intros jk. assert (Ha : 0 < 1 / 1000000000 <= 2 / 1000000000) by lra.
    destruct (tms_ok _ _ Ha Ha jk) as (out & H). destruct (call_u _ _ _ _ _ H eq_refl) as (u & Hu). pose proof (tms_finite _ _ Ha Ha jk out H) as HF.
    exists (p_tms (1 / 1000000000) (1 / 1000000000)), out, u. split; [exact H|]. split; [exact Hu|].
    apply (nt_two_streams (p_tms (1 / 1000000000) (1 / 1000000000)) lg_12 la_id jk out la_id_ok leggauss1_ok H u Hu HF); try reflexivity; try discriminate.
    + intros t [<-|[]]. cbn. lra.
    + intros t [<-|[]]. replace (lay _ 1) with 0%nat; [unfold fwd; cbn; lra|]. symmetry. apply (P_Pydisort5.lay_of_at _ (tms_valid _ _ Ha Ha)). split; [cbn; lia|]. left. unfold top_of, bot_of. cbn. lra.
Qed.
Print Assumptions C50_shape_refuted.

(** C41 with the corrections: the reported intensity is periodic in the azimuth and symmetric
    about the azimuth of the beam. *)
Theorem C41_azimuth_corrected_partial :
  forall p lg la jk out, linalg_ok la -> leggauss_ok (half p) (lg (half p)) -> pydisort p lg la jk = Ok out ->
  forall u, po_u out = Some u -> nt_finite p (po_mu out) -> forall f, nt_is p u false f ->
  forall i t, (i < streams p)%nat -> 0 <= t <= bottom p -> fwd p (lay p t) <> 1 ->
  forall x, f i t (x + 2 * PI) = f i t x /\ f i t (p_phi0 p + x) = f i t (p_phi0 p - x).
Proof. exact nt_azimuth. Qed.
Print Assumptions C41_azimuth_corrected_partial.
Example C41_corrected_nonvacuous jk : exists p out u f, linalg_ok la_id /\ leggauss_ok (half p) (lg_12 (half p)) /\ pydisort p lg_12 la_id jk = Ok out /\ po_u out = Some u /\
  nt_finite p (po_mu out) /\ nt_is p u false f /\ fwd p (lay p 0) <> 1.
Proof.
  destruct (C48_boundaries_nonvacuous jk) as (p & out & u & f & H1 & H2 & H3 & H4 & H5 & H6 & _ & _ & _ & H7 & _). exists p, out, u, f.
  repeat (split; [assumption|]). replace (lay p 0) with 0%nat; [exact H7|]. symmetry.
  apply (P_Pydisort5.lay_of_at p (call_valid p _ _ _ _ H3)). split; [apply (v_ne p (call_valid p _ _ _ _ H3))|right; auto].
Qed.

(** C58, also when scattering is so weak that the solver drops it in every mode. *)
Theorem C58_weak_scattering_solved :
  forall p lg la jk, valid p -> leggauss_ok (half p) (lg (half p)) -> linalg_complete la ->
  (forall m l, (m < nmodes p)%nat -> (l < nlayers p)%nat -> negligible (albedo_s p l) (wphase_s p l) (ncoeffs p) m) ->
  (exists v, bc_values (p_bpos p) (half p) v) -> (exists v, bc_values (p_bneg p) (half p) v) ->
  (forall m, (m < length (p_BDRF p))%nat -> exists rho, mode_is (nth m (p_BDRF p) (MScal 0)) rho) ->
  (~ has_source p -> nrow (p_s p) = 1%nat \/ nrow (p_s p) = nlayers p) ->
  (has_source p -> 0 < p_I0 p \/ positive_entry (p_bpos p) \/ positive_entry (p_bneg p)) ->
  (p_NT p = true -> forall x, In x (fst (Gauss_Legendre_quad lg (half p) 0 1)) -> 1 / 100000000 <= Rabs (x - p_mu0 p)) ->
  exists out, pydisort p lg la jk = Ok out.
Proof. exact negligible_ok. Qed.
Print Assumptions C58_weak_scattering_solved.
Example C58_weak_nonvacuous : let p := p_tms (1 / 1000000000) (2 / 1000000000) in valid p /\ linalg_complete la_id /\
  (forall m l, (m < nmodes p)%nat -> (l < nlayers p)%nat -> negligible (albedo_s p l) (wphase_s p l) (ncoeffs p) m) /\ 0 < albedo_s p 0 /\ p_NT p = true.
Proof.
  cbv zeta. assert (Ha : 0 < 1 / 1000000000 <= 2 / 1000000000) by lra. assert (Hb : 0 < 2 / 1000000000 <= 2 / 1000000000) by lra.
  split; [exact (tms_valid _ _ Ha Hb)|]. split; [apply la_id_complete|]. split.
  - intros m l Hm Hl k Hk. change (ncoeffs _) with 2%nat in Hk. change (nlayers _) with 2%nat in Hl. rewrite (tms_phase _ _ Ha Hb) by lia. pose proof (tms_albedo_s _ _ Ha Hb l Hl).
    destruct k as [|k]; [rewrite Rabs_pos_eq; lra|]. rewrite Rabs_left; lra.
  - split; [apply (tms_albedo_s _ _ Ha Hb); lia|reflexivity].
Qed.
