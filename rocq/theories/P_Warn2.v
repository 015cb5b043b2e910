(** Warnings: answered calls, rejected calls, the announced correction, silent failures. *)
From Coq Require Import Classical String Reals Lra Lia List Bool Arith ZArith FunctionalExtensionality.
From Coquelicot Require Import Coquelicot.
From Verif Require Import Base Tensor Spec M_LinAlg Spec_RTE M_Subroutines M_Assemble M_Pydisort M_Warn Spec_Sol Spec_Valid Spec_Calls Spec_Phys Spec_Solved Spec_Rates Spec_Lossy Spec_Sun Spec_Warn
  P_Sub3 P_Valid P_Pydisort P_Pydisort2 P_Pydisort4 P_Pydisort8 P_Refine P_Max P_Absorb P_Warn P_Rates2 P_Lossy2 P_Lossy3 Examples Examples2 Examples5 P_Gauss P_Error M_Warn.
Import ListNotations.
Local Open Scope R_scope.

Lemma warned_core p lg ss : valid p -> NT_angle_ok p lg = true -> scaled_s p = Ok ss -> NoDup (py_warnings p lg) /\
  (In WLeg0 (py_warnings p lg) <-> exists l, (l < nlayers p)%nat /\ albedo p l <> 0 /\ at2 (p_Leg p) l 0%nat <> 1) /\
  (In WFourier (py_warnings p lg) <-> (64 < nmodes p)%nat) /\
  (In WAlbedo (py_warnings p lg) <-> exists l, (l < nlayers p)%nat /\ 1 - 1 / 1000000 < albedo_s p l) /\
  (In WLeg (py_warnings p lg) <-> exists l k, (l < nlayers p)%nat /\ (1 <= k < ncoeffs p)%nat /\ (fwd p l = 1 \/ 95/100 < Rabs (phase_s p l k))).
Proof.
  intros V E2 E3. rewrite <- (leg0_iff p), <- (fourier_iff p), <- (albedo_iff p V), <- (leg_iff p V). rewrite (warnings_eq p lg ss V E2 E3).
  destruct (leg0_bad p), (fourier_large p), (albedo_large p), (leg_large p); cbn [app In];
    (split; [repeat (constructor; [cbn; intuition discriminate|]); constructor|]); intuition discriminate.
Qed.
Theorem warned p lg la jk out : pydisort p lg la jk = Ok out -> NoDup (py_warnings p lg) /\
  (In WLeg0 (py_warnings p lg) <-> exists l, (l < nlayers p)%nat /\ albedo p l <> 0 /\ at2 (p_Leg p) l 0%nat <> 1) /\
  (In WFourier (py_warnings p lg) <-> (64 < nmodes p)%nat) /\
  (In WAlbedo (py_warnings p lg) <-> exists l, (l < nlayers p)%nat /\ 1 - 1 / 1000000 < albedo_s p l) /\
  (In WLeg (py_warnings p lg) <-> exists l k, (l < nlayers p)%nat /\ (1 <= k < ncoeffs p)%nat /\ (fwd p l = 1 \/ 95/100 < Rabs (phase_s p l k))).
Proof.
  intros H. pose proof (proj1 (pydisort_parts _ _ _ _ _ H)) as V. unfold pydisort in H.
  destruct (validate p) eqn:E1; [cbn [bind] in H|discriminate]. unfold check in H. destruct (NT_angle_ok p lg) eqn:E2; [cbn [bind] in H|discriminate]. destruct (scaled_s p) as [ss|] eqn:E3; [|discriminate].
  exact (warned_core p lg ss V E2 E3).
Qed.
Lemma wf_stage p rho lg : well_formed p rho -> leggauss_ok (half p) (lg (half p)) -> NT_angle_ok p lg = true /\ exists ss, scaled_s p = Ok ss.
Proof.
  intros [V H1 H2 H3 H4 H5 H6] Hlg. split.
  - unfold NT_angle_ok. destruct (p_NT p) eqn:E; [|reflexivity]. cbn [andb]. apply negb_true_iff. apply not_true_is_false. intros H.
    apply existsb_exists in H as (i & Hi & H). apply in_seq in Hi. apply Rltb_iff in H. change (pN p) with (half p) in Hi. pose proof (mu_arr_gauss p lg Hlg) as HD.
    specialize (H6 eq_refl _ _ i HD ltac:(lia)). rewrite (mu_arr_node p lg) in H6 by lia. unfold node in H6. rewrite (proj2 (Nat.ltb_lt i (half p))) in H6 by lia. unfold of_list, quad_mu in *. lra.
  - destruct (prep_ok p V H4 H5) as (ss & r & E & _). eauto.
Qed.
Lemma in_warn_app a b w : In w (steps_warnings (a ++ b)) -> In w (steps_warnings a) \/ (steps_result a = Ok tt /\ In w (steps_warnings b)).
Proof.
  induction a as [|[ok s|c v] a IH]; cbn; [auto|destruct ok; [auto|intros []]|]. rewrite !in_app_iff. intros [H|H]; [auto|]. destruct (IH H); tauto.
Qed.
Lemma firstn_minus2 {A} (l : list A) x y : firstn (length (l ++ [x; y]) - 2) (l ++ [x; y]) = l.
Proof. rewrite app_length. cbn [length]. replace (length l + 2 - 2)%nat with (length l) by lia. rewrite firstn_app, Nat.sub_diag, firstn_all. cbn. apply app_nil_r. Qed.
Theorem warned_rejected p lg w : ~ valid p -> In w (py_warnings p lg) -> w = WLeg0 \/ w = WFourier.
Proof.
  intros HV H. assert (HN : run_checks (checks p) <> Ok tt).
  { intros E. unfold py_warnings in H. destruct (p_tau p) eqn:Et; [destruct H|]. apply HV, validate_iff. unfold validate. rewrite Et. exact E. }
  assert (H' : In w (steps_warnings (steps p lg)) \/ In w (steps_warnings (firstn (length (steps p lg) - 2) (steps p lg)))).
  { unfold py_warnings in H. destruct (p_tau p); [destruct H|]. destruct (scaled_s p); auto. }
  clear H. set (A := map to_step (firstn 9 (checks p)) ++ [Warn (leg0_bad p) WLeg0] ++ map to_step (firstn 5 (skipn 9 (checks p))) ++ [Warn (fourier_large p) WFourier] ++ map to_step (skipn 14 (checks p))).
  assert (HA : In w (steps_warnings A) -> w = WLeg0 \/ w = WFourier).
  { unfold A. intros H. apply in_warn_app in H as [H|(_ & H)]; [rewrite warn_checks in H; destruct H|]. apply in_warn_app in H as [H|(_ & H)]; [cbn in H; destruct (leg0_bad p); cbn in H; [destruct H as [<-|[]]; auto|destruct H]|].
    apply in_warn_app in H as [H|(_ & H)]; [rewrite warn_checks in H; destruct H|]. apply in_warn_app in H as [H|(_ & H)]; [cbn in H; destruct (fourier_large p); cbn in H; [destruct H as [<-|[]]; auto|destruct H]|]. rewrite warn_checks in H. destruct H. }
  assert (HR : steps_result A <> Ok tt).
  { intros E. apply HN. unfold A in E. rewrite !steps_app, !steps_checks in E. cbn [steps_result bind] in E.
    change (run_checks (checks p)) with (run_checks (firstn 9 (checks p) ++ firstn 5 (skipn 9 (checks p)) ++ skipn 14 (checks p))). rewrite !checks_app.
    destruct (run_checks (firstn 9 (checks p))) as [[]|]; cbn [bind] in *; [|discriminate]. destruct (run_checks (firstn 5 (skipn 9 (checks p)))) as [[]|]; cbn [bind] in *; [|discriminate]. exact E. }
  apply HA. set (c := Check (NT_angle_ok p lg) "Some quadrature angles come too close to `mu0`. Perturb `NQuad` or `mu0` to rectify this error.").
  assert (E1 : steps p lg = A ++ [c; Warn (albedo_large p) WAlbedo; Warn (leg_large p) WLeg]) by (unfold steps, A, c; rewrite <- !app_assoc; reflexivity).
  assert (E2 : steps p lg = (A ++ [c]) ++ [Warn (albedo_large p) WAlbedo; Warn (leg_large p) WLeg]) by (rewrite E1, <- app_assoc; reflexivity).
  destruct H' as [H|H].
  - rewrite E1 in H. apply in_warn_app in H as [H|(H & _)]; [exact H|contradiction].
  - rewrite E2, firstn_minus2 in H. apply in_warn_app in H as [H|(H & _)]; [exact H|contradiction].
Qed.

(** The announced correction. *)
Lemma normal_leg p : leg0_bad p = true -> Leg_all (normalised p) = Leg_all p.
Proof.
  intros H. unfold Leg_all at 2. rewrite H. unfold Leg_all. cbn [normalised p_Leg]. destruct (leg0_bad (normalised p)); [|reflexivity].
  apply functional_extensionality. intros l. apply functional_extensionality. intros k. cbn. destruct (Nat.eqb k 0); reflexivity.
Qed.
Theorem normal_same p lg la jk : leg0_bad p = true -> pydisort (normalised p) lg la jk = pydisort p lg la jk.
Proof.
  intros H. pose proof (normal_leg p H) as E.
  assert (Ev : validate (normalised p) = validate p).
  { unfold validate, checks. rewrite E. reflexivity. }
  unfold pydisort. rewrite Ev. destruct (validate p); [cbn [bind]|reflexivity].
  change (NT_angle_ok (normalised p) lg) with (NT_angle_ok p lg). destruct (check (NT_angle_ok p lg) _); [cbn [bind]|reflexivity].
  change (scaled_s (normalised p)) with (scaled_s p). destruct (scaled_s p) as [ss|]; [cbn [bind]|reflexivity].
  change (rescale (normalised p) ss) with (rescale p ss). destruct (rescale p ss) as [r|]; [cbn [bind]|reflexivity].
  assert (Es : scaled_Leg (normalised p) = scaled_Leg p) by (unfold scaled_Leg; rewrite E; reflexivity).
  assert (Ew : weighted_scaled_Leg (normalised p) = weighted_scaled_Leg p) by (unfold weighted_scaled_Leg; rewrite Es; reflexivity).
  assert (Ea : assemble_args (normalised p) lg r ss = assemble_args p lg r ss) by (unfold assemble_args; rewrite Ew; reflexivity).
  rewrite Ea. destruct (solve_all (assemble_args p lg r ss) la jk) as [sv|]; [cbn [bind]|reflexivity].
  rewrite E. f_equal. f_equal. change (p_only_flux (normalised p)) with (p_only_flux p). destruct (p_only_flux p); [reflexivity|]. f_equal.
  change (NT_active (normalised p)) with (NT_active p). destruct (NT_active p); [|reflexivity].
  unfold u_corrected, NT_corrections, TMS_correction, IMS_correction, mathscr_B, weighted_Leg_all, Leg_residue_avg, Leg_residue. rewrite Ew, E. reflexivity.
Qed.
Lemma bad_warned p lg : In WLeg0 (py_warnings p lg) -> leg0_bad p = true.
Proof.
  intros H. destruct (leg0_bad p) eqn:E; [reflexivity|]. exfalso.
  assert (X : forall l, In WLeg0 (steps_warnings l) -> exists c, In (Warn c WLeg0) l /\ c = true).
  { induction l as [|[ok s|c v] l IH]; cbn; [intros []| |].
    - destruct ok; [|intros []]. intros H'. destruct (IH H') as (c & A & B). eauto.
    - rewrite in_app_iff. intros [H'|H']; [destruct c; [destruct H' as [->|[]]; eauto|destruct H']|]. destruct (IH H') as (c' & A & B). eauto. }
  assert (Y : forall c, In (Warn c WLeg0) (steps p lg) -> c = leg0_bad p).
  { intros c. unfold steps. rewrite !in_app_iff. intros [A|[A|[A|[A|[A|A]]]]].
    - apply in_map_iff in A as (q & A & _). discriminate.
    - destruct A as [A|[]]. injection A. auto.
    - apply in_map_iff in A as (q & A & _). discriminate.
    - destruct A as [A|[]]. discriminate.
    - apply in_map_iff in A as (q & A & _). discriminate.
    - destruct A as [A|[A|[A|[]]]]; discriminate. }
  unfold py_warnings in H. destruct (p_tau p); [destruct H|]. destruct (scaled_s p).
  - destruct (X _ H) as (c & A & ->). apply Y in A. congruence.
  - destruct (X _ H) as (c & A & ->). assert (B : In (Warn true WLeg0) (steps p lg)) by (rewrite <- (firstn_skipn (length (steps p lg) - 2)); apply in_or_app; auto). apply Y in B. congruence.
Qed.
Theorem warned_corrected p lg la jk : In WLeg0 (py_warnings p lg) -> pydisort p lg la jk = pydisort (normalised p) lg la jk.
Proof. intros H. symmetry. apply normal_same. exact (bad_warned p lg H). Qed.

(** A call that fails without a warning. *)
Lemma hg_silent n lg : (2 <= n)%nat -> py_warnings (p_hg n) lg = [].
Proof.
  intros Hn. pose proof (hg_valid n Hn) as V.
  rewrite (warnings_eq (p_hg n) lg (fun _ _ => 0) V).
  - replace (leg0_bad (p_hg n)) with false. replace (fourier_large (p_hg n)) with false by reflexivity. replace (albedo_large (p_hg n)) with false. replace (leg_large (p_hg n)) with false; [reflexivity|].
    + symmetry. apply not_true_iff_false. rewrite (leg_iff _ V). intros (l & k & Hl & Hk & H). change (ncoeffs (p_hg n)) with 2%nat in Hk. assert (k = 1%nat) as -> by lia. destruct l; [|cbn in Hl; lia].
      unfold phase_s, phase, fwd in H. cbn -[Rle Rlt Rabs] in H. destruct H as [H|H]; [lra|]. rewrite Rabs_right in H; lra.
    + symmetry. apply not_true_iff_false. rewrite (albedo_iff _ V). intros (l & Hl & H). destruct l; [|cbn in Hl; lia]. unfold albedo_s, scl, albedo, fwd in H. cbn -[Rle Rlt] in H. lra.
    + symmetry. apply not_true_iff_false. rewrite leg0_iff. intros (l & Hl & _ & H). apply H. reflexivity.
  - reflexivity.
  - unfold scaled_s. replace (has_iso (p_hg n)) with false; [reflexivity|]. symmetry. apply not_true_iff_false. rewrite has_iso_iff. intros (i & j & _ & _ & H). apply H. reflexivity.
Qed.
(** Two streams. *)
Theorem silent_two p rho lg la jk : well_formed p rho -> p_NQuad p = 2%Z ->
  (forall m, (m < nmodes p)%nat -> (m < length (p_BDRF p))%nat -> Rabs (rho m (1/2) (1/2)) <= if Nat.eqb m 0 then 1 else 2) ->
  leggauss_ok (half p) (lg (half p)) -> linalg_ok la -> linalg_unique la -> linalg_complete la -> linalg_total la ->
  ~ In WLeg (py_warnings p lg) -> (forall l, (l < nlayers p)%nat -> albedo_s p l <= 935/1000) ->
  (exists out, pydisort p lg la jk = Ok out) <-> no_resonance p.
Proof.
  intros WF HQ Hs Hlg Hla Hlu Hlc Hlt HW HA. pose proof (wf_valid p rho WF) as V. apply (lossy_iff p rho); auto. split; [exact WF|]. intros mu w HD. split; [|apply two_gain; auto].
  intros m l s Hm Hl _ Hss. apply (two_loses p V HQ mu w m l s HD Hm Hl Hss).
  destruct (wf_stage p rho lg WF Hlg) as (HN & ss & Es). destruct (warned_core p lg ss V HN Es) as (_ & _ & _ & _ & HL).
  pose proof (albedo_s_range p V l Hl) as Ha. specialize (HA l Hl). unfold rate2. cbv zeta. destruct (Nat.eqb_spec (ncoeffs p) 1) as [E1|E1].
  - destruct (Nat.eqb m 0); nra.
  - assert (Hp : Rabs (phase_s p l 1) <= 95/100).
    { destruct (Rle_lt_dec (Rabs (phase_s p l 1)) (95/100)) as [|H]; [assumption|]. exfalso. apply HW, HL. exists l, 1%nat. split; [exact Hl|]. split; [pose proof (two_nc p V HQ); lia|auto]. }
    apply Rabs_le_between in Hp. assert (albedo_s p l * phase_s p l 1 <= 88825/100000) by nra. destruct (Nat.eqb m 0); [apply Rmult_lt_0_compat; lra|lra].
Qed.

(** Two-stream examples: zeroth coefficient [c], albedo [om], asymmetry [g], [nf] azimuthal modes. *)
Definition p_w (c om g : R) (nf : option Z) : py_in := {|
  p_tau := [1]; p_omega := [om]; p_NQuad := 2;
  p_Leg := mkA2 1 2 (fun _ k => if Nat.eqb k 0 then c else g);
  p_mu0 := 3/5; p_I0 := 1; p_phi0 := 0; p_NLeg := None; p_NFourier := nf;
  p_bpos := t0 0; p_bneg := t0 1; p_only_flux := false; p_f := [0]; p_NT := false;
  p_BDRF := [MScal (3/4)]; p_s := mkA2 1 1 (fun _ _ => 0); p_banded := 10; p_autograd := false |}.
Lemma w_valid c om g nf : 0 <= om < 1 -> -1 < g < 1 -> nf = None \/ nf = Some 1%Z -> valid (p_w c om g nf).
Proof.
  intros Ho Hg Hf. constructor; cbn -[Rlt Rle PI pow].
  - lia.
  - intros [|l] Hl; cbn; [lra|lia].
  - intros [|l] Hl; cbn; [lra|lia].
  - intros w [<-|[]]. lra.
  - lia.
  - reflexivity.
  - reflexivity.
  - reflexivity.
  - reflexivity.
  - intros l k Hl Hk. destruct k as [|k]; [lia|]. cbn. lra.
  - lia.
  - reflexivity.
  - destruct Hf as [->| ->]; cbn; lia.
  - lia.
  - lra.
  - intros _. lra.
  - intros _. pose proof PI_RGT_0. lra.
  - right; left; reflexivity.
  - right; left; reflexivity.
  - intros f [<-|[]]. lra.
  - lia.
Qed.
Lemma w_wf c om g nf : 0 <= om < 1 -> -1 < g < 1 -> nf = None \/ nf = Some 1%Z -> well_formed (p_w c om g nf) rho34.
Proof.
  intros Ho Hg Hf. constructor.
  - apply w_valid; auto.
  - exists (fun _ => 0). apply bc_zero; auto.
  - exists (fun _ => 1). apply bc_scal; auto.
  - intros [|m] Hm; [|cbn in Hm; lia]. left. exists (3/4). auto.
  - intros _. right. reflexivity.
  - intros _. left. cbn. lra.
  - intros H. discriminate.
Qed.
Lemma w_surface c om g nf : forall m, (m < nmodes (p_w c om g nf))%nat -> (m < length (p_BDRF (p_w c om g nf)))%nat -> Rabs (rho34 m (1/2) (1/2)) <= if Nat.eqb m 0 then 1 else 2.
Proof. intros m _ _. unfold rho34. rewrite Rabs_right by lra. destruct (Nat.eqb m 0); lra. Qed.
Lemma w_as c om g nf : albedo_s (p_w c om g nf) 0 = om /\ phase_s (p_w c om g nf) 0 1 = g /\ fwd (p_w c om g nf) 0 = 0.
Proof. unfold albedo_s, phase_s, scl, albedo, fwd, phase; cbn -[Rle Rlt]. repeat split; field; lra. Qed.
Lemma loud_answer c jk : exists out, pydisort (p_w c (9999999/10000000) (97/100) (Some 1%Z)) gauss_rule la_full jk = Ok out.
Proof.
  set (p := p_w c (9999999/10000000) (97/100) (Some 1%Z)).
  apply (two_iff p rho34 gauss_rule la_full jk); [apply w_wf; auto; lra|reflexivity|apply w_surface|apply gauss_rule_ok|exact la_full_ok|exact la_full_unique|exact la_full_complete|exact la_full_total|].
  intros m l Hm Hl _. destruct l; [|cbn in Hl; lia]. assert (m = 0%nat) as -> by (cbn in Hm; lia). destruct (w_as c (9999999/10000000) (97/100) (Some 1%Z)) as (E1 & E2 & _). fold p in E1, E2.
  unfold rate2. change (ncoeffs p) with 2%nat. cbv zeta. cbn [Nat.eqb]. rewrite E1, E2. change (p_mu0 p) with (3/5). split; [lra|]. intros _. lra.
Qed.
Lemma loud_warn : let p := p_w 2 (9999999/10000000) (97/100) (Some 1%Z) in In WLeg0 (py_warnings p gauss_rule) /\ In WAlbedo (py_warnings p gauss_rule) /\ In WLeg (py_warnings p gauss_rule).
Proof.
  intros p. destruct (loud_answer 2 junk0) as (out & H). destruct (warned _ _ _ _ _ H) as (_ & H0 & _ & H1 & H2). fold p in H0, H1, H2. destruct (w_as 2 (9999999/10000000) (97/100) (Some 1%Z)) as (E1 & E2 & E3). fold p in E1, E2, E3. split; [|split].
  - apply H0. exists 0%nat. split; [cbn; lia|]. split; unfold albedo; cbn; lra.
  - apply H1. exists 0%nat. split; [cbn; lia|]. rewrite E1. lra.
  - apply H2. exists 0%nat, 1%nat. split; [cbn; lia|]. split; [cbn; lia|]. right. rewrite E2, Rabs_right; lra.
Qed.
Lemma quiet_free : no_resonance (p_w 1 (9/10) (9/10) None).
Proof.
  apply two_free; [apply w_valid; auto; lra|reflexivity|]. intros m l Hm Hl. destruct l; [|cbn in Hl; lia]. destruct (w_as 1 (9/10) (9/10) None) as (E1 & E2 & _).
  unfold rate2. cbv zeta. change (ncoeffs (p_w 1 (9/10) (9/10) None)) with 2%nat. cbn [Nat.eqb]. rewrite E1, E2. cbn [p_mu0 p_w]. destruct (Nat.eqb m 0); lra.
Qed.
Lemma quiet_leg : ~ In WLeg (py_warnings (p_w 1 (9/10) (9/10) None) gauss_rule).
Proof.
  set (p := p_w 1 (9/10) (9/10) None). assert (WF : well_formed p rho34) by (apply w_wf; auto; lra). destruct (wf_stage p rho34 gauss_rule WF (proj1 (gauss_rule_ok _))) as (HN & ss & Es).
  destruct (warned_core p gauss_rule ss (wf_valid _ _ WF) HN Es) as (_ & _ & _ & _ & HL). rewrite HL. intros (l & k & Hl & Hk & H). destruct l; [|cbn in Hl; lia]. assert (k = 1%nat) as -> by (cbn in Hk; lia).
  destruct (w_as 1 (9/10) (9/10) None) as (_ & E2 & E3). fold p in E2, E3. rewrite E2, E3 in H. destruct H as [H|H]; [lra|]. rewrite Rabs_right in H; lra.
Qed.
(** A rejected call that warns: the cosine of the beam is 2. *)
Lemma bad_sun_warns lg : In WLeg0 (py_warnings (at_sun (p_w 2 (1/2) 0 (Some 1%Z)) 2) lg).
Proof.
  set (q := p_w 2 (1/2) 0 (Some 1%Z)). set (p := at_sun q 2). assert (V : valid q) by (apply w_valid; auto; lra). apply validate_iff in V. assert (H9 : run_checks (firstn 9 (checks p)) = Ok tt).
  { change (firstn 9 (checks p)) with (firstn 9 (checks q)). apply run_firstn. exact V. }
  unfold py_warnings. change (p_tau p) with [1]. replace (scaled_s p) with (@Ok (nat -> nat -> R) (fun _ _ => 0)).
  - unfold steps. rewrite warn_app by (rewrite steps_checks; exact H9). apply in_or_app. right. cbn [app steps_warnings]. apply in_or_app. left. replace (leg0_bad p) with true; [left; reflexivity|].
    symmetry. apply leg0_iff. exists 0%nat. split; [cbn; lia|]. split; unfold albedo; cbn; lra.
  - unfold scaled_s. replace (has_iso p) with false; [reflexivity|]. symmetry. apply not_true_iff_false. rewrite has_iso_iff. intros (i & j & _ & _ & H). apply H. reflexivity.
Qed.
