(** Atmospheres that lose: sun angles, and concrete peaked layers with enough streams. *)
From Coq Require Import Classical String Reals Lra Lia List Bool Arith ZArith.
From Coquelicot Require Import Coquelicot.
From Verif Require Import Base Tensor Spec M_LinAlg Spec_RTE M_Subroutines M_Assemble M_Pydisort Spec_Sol Spec_Valid Spec_Calls Spec_Unique Spec_Phys Spec_Solved Spec_Sun Spec_Rates Spec_Lossy
  P_Pydisort P_Pydisort2 P_Gauss P_Sun P_Spec4 P_Spec7 P_Rates P_Rates2 P_Lossy2 P_Lossy3 P_Orth2 Examples Examples5 Examples6 Examples9.
Import ListNotations.
Local Open Scope R_scope.

Theorem lossy_suns p rho : 0 < p_I0 p -> exists L, (length L <= nmodes p * (nlayers p * half p))%nat /\
  forall x lg la jk, lossy_input (at_sun p x) rho -> leggauss_ok (half p) (lg (half p)) -> linalg_ok la -> linalg_unique la -> linalg_complete la -> linalg_total la ->
  ((exists out, pydisort (at_sun p x) lg la jk = Ok out) <-> ~ In x L).
Proof.
  intros HI. destruct (classic (exists x, lossy_input (at_sun p x) rho)) as [(x0 & (HW0 & _))|HE].
  - destruct (directions_exist (half p)) as (mu & w & HD). assert (Es : streams p = (2 * half p)%nat) by (apply (streams_eq (at_sun p x0)), (wf_valid _ _ HW0)).
    destruct (sun_all p mu w HD Es (nmodes p) (nlayers p)) as (L & HL & E). exists L. split; auto. intros x lg la jk HP Hlg H1 H2 H3 H4.
    rewrite (lossy_iff (at_sun p x) rho lg la jk HP Hlg H1 H2 H3 H4). rewrite <- E. pose proof (wf_valid _ _ (proj1 HP)) as V. split.
    + intros NR (_ & m & l & Hm & Hl & R). exact (NR HI mu w m l HD Hm Hl R).
    + intros H _ mu' w' m l HD' Hm Hl R. apply H. split; [apply (v_mu0 _ V); exact HI|].
      exists m, l. split; [exact Hm|]. split; [exact Hl|]. exact (resonant_order (at_sun p x) mu' w' mu w m l V HD' HD R).
  - exists []. split; [cbn; lia|]. intros x lg la jk HP. exfalso. eauto.
Qed.
Theorem enough_lossy p rho : well_formed p rho -> (2 * ncoeffs p <= streams p)%nat -> (forall mu w, double_gauss (half p) mu w -> no_gain p mu w rho) -> lossy_input p rho.
Proof.
  intros WF Hn Hg. pose proof (wf_valid p rho WF) as V. split; [exact WF|]. intros mu w HD. split; [|auto].
  intros m l s Hm Hl _ Hs. apply enough_loses; auto. rewrite (streams_eq p V) in Hn. lia.
Qed.
Theorem enough_suns p rho : 0 < p_I0 p -> exists L, (length L <= nmodes p * (nlayers p * half p))%nat /\
  forall x lg la jk, well_formed (at_sun p x) rho -> (2 * ncoeffs p <= streams p)%nat -> (forall mu w, double_gauss (half p) mu w -> no_gain p mu w rho) ->
  leggauss_ok (half p) (lg (half p)) -> linalg_ok la -> linalg_unique la -> linalg_complete la -> linalg_total la ->
  ((exists out, pydisort (at_sun p x) lg la jk = Ok out) <-> ~ In x L).
Proof.
  intros HI. destruct (lossy_suns p rho HI) as (L & HL & E). exists L. split; [exact HL|]. intros x lg la jk WF Hn Hg. apply E. exact (enough_lossy (at_sun p x) rho WF Hn Hg).
Qed.

(** A conservative-like layer with asymmetry 9/10, not scaled, [n] coefficients and [2 n] streams. *)
Definition p_en (n : nat) (x : R) : py_in := {|
  p_tau := [1]; p_omega := [99/100]; p_NQuad := Z.of_nat (2 * n);
  p_Leg := mkA2 1 n (fun _ k => (9/10) ^ k);
  p_mu0 := x; p_I0 := 1; p_phi0 := 0; p_NLeg := Some (Z.of_nat n); p_NFourier := Some (Z.of_nat n);
  p_bpos := t0 0; p_bneg := t0 0; p_only_flux := false; p_f := [0]; p_NT := false;
  p_BDRF := [MScal (3/4)]; p_s := mkA2 1 1 (fun _ _ => 0); p_banded := 10; p_autograd := false |}.
Lemma en_half n x : half (p_en n x) = n.
Proof. unfold half, p_en; cbn [p_NQuad]. rewrite Nat2Z.inj_mul, Z.mul_comm. change (Z.of_nat 2) with 2%Z. rewrite Z.div_mul by lia. apply Nat2Z.id. Qed.
Lemma en_sizes n x : ncoeffs (p_en n x) = n /\ nmodes (p_en n x) = n /\ streams (p_en n x) = (2 * n)%nat.
Proof. unfold ncoeffs, nmodes, streams, p_en; cbn [p_NLeg p_NFourier p_NQuad p_only_flux]. rewrite !Nat2Z.id. auto. Qed.
Lemma en_valid n x : (1 <= n)%nat -> 0 < x <= 1 -> valid (p_en n x).
Proof.
  intros Hn Hx. constructor; cbn -[Rlt Rle PI pow Z.mul Z.of_nat Z.modulo Z.div Nat.mul].
  - lia.
  - intros [|l] Hl; cbn; [lra|lia].
  - intros [|l] Hl; cbn; [lra|lia].
  - intros w [<-|[]]. lra.
  - lia.
  - reflexivity.
  - reflexivity.
  - reflexivity.
  - reflexivity.
  - intros l k Hl Hk. destruct k as [|k]; [lia|]. cbn [pow]. assert (0 <= (9/10) ^ k <= 1); [|lra]. split; [apply pow_le; lra|]. rewrite <- (pow1 k). apply pow_incr. lra.
  - lia.
  - rewrite Nat2Z.inj_mul, Z.mul_comm. change (Z.of_nat 2) with 2%Z. apply Z_mod_mult.
  - unfold NFourierZ, NLegZ; cbn. lia.
  - unfold NLegZ; cbn -[Z.of_nat Nat.mul]. lia.
  - lra.
  - intros _. lra.
  - intros _. pose proof PI_RGT_0. lra.
  - right; left; reflexivity.
  - right; left; reflexivity.
  - intros f [<-|[]]. lra.
  - lia.
Qed.
Lemma en_wf n x : (1 <= n)%nat -> 0 < x <= 1 -> well_formed (p_en n x) rho34.
Proof.
  intros Hn Hx. constructor.
  - apply en_valid; auto.
  - exists (fun _ => 0). apply bc_zero; auto.
  - exists (fun _ => 0). apply bc_zero; auto.
  - intros [|m] Hm; [|cbn in Hm; lia]. left. exists (3/4). auto.
  - intros _. right. reflexivity.
  - intros _. left. cbn. lra.
  - intros H. discriminate.
Qed.
Lemma en_gain n x mu w : (1 <= n)%nat -> 0 < x <= 1 -> double_gauss (half (p_en n x)) mu w -> no_gain (p_en n x) mu w rho34.
Proof. intros Hn Hx HD. apply (lambert_gain _ mu w rho34 (3/4)); [apply en_valid; auto|exact HD|cbn; lia|lra|reflexivity]. Qed.
Lemma en_enough n x : (2 * ncoeffs (p_en n x) <= streams (p_en n x))%nat.
Proof. destruct (en_sizes n x) as (-> & _ & ->). lia. Qed.
(** For two coefficients the phase function is negative backwards. *)
Lemma en_unphysical x mu w rho : double_gauss (half (p_en 2 x)) mu w -> ~ physical (p_en 2 x) mu w rho.
Proof.
  intros HD HP. change (half (p_en 2 x)) with 2%nat in HD. destruct HD as (_ & HM & _). destruct (HM 0%nat ltac:(lia)) as (H0 & H2 & _).
  assert (E1 : albedo_s (p_en 2 x) 0 = 99/100 /\ phase_s (p_en 2 x) 0 0 = 1 /\ phase_s (p_en 2 x) 0 1 = 9/10) by (unfold albedo_s, phase_s, scl, albedo, fwd, phase; cbn -[Rle Rlt]; repeat split; field).
  destruct E1 as (E1 & E0 & E2).
  pose proof (phy_phase _ _ _ _ HP 0%nat 0%nat 2%nat PI (le_n 1) ltac:(rewrite E1; lra) ltac:(cbn; lia) ltac:(cbn; lia)) as X.
  change (2 + 0)%nat with 2%nat in H2. rewrite H2 in X.
  unfold phase_fn in X. change (ncoeffs (p_en 2 x)) with 2%nat in X. cbn [rsum Nat.eqb] in X. unfold phase_mode in X. change (ncoeffs (p_en 2 x)) with 2%nat in X. cbn [rsum Nat.leb] in X.
  unfold wphase_s in X. rewrite E0, E2, poch_11, lpmv_11, lpmv_11, !lpmv_01, !lpmv_00 in X. unfold poch_term in X. cbn [Nat.sub Nat.add fact INR Nat.mul] in X. rewrite Rmult_0_l, cos_0 in X. replace (1 * PI) with PI in X by ring. rewrite cos_PI in X.
  set (y := nth 0 mu 0) in *. replace ((- y) ^ 2) with (y ^ 2) in X by ring. assert (Es : sqrt (1 - y ^ 2) * sqrt (1 - y ^ 2) = 1 - y ^ 2) by (apply sqrt_sqrt; nra). set (s := sqrt (1 - y ^ 2)) in *.
  match type of X with 0 <= ?e => replace e with (1 - 27/10 * (y ^ 2) - 27/10 * (s * s)) in X by field end. rewrite Es in X. lra.
Qed.
(** Some sun angle does not resonate. *)
Lemma outside (L : list R) : exists x, 0 < x <= 1 /\ ~ In x L.
Proof.
  assert (H : forall L, exists e, 0 < e <= 1 /\ forall y, In y L -> 0 < y -> e < y).
  { clear L. induction L as [|y L (e & He & IH)]; [exists 1; split; [lra|intros y []]|]. destruct (Rle_lt_dec y 0) as [Hy|Hy].
    - exists e. split; [exact He|]. intros z [<-|Hz] Hp; [lra|auto].
    - exists (Rmin (e / 2) (y / 2)). pose proof (Rmin_l (e / 2) (y / 2)). pose proof (Rmin_r (e / 2) (y / 2)). split; [split; [apply Rmin_glb_lt; lra|lra]|]. intros z [<-|Hz] Hp; [lra|]. specialize (IH z Hz Hp). lra. }
  destruct (H L) as (e & He & HL). exists e. split; [exact He|]. intros Hi. specialize (HL e Hi ltac:(lra)). lra.
Qed.
Lemma en_solved n jk : (1 <= n)%nat -> exists x out, 0 < x <= 1 /\ no_resonance (p_en n x) /\ pydisort (p_en n x) gauss_rule la_full jk = Ok out.
Proof.
  intros Hn. destruct (lossy_suns (p_en n 1) rho34 ltac:(cbn; lra)) as (L & _ & HL). destruct (outside L) as (x & Hx & HN).
  assert (HP : lossy_input (p_en n x) rho34) by (apply enough_lossy; [apply en_wf; auto|apply en_enough|intros; apply en_gain; auto]).
  assert (Hlg : leggauss_ok (half (p_en n x)) (gauss_rule (half (p_en n x)))) by apply gauss_rule_ok.
  pose proof (proj2 (HL x gauss_rule la_full jk HP Hlg la_full_ok la_full_unique la_full_complete la_full_total) HN) as HO. change (at_sun (p_en n 1) x) with (p_en n x) in HO.
  destruct HO as (out & HO). exists x, out. split; [exact Hx|]. split; [|exact HO].
  apply (proj1 (lossy_iff (p_en n x) rho34 gauss_rule la_full jk HP Hlg la_full_ok la_full_unique la_full_complete la_full_total)). exists out. exact HO.
Qed.
Theorem lossy_deps p lg lg' la la' jk jk' out out' rho : linalg_ok la -> linalg_ok la' -> leggauss_ok (half p) (lg (half p)) -> leggauss_ok (half p) (lg' (half p)) ->
  increasing (fst (lg (half p))) -> increasing (fst (lg' (half p))) ->
  pydisort p lg la jk = Ok out -> pydisort p lg' la' jk' = Ok out' -> lossy_input p rho -> same_values out out'.
Proof.
  intros L L' G G' I I' E E' P. rewrite pydisort_rule in E, E'. rewrite <- (ok_unique _ _ _ G G' I I') in E'.
  exact (lossy_same p (fun _ => lg (half p)) la la' jk jk' out out' rho L L' G E E' P).
Qed.
Theorem enough_lose p mu w : valid p -> double_gauss (half p) mu w -> (2 * ncoeffs p <= streams p)%nat ->
  forall m l s, (m < nmodes p)%nat -> (l < nlayers p)%nat -> s = 1 \/ s = -1 -> loses p mu w m l s.
Proof. intros V HD Hn m l s Hm Hl Hs. apply enough_loses; auto. rewrite (streams_eq p V) in Hn. lia. Qed.
Theorem enough_sharp : exists p, valid p /\ (2 * ncoeffs p = streams p + 2)%nat /\ p_BDRF p = [] /\
  forall lg la jk out, leggauss_ok (half p) (lg (half p)) -> linalg_ok la -> linalg_total la -> pydisort p lg la jk <> Ok out.
Proof.
  exists (p_hg 2). split; [apply hg_valid; lia|]. split; [reflexivity|]. split; [reflexivity|].
  intros lg la jk out Hlg Hla Hlt. exact (no_answer (p_hg 2) lg la jk 1 0 Hlg Hla Hlt (le_n 2) (le_n 1) (hg_over 2 (le_n 2)) out).
Qed.
