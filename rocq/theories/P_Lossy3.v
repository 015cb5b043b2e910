(** Delta-M scaled Henyey-Greenstein layers with two streams, and a concrete one. *)
From Coq Require Import Classical String Reals Lra Lia List Bool Arith ZArith.
From Coquelicot Require Import Coquelicot.
From Verif Require Import Base Tensor Spec M_LinAlg Spec_RTE M_Subroutines M_Assemble M_Pydisort Spec_Sol Spec_Valid Spec_Calls Spec_Phys Spec_Solved Spec_Rates Spec_Lossy
  P_Pydisort P_Spec4 P_Lossy2 Examples Examples6.
Import ListNotations.
Local Open Scope R_scope.

Theorem hg_rate p g m l : valid p -> p_NQuad p = 2%Z -> 0 <= g < 1 -> henyey_greenstein p g -> fwd p l = g ^ 2 -> (m < nmodes p)%nat -> (l < nlayers p)%nat -> 0 < rate2 p m l.
Proof.
  intros V HQ Hg HG Hf Hm Hl. pose proof (two_nc p V HQ) as (Hn & Hmn). pose proof (albedo_s_range p V l Hl) as HA. pose proof (two_ag p V HQ l Hl) as H1. cbv zeta in H1. unfold rate2. cbv zeta.
  destruct (Nat.eqb_spec m 0) as [->|Hm0]; [apply Rmult_lt_0_compat; lra|].
  destruct (Nat.eqb_spec (ncoeffs p) 1) as [E|E]; [lia|].
  assert (Hc : (2 <= ncol (p_Leg p))%nat) by (pose proof (v_leg p V); unfold ncoeffs, NLegZ in *; lia).
  pose proof (scl_pos p V l Hl) as Hs. pose proof (albedo_range p V l Hl) as Ho.
  unfold albedo_s, phase_s, phase. cbn [Nat.eqb]. rewrite (HG l 1%nat Hl ltac:(lia)), Hf. rewrite pow_1. unfold scl in *. rewrite Hf in *. set (o := albedo p l) in *.
  assert (g ^ 2 < 1) by nra.
  replace ((1 - g ^ 2) * o / (1 - o * g ^ 2) * ((g - g ^ 2) / (1 - g ^ 2))) with (o * (g - g ^ 2) / (1 - o * g ^ 2)) by (field; lra).
  enough (9/8 * (o * (g - g ^ 2) / (1 - o * g ^ 2)) < 1) by lra. apply Rmult_lt_reg_r with (1 - o * g ^ 2); [lra|].
  replace (9/8 * (o * (g - g ^ 2) / (1 - o * g ^ 2)) * (1 - o * g ^ 2)) with (9/8 * (o * (g - g ^ 2))) by (field; lra).
  assert (0 < (1 - g) * (8 - g)) by (apply Rmult_lt_0_compat; lra). assert (0 <= 9 * g - g ^ 2) by nra. assert (o * (9 * g - g ^ 2) <= 1 * (9 * g - g ^ 2)) by (apply Rmult_le_compat_r; lra). lra.
Qed.

Lemma two_free p : valid p -> p_NQuad p = 2%Z -> (forall m l, (m < nmodes p)%nat -> (l < nlayers p)%nat -> 4 * rate2 p m l <> / p_mu0 p ^ 2) -> no_resonance p.
Proof.
  intros V HQ H HI mu w m l HD Hm Hl Hr. apply (H m l Hm Hl). apply (two_resonant p V HQ mu w m l HD Hm Hl); [apply (v_mu0 p V HI)|apply Hr|exact Hr].
Qed.
Theorem hg_iff p g rho lg la jk : well_formed p rho -> p_NQuad p = 2%Z ->
  (forall m, (m < nmodes p)%nat -> (m < length (p_BDRF p))%nat -> Rabs (rho m (1/2) (1/2)) <= if Nat.eqb m 0 then 1 else 2) ->
  0 <= g < 1 -> henyey_greenstein p g -> (forall l, (l < nlayers p)%nat -> fwd p l = g ^ 2) ->
  leggauss_ok (half p) (lg (half p)) -> linalg_ok la -> linalg_unique la -> linalg_complete la -> linalg_total la ->
  (exists out, pydisort p lg la jk = Ok out) <-> no_resonance p.
Proof.
  intros WF HQ Hs Hg HG Hf Hlg Hla Hlu Hlc Hlt. apply (lossy_iff p rho); auto. pose proof (wf_valid p rho WF) as V. split; [exact WF|]. intros mu w HD. split; [|apply two_gain; auto].
  intros m l s Hm Hl Hn Hss. apply (two_loses p V HQ mu w m l s HD Hm Hl Hss). apply (hg_rate p g); auto.
Qed.

(** One layer with asymmetry 9/10 and the forward peak scaled away, over a reflecting surface. *)
Definition p_hgd (n : nat) : py_in := {|
  p_tau := [1]; p_omega := [99/100]; p_NQuad := 2;
  p_Leg := mkA2 1 n (fun _ k => (9/10) ^ k);
  p_mu0 := 3/5; p_I0 := 1; p_phi0 := 0; p_NLeg := None; p_NFourier := None;
  p_bpos := t0 0; p_bneg := t0 1; p_only_flux := false; p_f := [81/100]; p_NT := false;
  p_BDRF := [MScal (3/4)]; p_s := mkA2 1 1 (fun _ _ => 0); p_banded := 10; p_autograd := false |}.
Lemma hgd_valid n : (2 <= n)%nat -> valid (p_hgd n).
Proof.
  intros Hn. constructor; cbn -[Rlt Rle PI pow].
  - lia.
  - intros [|l] Hl; cbn; [lra|lia].
  - intros [|l] Hl; cbn; [lra|lia].
  - intros w [<-|[]]. lra.
  - lia.
  - reflexivity.
  - reflexivity.
  - reflexivity.
  - reflexivity.
  - intros l k Hl Hk. destruct k as [|k]; [lia|]. cbn [pow]. assert (0 <= (9/10) ^ k <= 1); [|lra]. split; [apply pow_le; lra|]. rewrite <- (pow1 k). apply pow_incr. lra.
  - lia.
  - reflexivity.
  - lia.
  - lia.
  - lra.
  - intros _. lra.
  - intros _. pose proof PI_RGT_0. lra.
  - right; left; reflexivity.
  - right; left; reflexivity.
  - intros f [<-|[]]. lra.
  - lia.
Qed.
Definition rho34 : nat -> R -> R -> R := fun _ _ _ => 3/4.
Lemma hgd_wf n : (2 <= n)%nat -> well_formed (p_hgd n) rho34.
Proof.
  intros Hn. constructor.
  - apply hgd_valid. exact Hn.
  - exists (fun _ => 0). apply bc_zero; auto.
  - exists (fun _ => 1). apply bc_scal; auto.
  - intros [|m] Hm; [|cbn in Hm; lia]. left. exists (3/4). auto.
  - intros _. right. reflexivity.
  - intros _. left. cbn. lra.
  - intros H. discriminate.
Qed.
Lemma hgd_surface n : forall m, (m < nmodes (p_hgd n))%nat -> (m < length (p_BDRF (p_hgd n)))%nat -> Rabs (rho34 m (1/2) (1/2)) <= if Nat.eqb m 0 then 1 else 2.
Proof. intros m _ _. unfold rho34. rewrite Rabs_right by lra. destruct (Nat.eqb m 0); lra. Qed.
Lemma hgd_hg n : henyey_greenstein (p_hgd n) (9/10).
Proof. intros l k _ _. reflexivity. Qed.
Lemma hgd_f n l : (l < nlayers (p_hgd n))%nat -> fwd (p_hgd n) l = (9/10) ^ 2.
Proof. intros Hl. destruct l; [|cbn in Hl; lia]. cbn. lra. Qed.
Lemma hgd_as n : albedo_s (p_hgd n) 0 = 1881/1981 /\ phase_s (p_hgd n) 0 0 = 1 /\ phase_s (p_hgd n) 0 1 = 9/19.
Proof. unfold albedo_s, phase_s, scl, albedo, fwd, phase; cbn -[Rle Rlt]. repeat split; field. Qed.
Lemma hgd_free n : (2 <= n)%nat -> no_resonance (p_hgd n).
Proof.
  intros Hn. apply two_free; [apply hgd_valid; exact Hn|reflexivity|]. intros m l Hm Hl. destruct l; [|cbn in Hl; lia]. destruct (hgd_as n) as (E1 & _ & E2).
  unfold rate2. cbv zeta. change (ncoeffs (p_hgd n)) with 2%nat. cbn [Nat.eqb]. rewrite E1, E2. cbn [p_mu0 p_hgd]. destruct (Nat.eqb m 0); lra.
Qed.
Lemma hgd_lossy n : (2 <= n)%nat -> lossy_input (p_hgd n) rho34.
Proof.
  intros Hn. split; [apply hgd_wf; exact Hn|]. intros mu w HD. pose proof (hgd_valid n Hn) as V. split; [|apply two_gain; auto; exact (hgd_surface n)].
  intros m l s Hm Hl _ Hs. apply (two_loses (p_hgd n) V eq_refl mu w m l s HD Hm Hl Hs). apply (hg_rate (p_hgd n) (9/10)); auto using hgd_hg; [lra|exact (hgd_f n l Hl)].
Qed.
(** Its truncated phase function is negative backwards, so that C65 says nothing about it. *)
Lemma hgd_unphysical n mu w rho : double_gauss (half (p_hgd n)) mu w -> ~ physical (p_hgd n) mu w rho.
Proof.
  intros HD HP. change (half (p_hgd n)) with 1%nat in HD. destruct (dg_one mu w HD) as (-> & Ew). destruct (hgd_as n) as (E1 & E0 & E2).
  pose proof (phy_phase _ _ _ _ HP 0%nat 0%nat 1%nat PI (le_n 1) ltac:(rewrite E1; lra) (le_S _ _ (le_n 1)) (le_n 2)) as X. cbn [nth] in X.
  unfold phase_fn in X. change (ncoeffs (p_hgd n)) with 2%nat in X. cbn [rsum Nat.eqb] in X. unfold phase_mode in X. change (ncoeffs (p_hgd n)) with 2%nat in X. cbn [rsum Nat.leb] in X.
  unfold wphase_s in X. rewrite E0, E2, poch_11, lpmv_11, lpmv_11, !lpmv_01, !lpmv_00 in X. unfold poch_term in X. cbn [Nat.sub Nat.add fact INR Nat.mul] in X. rewrite Rmult_0_l, cos_0 in X. replace (1 * PI) with PI in X by ring. rewrite cos_PI in X.
  replace ((-1/2) ^ 2) with ((1/2) ^ 2) in X by field. assert (Es : sqrt (1 - (1/2) ^ 2) * sqrt (1 - (1/2) ^ 2) = 3/4) by (rewrite sqrt_sqrt by lra; lra). set (s := sqrt (1 - (1/2) ^ 2)) in *.
  match type of X with 0 <= ?e => replace e with (1 - 27/19 * (1/4) - 27/19 * (s * s)) in X by field end. rewrite Es in X. lra.
Qed.
