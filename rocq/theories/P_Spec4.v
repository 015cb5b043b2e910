(** In a physical atmosphere without sources there is no radiation, in any Fourier mode. *)
From Coq Require Import Classical String Reals Lra Lia List Bool Arith ZArith.
From Coquelicot Require Import Coquelicot.
From Verif Require Import Base Tensor Spec M_LinAlg Spec_RTE Calc M_Subroutines M_GenPart M_MathscrV M_Coeffs M_Assemble M_Pydisort
  Spec_Sol Spec_Valid Spec_Calls Spec_Unique Spec_Phys Spec_Solved Spec_Rates P_Special P_Solve P_Energy P_Pydisort P_Pydisort2 P_Pydisort3 P_Pydisort4 P_Pydisort5 P_NT3 P_Unique2 P_Refine P_Max P_Max2
  P_GenPart3 P_Spec1 P_Spec2.
Import ListNotations.
Local Open Scope R_scope.

Section Two.
  Variables (p : py_in) (V : valid p) (mu : list R) (w : nat -> R).
  Hypothesis Hdg : double_gauss (half p) mu w.
  Let N := half p.
  Variable m : nat.
  (** The scattering of the mode is weaker than the extinction. *)
  Hypothesis Hrow : forall l wg i, (l < nlayers p)%nat -> (i < 2 * N)%nat -> is_cutoff (albedo_s p l) (wphase_s p l) (ncoeffs p) m wg ->
    rsum (2 * N) (fun j => wnode N w j * Rabs (D_spec (albedo_s p l) wg (ncoeffs p) m (nth i mu 0) (nth j mu 0))) <= albedo_s p l.
  Variable Rm : nat -> nat -> R.
  Hypothesis HR : forall i, (i < N)%nat -> rsum N (fun j => Rabs (Rm i j)) <= 1.

  Lemma nu_ne j : (j < 2 * N)%nat -> nth j mu 0 <> 0.
  Proof.
    intros Hj. destruct Hdg as (_ & H2 & _). destruct (Nat.lt_ge_cases j N) as [Hj'|Hj']; [destruct (H2 j Hj'); lra|].
    destruct (H2 (j - N)%nat ltac:(unfold N in *; lia)) as (P1 & P2 & _). replace (half p + (j - N))%nat with j in P2 by (unfold N in *; lia). lra.
  Qed.

  Definition free (F : nat -> R -> R) : Prop :=
    (forall i, (i < 2 * N)%nat -> cont_on 0 (bottom p) (F i)) /\
    (forall l i t, (l < nlayers p)%nat -> (i < 2 * N)%nat -> top_of p l < t < bot_of p l ->
      exists wg, is_cutoff (albedo_s p l) (wphase_s p l) (ncoeffs p) m wg /\
      is_derive (F i) t (scl p l * (F i t - rsum (2 * N) (fun j => wnode N w j * D_spec (albedo_s p l) wg (ncoeffs p) m (nth i mu 0) (nth j mu 0) * F j t)) / nth i mu 0)) /\
    (forall i, (i < N)%nat -> F (N + i)%nat 0 = 0) /\
    (forall i, (i < N)%nat -> F i (bottom p) = rsum N (fun j => Rm i j * F (N + j)%nat (bottom p))).

  Lemma free_opp F : free F -> free (fun i t => - F i t).
  Proof.
    intros (H1 & H2 & H3 & H4). split; [|split; [|split]].
    - intros i Hi. apply (cont_on_ext _ _ (fun t => (-1) * F i t)); [intros; ring|]. apply cont_on_scal. auto.
    - intros l i t Hl Hi Ht. destruct (H2 l i t Hl Hi Ht) as (wg & Hc & HD). exists wg. split; [exact Hc|].
      refine (der_eq _ _ _ _ _ (der_ext (fun t => (-1) * F i t) _ _ _ _ (der_scal _ (-1) _ _ HD))); [|intros; ring].
      rewrite (rsum_ext _ (fun j => _ * - F j t) (fun j => - (wnode N w j * D_spec (albedo_s p l) wg (ncoeffs p) m (nth i mu 0) (nth j mu 0) * F j t))) by (intros; ring).
      rewrite rsum_opp. unfold Rdiv. ring.
    - intros i Hi. rewrite H3 by auto. ring.
    - intros i Hi. rewrite H4 by auto. rewrite <- rsum_opp. apply rsum_ext. intros; ring.
  Qed.

  Lemma sum_ge n (k F : nat -> R) M : (forall j, (j < n)%nat -> Rabs (F j) <= M) -> - (M * rsum n (fun j => Rabs (k j))) <= rsum n (fun j => k j * F j).
  Proof.
    intros H. rewrite <- rsum_scal, <- rsum_opp. apply rsum_le. intros j Hj. specialize (H j Hj).
    assert (Rabs (k j * F j) <= M * Rabs (k j)).
    { rewrite Rabs_mult, (Rmult_comm M). apply Rmult_le_compat_l; [apply Rabs_pos|exact H]. }
    pose proof (Rabs_maj2 (k j * F j)). lra.
  Qed.

  Lemma free_deriv F M : free F -> (forall j x, (j < 2 * N)%nat -> 0 <= x <= bottom p -> Rabs (F j x) <= M) ->
    forall l i t, (l < nlayers p)%nat -> (i < 2 * N)%nat -> top_of p l < t < bot_of p l ->
    exists d, is_derive (F i) t d /\ nth i mu 0 * d <= scl p l * (F i t + albedo_s p l * M).
  Proof.
    intros (_ & H2 & _) HM l i t Hl Hi Ht. destruct (H2 l i t Hl Hi Ht) as (wg & Hc & HD). eexists. split; [exact HD|].
    pose proof (nu_ne i Hi) as Hnu. pose proof (scl_pos p V l Hl) as Hs. destruct (layer_in p V l Hl) as (B0 & B1).
    assert (HM0 : 0 <= M) by (eapply Rle_trans; [apply Rabs_pos|apply (HM i t Hi); lra]).
    match goal with |- nth i mu 0 * (?x / nth i mu 0) <= _ => replace (nth i mu 0 * (x / nth i mu 0)) with x by (field; exact Hnu) end.
    apply Rmult_le_compat_l; [lra|]. apply Rplus_le_compat_l. rewrite <- (Ropp_involutive (albedo_s p l * M)). apply Ropp_le_contravar.
    eapply Rle_trans; [|apply (sum_ge (2 * N) (fun j => wnode N w j * D_spec (albedo_s p l) wg (ncoeffs p) m (nth i mu 0) (nth j mu 0)) (fun j => F j t) M)].
    - apply Ropp_le_contravar. rewrite (Rmult_comm _ M). apply Rmult_le_compat_l; [exact HM0|]. refine (Rle_trans _ _ _ _ (Hrow l wg i Hl Hi Hc)).
      apply rsum_le. intros j Hj. rewrite Rabs_mult, (Rabs_right (wnode N w j)); [lra|]. apply Rle_ge, Rlt_le, (wnode_pos p mu w Hdg j Hj).
    - intros j Hj. apply HM; auto. lra.
  Qed.

  Lemma free_strict F M : 0 < M -> free F -> (forall j x, (j < 2 * N)%nat -> 0 <= x <= bottom p -> Rabs (F j x) <= M) ->
    forall i t, (i < N)%nat -> 0 <= t <= bottom p -> - M < F (N + i)%nat t.
  Proof.
    intros HM HF HB i t Hi Ht.
    refine (down_above p V mu w Hdg F M (albedo_s p) HM _ _ _ (free_deriv F M HF HB) _ i t Hi Ht).
    - intros l Hl. apply (albedo_s_range p V l Hl).
    - apply HF.
    - intros j x Hj Hx. specialize (HB j x Hj Hx). pose proof (Rabs_maj2 (F j x)). lra.
    - intros j Hj. destruct HF as (_ & _ & H3 & _). rewrite H3 by auto. lra.
  Qed.
  Lemma free_above F M : 0 < M -> free F -> (forall j x, (j < 2 * N)%nat -> 0 <= x <= bottom p -> Rabs (F j x) <= M) ->
    forall i t, (i < 2 * N)%nat -> 0 <= t <= bottom p -> - M < F i t.
  Proof.
    intros HM HF HB i t Hi Ht. assert (Hbt : 0 <= bottom p <= bottom p) by lra.
    pose proof (free_strict F M HM HF HB) as L.
    assert (Up : forall i t, (i < N)%nat -> 0 <= t <= bottom p -> F (N + i)%nat t < M).
    { intros j x Hj Hx. pose proof (free_strict (fun i t => - F i t) M HM (free_opp F HF) ltac:(intros; cbn beta; rewrite Rabs_Ropp; auto) j x Hj Hx). lra. }
    refine (all_above p V mu w Hdg F M (albedo_s p) HM _ _ _ (free_deriv F M HF HB) _ _ i t Hi Ht).
    - intros l Hl. apply (albedo_s_range p V l Hl).
    - apply HF.
    - intros j x Hj Hx. specialize (HB j x Hj Hx). pose proof (Rabs_maj2 (F j x)). lra.
    - intros j Hj. destruct HF as (_ & _ & H3 & _). rewrite H3 by auto. lra.
    - intros j Hj E. exfalso. destruct HF as (_ & _ & _ & H4). rewrite H4 in E by auto. pose proof (HR j Hj) as HRj.
      set (s := fun k => Rabs (Rm j k) * (M - Rabs (F (N + k)%nat (bottom p)))).
      assert (Hlt : forall k, (k < N)%nat -> Rabs (F (N + k)%nat (bottom p)) < M).
      { intros k Hk. apply Rabs_def1; [apply Up; auto|]. apply L; auto. }
      assert (S0 : rsum N s <= 0).
      { unfold s. rewrite (rsum_ext N _ (fun k => M * Rabs (Rm j k) - Rabs (Rm j k * F (N + k)%nat (bottom p)))) by (intros; rewrite Rabs_mult; ring).
        rewrite rsum_minus, rsum_scal.
        assert (rsum N (fun k => - Rabs (Rm j k * F (N + k)%nat (bottom p))) <= rsum N (fun k => Rm j k * F (N + k)%nat (bottom p))).
        { apply rsum_le. intros k Hk. pose proof (Rabs_maj2 (Rm j k * F (N + k)%nat (bottom p))). lra. }
        rewrite rsum_opp in H. fold N in E. rewrite E in H. nra. }
      assert (Sn : forall k, (k < N)%nat -> 0 <= s k) by (intros k Hk; apply Rmult_le_pos; [apply Rabs_pos|pose proof (Hlt k Hk); lra]).
      assert (Z : forall k, (k < N)%nat -> s k = 0) by (apply rsum_zero_nonneg; [exact Sn|apply Rle_antisym; [exact S0|apply rsum_nonneg; exact Sn]]).
      fold N in E. rewrite rsum_0 in E; [lra|]. intros k Hk. destruct (Rmult_integral _ _ (Z k Hk)) as [Z0|Z0].
      + destruct (Req_dec (Rm j k) 0) as [->|Hne]; [ring|]. exfalso. exact (Rabs_no_R0 _ Hne Z0).
      + exfalso. pose proof (Hlt k Hk). lra.
  Qed.

  Theorem free_zero F : free F -> forall i t, (i < 2 * N)%nat -> 0 <= t <= bottom p -> F i t = 0.
  Proof.
    intros HF i t Hi Ht. pose proof (half_pos p V) as HN. fold N in HN. pose proof (free_opp F HF) as HF'.
    destruct (family_min 0 (bottom p) (2 * N) F ltac:(lia) ltac:(lra) (proj1 HF)) as (i0 & t0 & Hi0 & Ht0 & Hmin).
    destruct (family_min 0 (bottom p) (2 * N) _ ltac:(lia) ltac:(lra) (proj1 HF')) as (i1 & t1 & Hi1 & Ht1 & Hmin').
    cbn beta in Hmin'. set (M := Rmax (- F i0 t0) (F i1 t1)).
    assert (HM : forall j x, (j < 2 * N)%nat -> 0 <= x <= bottom p -> Rabs (F j x) <= M).
    { intros j x Hj Hx. pose proof (Hmin j x Hj Hx). pose proof (Hmin' j x Hj Hx). pose proof (Rmax_l (- F i0 t0) (F i1 t1)). pose proof (Rmax_r (- F i0 t0) (F i1 t1)).
      unfold M. apply Rabs_le. lra. }
    destruct (Rle_lt_dec M 0) as [Hle|Hlt].
    - pose proof (HM i t Hi Ht). pose proof (Rabs_pos (F i t)). destruct (Req_dec (F i t) 0) as [|Hne]; [assumption|]. pose proof (Rabs_pos_lt _ Hne). lra.
    - exfalso. pose proof (free_above F M Hlt HF HM i0 t0 Hi0 Ht0). 
      pose proof (free_above _ M Hlt HF' ltac:(intros; cbn beta; rewrite Rabs_Ropp; auto) i1 t1 Hi1 Ht1) as Hx. cbn beta in Hx.
      unfold M, Rmax in *. destruct (Rle_dec _ _); lra.
  Qed.
End Two.

(** Bounds of the Fourier modes of a physical atmosphere. *)
Section Phys.
  Variables (p : py_in) (V : valid p) (mu : list R) (w : nat -> R) (rho : nat -> R -> R -> R).
  Hypothesis Hdg : double_gauss (half p) mu w.
  Hypothesis Hphy : physical p mu w rho.
  Let N := half p.

  Lemma phase_mode_le m l i j : (l < nlayers p)%nat -> 0 < albedo_s p l -> (i < 2 * N)%nat -> (j < 2 * N)%nat ->
    Rabs (phase_mode p m l (nth i mu 0) (nth j mu 0)) <= phase_mode p 0 l (nth i mu 0) (nth j mu 0).
  Proof.
    intros Hl Hal Hi Hj. pose proof (nc_range p V) as Hnc.
    assert (Hpos : forall t, 0 <= rsum (ncoeffs p) (fun k => ((if Nat.eqb k 0 then 1 else 2) * phase_mode p k l (nth i mu 0) (nth j mu 0)) * cos (INR k * t))).
    { intros t. apply (phy_phase p mu w rho Hphy l i j t Hl Hal); rewrite (streams_eq p V); auto. }
    assert (P0 : 0 <= phase_mode p 0 l (nth i mu 0) (nth j mu 0)).
    { pose proof (trig_zero (ncoeffs p) (fun k => (if Nat.eqb k 0 then 1 else 2) * phase_mode p k l (nth i mu 0) (nth j mu 0)) ltac:(lia) Hpos) as T. cbn [Nat.eqb] in T. lra. }
    destruct (Nat.lt_ge_cases m (ncoeffs p)) as [Hm|Hm].
    - destruct m as [|m]; [rewrite Rabs_right; lra|]. pose proof (trig_bound (ncoeffs p) (fun k => (if Nat.eqb k 0 then 1 else 2) * phase_mode p k l (nth i mu 0) (nth j mu 0)) Hpos (S m) ltac:(lia)) as T. cbn [Nat.eqb] in T.
      rewrite Rabs_mult, (Rabs_right 2) in T by lra. lra.
    - unfold phase_mode at 1. rewrite rsum_0; [rewrite Rabs_R0; exact P0|]. intros k Hk. rewrite (proj2 (Nat.leb_gt m k)) by lia. reflexivity.
  Qed.
  Lemma phys_row0 m l i : (l < nlayers p)%nat -> (i < 2 * N)%nat ->
    rsum (2 * N) (fun j => wnode N w j * Rabs (D_spec (albedo_s p l) (wphase_s p l) (ncoeffs p) m (nth i mu 0) (nth j mu 0))) <= albedo_s p l.
  Proof.
    intros Hl Hi. pose proof (albedo_s_range p V l Hl) as Hal.
    apply Rle_trans with (rsum (2 * N) (fun j => wnode N w j * D_spec (albedo_s p l) (wphase_s p l) (ncoeffs p) 0 (nth i mu 0) (nth j mu 0))).
    - apply rsum_le. intros j Hj. apply Rmult_le_compat_l; [apply Rlt_le, (wnode_pos p mu w Hdg j Hj)|].
      rewrite !D_spec_mode, Rabs_mult, (Rabs_right (albedo_s p l / 2)) by lra.
      destruct (Req_dec (albedo_s p l) 0) as [->|Hne]; [unfold Rdiv; rewrite !Rmult_0_l; lra|].
      apply Rmult_le_compat_l; [lra|]. apply phase_mode_le; auto. lra.
    - destruct Hdg as (H1 & H2 & _ & H4). pose proof (half_pos p V) as HN.
      rewrite (rsum_ext _ _ (fun j => wnode N w j * D_spec (albedo_s p l) (wphase_s p l) (ncoeffs p) 0 (nth j mu 0) (nth i mu 0))) by (intros; rewrite D_spec_sym; reflexivity).
      pose proof (nc_range p V) as Hnc. rewrite (D_sum N mu w HN H1) by first [exact Hi | exact Hnc | exact H4 | exact Hdg | intros k Hk; apply (H2 k Hk)]. rewrite albedo_norm by auto. lra.
  Qed.
  Lemma phys_row m l wg i : (l < nlayers p)%nat -> (i < 2 * N)%nat -> is_cutoff (albedo_s p l) (wphase_s p l) (ncoeffs p) m wg ->
    rsum (2 * N) (fun j => wnode N w j * Rabs (D_spec (albedo_s p l) wg (ncoeffs p) m (nth i mu 0) (nth j mu 0))) <= albedo_s p l.
  Proof.
    intros Hl Hi Hc. pose proof (albedo_s_range p V l Hl) as Hal. destruct (cut_cases p l m wg Hc) as [E|E].
    - rewrite rsum_0; [lra|]. intros j Hj. rewrite D_spec_0 by exact E. rewrite Rabs_R0. ring.
    - rewrite (rsum_ext _ _ (fun j => wnode N w j * Rabs (D_spec (albedo_s p l) (wphase_s p l) (ncoeffs p) m (nth i mu 0) (nth j mu 0)))) by (intros j Hj; rewrite (D_spec_lt _ wg (wphase_s p l)) by auto; reflexivity).
      apply phys_row0; auto.
  Qed.
  (** Radiation of either symmetry loses. *)
  Lemma phys_loses m l s : (l < nlayers p)%nat -> s = 1 \/ s = -1 -> loses p mu w m l s.
  Proof.
    intros Hl Hs x Hx. set (K := D_spec (albedo_s p l) (wphase_s p l) (ncoeffs p) m). destruct Hdg as (_ & HM & _).
    assert (Kf : forall a b, K a (- b) = K b (- a)) by (intros a b; unfold K; rewrite D_spec_sym, D_spec_neg; reflexivity).
    assert (PD : pd N (fun i j => w i * delta i j - w i * (K (nth i mu 0) (nth j mu 0) + s * K (nth i mu 0) (- nth j mu 0)) * w j)).
    { apply (schur_pd N w (fun i j => K (nth i mu 0) (nth j mu 0) + s * K (nth i mu 0) (- nth j mu 0)) (fun i j => Rabs (K (nth i mu 0) (nth j mu 0)) + Rabs (K (nth i mu 0) (- nth j mu 0))) (albedo_s p l)).
      - intros i Hi. apply (HM i Hi).
      - apply (albedo_s_range p V l Hl).
      - intros i j _ _. rewrite (Kf (nth i mu 0)). f_equal. apply D_spec_sym.
      - intros i j _ _. rewrite (Kf (nth i mu 0)). f_equal. f_equal. apply D_spec_sym.
      - intros i j _ _. eapply Rle_trans; [apply Rabs_triang|]. rewrite Rabs_mult. destruct Hs as [-> | ->]; [rewrite Rabs_R1; lra|]. rewrite (Rabs_left (-1)) by lra. lra.
      - intros i Hi. refine (Rle_trans _ _ _ (Req_le _ _ _) (phys_row0 m l i Hl ltac:(lia))). replace (2 * N)%nat with (N + N)%nat by lia. rewrite rsum_split, <- rsum_plus. apply rsum_ext. intros j Hj.
        unfold wnode. rewrite (proj2 (Nat.ltb_lt j N)), (proj2 (Nat.ltb_ge (N + j) N)) by lia. replace (N + j - N)%nat with j by lia.
        destruct (HM j Hj) as (_ & E & _). fold N in E. rewrite E. fold K. ring. }
    refine (Rlt_le_trans _ _ _ (proj2 PD x Hx) (Req_le _ _ _)). unfold dot, net_loss. cbv zeta. fold N K. apply rsum_ext. intros i Hi. unfold mv.
    rewrite (rsum_ext N _ (fun j => delta i j * (w i * x j) - w i * (w j * ((K (nth i mu 0) (nth j mu 0) + s * K (nth i mu 0) (- nth j mu 0)) * x j)))) by (intros; ring).
    rewrite rsum_minus, rsum_delta_l, rsum_scal by auto. ring.
  Qed.
  Definition Rmat (m : nat) (i j : nat) : R := if Nat.ltb m (length (p_BDRF p)) then
     (if Nat.eqb m 0 then 2 else 1) * (rho m (nth i mu 0) (nth j mu 0) * nth j mu 0 * w j) else 0.
  Lemma phys_surface m i : (i < N)%nat -> rsum N (fun j => Rabs (Rmat m i j)) <= 1.
  Proof.
    intros Hi. unfold Rmat. destruct (Nat.ltb_spec m (length (p_BDRF p))) as [Hm|Hm]; [|rewrite rsum_0; [lra|intros; apply Rabs_R0]].
    refine (Rle_trans _ _ _ _ (phy_albedo p mu w rho Hphy i Hi)). unfold reflectance. rewrite (proj2 (Nat.ltb_lt 0 _)) by lia.
    rewrite <- rsum_scal. apply rsum_le. intros j Hj. destruct Hdg as (_ & H2 & _). destruct (H2 j Hj) as (Hmu & _ & Hw).
    assert (Hs : Rabs (rho m (nth i mu 0) (nth j mu 0)) * (if Nat.eqb m 0 then 2 else 1) <= 2 * rho 0%nat (nth i mu 0) (nth j mu 0)).
    { assert (Hpos : forall t, 0 <= rsum (length (p_BDRF p)) (fun k => rho k (nth i mu 0) (nth j mu 0) * cos (INR k * t))).
      { intros t. apply (phy_surface p mu w rho Hphy i j t Hi Hj). }
      destruct m as [|m].
      - cbn [Nat.eqb]. pose proof (trig_zero (length (p_BDRF p)) (fun k => rho k (nth i mu 0) (nth j mu 0)) ltac:(lia) Hpos) as T. cbn beta in T. rewrite Rabs_right by lra. lra.
      - cbn [Nat.eqb]. pose proof (trig_bound (length (p_BDRF p)) (fun k => rho k (nth i mu 0) (nth j mu 0)) Hpos (S m) ltac:(lia)) as T. cbn beta in T. lra. }
    rewrite !Rabs_mult, (Rabs_right (nth j mu 0)), (Rabs_right (w j)), (Rabs_right (if Nat.eqb m 0 then 2 else 1)) by (try destruct (Nat.eqb m 0); lra).
    replace ((if Nat.eqb m 0 then 2 else 1) * (Rabs (rho m (nth i mu 0) (nth j mu 0)) * nth j mu 0 * w j))
      with (Rabs (rho m (nth i mu 0) (nth j mu 0)) * (if Nat.eqb m 0 then 2 else 1) * (nth j mu 0 * w j)) by ring.
    replace (2 * (rho 0%nat (nth i mu 0) (nth j mu 0) * nth j mu 0 * w j)) with (2 * rho 0%nat (nth i mu 0) (nth j mu 0) * (nth j mu 0 * w j)) by ring.
    apply Rmult_le_compat_r; [apply Rmult_le_pos; lra|exact Hs].
  Qed.
  Theorem phys_zero m F : free p mu w m (Rmat m) F -> forall i t, (i < 2 * N)%nat -> 0 <= t <= bottom p -> F i t = 0.
  Proof. intros HF. apply (free_zero p V mu w Hdg m (fun l wg i => phys_row m l wg i) (Rmat m) (phys_surface m) F HF). Qed.

  (** The boundary-value problem of a physical atmosphere has at most one solution. *)
  Lemma bvp_free vn vp m A B : bvp p mu w vn vp (rho m) m A -> bvp p mu w vn vp (rho m) m B -> free p mu w m (Rmat m) (fun i t => A i t - B i t).
  Proof.
    intros [A1 A2 A3 A4] [B1 B2 B3 B4]. pose proof (streams_eq p V) as Es. rewrite Es in *. fold N. split; [|split; [|split]].
    - intros j Hj. apply (cont_on_ext _ _ (fun x => A j x + (-1) * B j x)); [intros; ring|]. apply cont_on_plus; [apply A2; auto|apply cont_on_scal, B2; auto].
    - intros l j x Hl Hj Hx. destruct (cutoff_ex (albedo_s p l) (wphase_s p l) (ncoeffs p) m) as (wg & Hc). exists wg. split; [exact Hc|].
      refine (der_eq _ _ _ _ _ (der_ext (fun x => A j x + (-1) * B j x) _ _ _ _ (der_plus _ _ _ _ _ (A1 l j wg x Hl Hj Hx Hc) (der_scal _ (-1) _ _ (B1 l j wg x Hl Hj Hx Hc))))); [|intros; ring].
      unfold rte. rewrite Es. fold N.
      rewrite (rsum_ext (2 * N) (fun k => wnode N w k * D_spec (albedo_s p l) wg (ncoeffs p) m (nth j mu 0) (nth k mu 0) * (A k x - B k x))
        (fun k => wnode N w k * D_spec (albedo_s p l) wg (ncoeffs p) m (nth j mu 0) (nth k mu 0) * A k x - wnode N w k * D_spec (albedo_s p l) wg (ncoeffs p) m (nth j mu 0) (nth k mu 0) * B k x)) by (intros; ring).
      rewrite rsum_minus. unfold Rdiv. ring.
    - intros j Hj. unfold N. rewrite A3, B3 by auto. ring.
    - intros j Hj. rewrite A4, B4 by auto. unfold Rmat. fold N. destruct (Nat.ltb m (length (p_BDRF p))).
      + rewrite (rsum_ext N (fun k => _ * (A (N + k)%nat (bottom p) - B (N + k)%nat (bottom p)))
          (fun k => (if Nat.eqb m 0 then 2 else 1) * (rho m (nth j mu 0) (nth k mu 0) * nth k mu 0 * w k * A (N + k)%nat (bottom p))
                  - (if Nat.eqb m 0 then 2 else 1) * (rho m (nth j mu 0) (nth k mu 0) * nth k mu 0 * w k * B (N + k)%nat (bottom p)))) by (intros; ring).
        rewrite rsum_minus, !rsum_scal. ring.
      + rewrite rsum_0 by (intros; ring). ring.
  Qed.
  Theorem phys_unique vn vp m A B : bvp p mu w vn vp (rho m) m A -> bvp p mu w vn vp (rho m) m B ->
    forall i t, (i < streams p)%nat -> 0 <= t <= bottom p -> A i t = B i t.
  Proof.
    intros HA HB i t Hi Ht. apply Rminus_diag_uniq. rewrite (streams_eq p V) in Hi. exact (phys_zero m _ (bvp_free vn vp m A B HA HB) i t Hi Ht).
  Qed.
End Phys.
