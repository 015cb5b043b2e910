(** Continuous dependence of the radiation on the optical properties. *)
From Coq Require Import Classical String Reals Lra Lia List Bool Arith ZArith.
From Coquelicot Require Import Coquelicot.
From Verif Require Import Base Tensor Spec M_LinAlg Spec_RTE Calc M_Subroutines M_GenPart M_MathscrV M_Coeffs M_Assemble M_Pydisort
  Spec_Sol Spec_Valid Spec_Calls Spec_Unique Spec_Phys Spec_Mono Spec_Depend P_Special P_Addition P_Quad P_Sub P_Solve P_Energy P_Pydisort P_Pydisort2 P_Pydisort3 P_Pydisort4 P_Pydisort5 P_Pydisort6 P_Pydisort8 P_Teq P_NT3 P_Unique2 P_Refine P_Max P_Max2 P_Max3 P_Max4 P_Mono.
Import ListNotations.
Local Open Scope R_scope.

Lemma legendre_abs k x : -1 <= x <= 1 -> Rabs (legendre k x) <= 1.
Proof.
  intros Hx. pose proof (legendre_addition x x Hx Hx 0 k) as H. rewrite cos_0, Rmult_1_r, ss in H by exact Hx.
  replace (x * x + (1 - x ^ 2)) with 1 in H by ring. rewrite legendre_at_1 in H. unfold asum in H. rewrite rsum_S_l in H.
  assert (H0 : 0 <= rsum k (fun i => ec (S i) * am x x (S i) k * cos (INR (S i) * 0))).
  { apply rsum_nonneg. intros i Hi. rewrite Rmult_0_r, cos_0, Rmult_1_r, am_eq by exact Hx. unfold ec, pc. cbn [Nat.eqb]. destruct (Nat.leb_spec (S i) k); [|lia].
    set (s2 := sqrt (1 - x ^ 2) * sqrt (1 - x ^ 2)). assert (0 <= s2) by apply Rle_0_sqr. 
    assert (0 <= poch_term (S i) k). { unfold poch_term. apply Rlt_le, Rdiv_lt_0_compat; apply lt_0_INR, lt_O_fact. }
    assert (0 <= s2 ^ S i) by (apply pow_le; auto). pose proof (Rle_0_sqr (dl (S i) k x)) as Hd. unfold Rsqr in Hd.
    rewrite !Rmult_assoc. apply Rmult_le_pos; [lra|]. apply Rmult_le_pos; [auto|]. apply Rmult_le_pos; auto. }
  unfold ec in H at 1. unfold am in H at 1. cbn [Nat.eqb Nat.leb] in H. rewrite poch_0, !lpmv_0, Rmult_0_r, cos_0 in H.
  assert (H1 : legendre k x * legendre k x <= 1) by lra. apply Rabs_le. nra.
Qed.

(** Kernel of what is scattered. *)
Definition skernel (p : py_in) (l : nat) (x y : R) : R := / 2 * rsum (ncoeffs p) (fun k => (2 * INR k + 1) * scattering p l k * legendre k x * legendre k y).

Lemma skernel_D p (V : valid p) l wg x y : (l < nlayers p)%nat -> scattering_kept p -> is_cutoff (albedo_s p l) (wphase_s p l) (ncoeffs p) 0 wg ->
  scl p l * D_spec (albedo_s p l) wg (ncoeffs p) 0 x y = skernel p l x y.
Proof.
  intros Hl HK Hc. destruct (HK l Hl) as (Hf & [H0|H0]).
  - unfold skernel. rewrite (rsum_0 (ncoeffs p)) by (intros; unfold scattering; rewrite H0; ring). unfold D_spec, albedo_s. rewrite H0. unfold Rdiv. ring.
  - pose proof (nc_range p V) as Hnc. pose proof (scl_pos p V l Hl) as Hs.
    assert (Hn : ~ negligible (albedo_s p l) (wphase_s p l) (ncoeffs p) 0).
    { intros H. specialize (H 0%nat ltac:(lia)). unfold wphase_s, phase_s, phase in H. cbn [Nat.eqb INR] in H.
      replace ((2 * 0 + 1) * ((1 - fwd p l) / (1 - fwd p l))) with 1 in H by (field; lra). rewrite Rmult_1_r, Rabs_pos_eq in H by lra. lra. }
    rewrite (D_spec_lt _ wg (wphase_s p l)) by (intros; apply (proj2 Hc Hn)). unfold D_spec, skernel. cbn [Nat.leb].
    replace (scl p l * (albedo_s p l / 2 * rsum (ncoeffs p) (fun ell => wphase_s p l ell * poch_term 0 ell * lpmv 0 ell x * lpmv 0 ell y)))
      with (/ 2 * ((scl p l * albedo_s p l) * rsum (ncoeffs p) (fun ell => wphase_s p l ell * poch_term 0 ell * lpmv 0 ell x * lpmv 0 ell y))) by (unfold Rdiv; ring).
    rewrite scl_albedo, <- rsum_scal by apply Hs. f_equal. apply rsum_ext. intros k Hk. rewrite poch_0, !lpmv_0. unfold wphase_s, phase_s, scattering. field. lra.
Qed.

Section Change.
  Variables (p q : py_in) (SS : same_setting p q).
  Lemma ss_half : half p = half q. Proof. unfold half. rewrite (ss_NQuad _ _ SS). reflexivity. Qed.
  Lemma ss_streams : streams p = streams q. Proof. unfold streams. rewrite (ss_NQuad _ _ SS). reflexivity. Qed.
  Lemma ss_nlayers : nlayers p = nlayers q. Proof. unfold nlayers. rewrite (ss_tau _ _ SS). reflexivity. Qed.
  Lemma ss_ncoeffs : ncoeffs p = ncoeffs q. Proof. unfold ncoeffs. rewrite (ss_NLeg _ _ SS), (ss_NQuad _ _ SS). reflexivity. Qed.
  Lemma ss_top l : top_of p l = top_of q l. Proof. unfold top_of. rewrite (ss_tau _ _ SS). reflexivity. Qed.
  Lemma ss_bot l : bot_of p l = bot_of q l. Proof. unfold bot_of. rewrite (ss_tau _ _ SS). reflexivity. Qed.
  Lemma ss_bottom : bottom p = bottom q. Proof. unfold bottom. rewrite (ss_tau _ _ SS). reflexivity. Qed.
  Lemma ss_lay t : lay p t = lay q t. Proof. unfold lay. rewrite (ss_tau _ _ SS). reflexivity. Qed.

  Hypothesis Vp : valid p.
  Hypothesis Vq : valid q.
  Hypothesis Kp : scattering_kept p.
  Hypothesis Kq : scattering_kept q.

  Lemma peak_scl l : Rabs (scl q l - scl p l) = peak_dist p q l.
  Proof. unfold scl, peak_dist. f_equal. ring. Qed.
  Lemma size_nonneg r l : 0 <= scattering_size r l.
  Proof. apply rsum_nonneg. intros k _. apply Rmult_le_pos; [pose proof (pos_INR k); lra|apply Rabs_pos]. Qed.
  Lemma sdist_nonneg l : 0 <= scattering_dist p q l.
  Proof. apply rsum_nonneg. intros k _. apply Rmult_le_pos; [pose proof (pos_INR k); lra|apply Rabs_pos]. Qed.
  Lemma layer_len l : (l < nlayers q)%nat -> 0 <= bot_of q l - top_of q l.
  Proof. intros Hl. pose proof (v_inc q Vq l Hl). lra. Qed.
  Lemma ddist_nonneg : 0 <= depth_dist p q.
  Proof. apply rsum_nonneg. intros l Hl. apply Rmult_le_pos; [apply Rabs_pos|apply layer_len; exact Hl]. Qed.

  Lemma leg_prod k x y : -1 <= x <= 1 -> -1 <= y <= 1 -> Rabs (legendre k x * legendre k y) <= 1.
  Proof. intros Hx Hy. rewrite Rabs_mult. pose proof (legendre_abs k x Hx). pose proof (legendre_abs k y Hy). pose proof (Rabs_pos (legendre k x)). pose proof (Rabs_pos (legendre k y)). nra. Qed.
  Lemma kernel_dist l x y : -1 <= x <= 1 -> -1 <= y <= 1 -> Rabs (skernel p l x y - skernel q l x y) <= / 2 * scattering_dist p q l.
  Proof.
    intros Hx Hy. unfold skernel. rewrite ss_ncoeffs, <- Rmult_minus_distr_l, <- rsum_minus, Rabs_mult, (Rabs_pos_eq (/ 2)) by lra.
    apply Rmult_le_compat_l; [lra|]. eapply Rle_trans; [apply rsum_abs|]. apply rsum_le. intros k Hk.
    replace ((2 * INR k + 1) * scattering p l k * legendre k x * legendre k y - (2 * INR k + 1) * scattering q l k * legendre k x * legendre k y)
      with ((2 * INR k + 1) * ((scattering p l k - scattering q l k) * (legendre k x * legendre k y))) by ring.
    pose proof (pos_INR k). rewrite Rabs_mult, (Rabs_pos_eq (2 * INR k + 1)) by lra. apply Rmult_le_compat_l; [lra|]. rewrite Rabs_mult.
    pose proof (leg_prod k x y Hx Hy). pose proof (Rabs_pos (scattering p l k - scattering q l k)). nra.
  Qed.
  Lemma kernel_size l x y : -1 <= x <= 1 -> -1 <= y <= 1 -> Rabs (skernel q l x y) <= / 2 * scattering_size q l.
  Proof.
    intros Hx Hy. unfold skernel. rewrite Rabs_mult, (Rabs_pos_eq (/ 2)) by lra.
    apply Rmult_le_compat_l; [lra|]. eapply Rle_trans; [apply rsum_abs|]. apply rsum_le. intros k Hk. rewrite !Rmult_assoc.
    pose proof (pos_INR k). rewrite Rabs_mult, (Rabs_pos_eq (2 * INR k + 1)) by lra. apply Rmult_le_compat_l; [lra|]. rewrite Rabs_mult.
    pose proof (leg_prod k x y Hx Hy). pose proof (Rabs_pos (scattering q l k)). nra.
  Qed.
  Lemma depth_near l t : (l < nlayers q)%nat -> top_of q l <= t <= bot_of q l -> Rabs (depth_s p l t - depth_s q l t) <= depth_dist p q.
  Proof.
    intros Hl Ht. unfold depth_s, depth_dist.
    replace (rsum l (fun r => scl p r * (bot_of p r - top_of p r)) + scl p l * (t - top_of p l) - (rsum l (fun r => scl q r * (bot_of q r - top_of q r)) + scl q l * (t - top_of q l)))
      with (rsum l (fun r => (scl p r - scl q r) * (bot_of q r - top_of q r)) + (scl p l - scl q l) * (t - top_of q l)).
    2: { rewrite (rsum_ext l (fun r => scl p r * (bot_of p r - top_of p r)) (fun r => scl p r * (bot_of q r - top_of q r))) by (intros; rewrite ss_bot, ss_top; reflexivity).
      rewrite ss_top, (rsum_ext l _ (fun r => scl p r * (bot_of q r - top_of q r) - scl q r * (bot_of q r - top_of q r))) by (intros; ring). rewrite rsum_minus. ring. }
    apply Rle_trans with (rsum (S l) (fun l => peak_dist p q l * (bot_of q l - top_of q l))).
    2: { replace (nlayers q) with (S l + (nlayers q - S l))%nat by lia. rewrite rsum_split.
      assert (H : 0 <= rsum (nlayers q - S l) (fun i => peak_dist p q (S l + i) * (bot_of q (S l + i) - top_of q (S l + i)))); [|lra].
      apply rsum_nonneg. intros r Hr. apply Rmult_le_pos; [apply Rabs_pos|apply layer_len; lia]. }
    cbn [rsum]. eapply Rle_trans; [apply Rabs_triang|]. apply Rplus_le_compat.
    - eapply Rle_trans; [apply rsum_abs|]. apply rsum_le. intros r Hr. rewrite Rabs_mult, Rabs_minus_sym, peak_scl, (Rabs_pos_eq (bot_of q r - top_of q r)) by (apply layer_len; lia). lra.
    - rewrite Rabs_mult, Rabs_minus_sym, peak_scl, (Rabs_pos_eq (t - _)) by lra. apply Rmult_le_compat_l; [apply Rabs_pos|lra].
  Qed.
  Lemma exp_mono a b : a <= b -> exp a <= exp b.
  Proof. intros [H|H]; [left; apply exp_increasing; exact H|rewrite H; lra]. Qed.
  Lemma exp_lip a b : 0 <= a -> 0 <= b -> Rabs (exp (- a) - exp (- b)) <= Rabs (a - b).
  Proof.
    assert (K : forall a b, 0 <= a <= b -> 0 <= exp (- a) - exp (- b) <= b - a).
    { intros c d [H0 H1]. assert (E : exp (- d) = exp (- c) * exp (- (d - c))) by (rewrite <- exp_plus; f_equal; ring). rewrite E.
      pose proof (exp_ineq1_le (- (d - c))) as H2. assert (H3 : exp (- (d - c)) <= 1) by (rewrite <- exp_0; apply exp_mono; lra). assert (H4 : exp (- c) <= 1) by (rewrite <- exp_0; apply exp_mono; lra).
      pose proof (exp_pos (- c)). pose proof (exp_pos (- (d - c))). nra. }
    intros Ha Hb. destruct (Rle_dec a b) as [H|H].
    - pose proof (K a b ltac:(lra)). rewrite (Rabs_pos_eq (exp _ - _)), Rabs_minus_sym, Rabs_pos_eq by lra. lra.
    - pose proof (K b a ltac:(lra)). rewrite Rabs_minus_sym, (Rabs_pos_eq (exp _ - _)), Rabs_pos_eq by lra. lra.
  Qed.
  Lemma depth_nonneg r (V : valid r) l t : (l < nlayers r)%nat -> top_of r l <= t -> 0 <= depth_s r l t.
  Proof.
    intros Hl Ht. unfold depth_s. apply Rplus_le_le_0_compat.
    - apply rsum_nonneg. intros k Hk. apply Rmult_le_pos; [pose proof (scl_pos r V k ltac:(lia)); lra|]. pose proof (v_inc r V k ltac:(lia)). lra.
    - apply Rmult_le_pos; [pose proof (scl_pos r V l Hl); lra|lra].
  Qed.
  Lemma beam_near l t : 0 < p_mu0 q -> (l < nlayers q)%nat -> top_of q l <= t <= bot_of q l -> Rabs (exp (- depth_s p l t / p_mu0 q) - exp (- depth_s q l t / p_mu0 q)) <= depth_dist p q / p_mu0 q.
  Proof.
    intros Hm Hl Ht. assert (Hi : 0 < / p_mu0 q) by (apply Rinv_0_lt_compat; exact Hm).
    replace (- depth_s p l t / p_mu0 q) with (- (depth_s p l t / p_mu0 q)) by (unfold Rdiv; ring). replace (- depth_s q l t / p_mu0 q) with (- (depth_s q l t / p_mu0 q)) by (unfold Rdiv; ring).
    eapply Rle_trans; [apply exp_lip|].
    - apply Rmult_le_pos; [apply (depth_nonneg p Vp); [rewrite ss_nlayers; exact Hl|rewrite ss_top; lra]|lra].
    - apply Rmult_le_pos; [apply (depth_nonneg q Vq); [exact Hl|lra]|lra].
    - unfold Rdiv. rewrite <- Rmult_minus_distr_r, Rabs_mult, (Rabs_pos_eq (/ p_mu0 q)) by lra. apply Rmult_le_compat_r; [lra|]. apply depth_near; auto.
  Qed.

  Section Field.
    Variables (mu : list R) (w vn vp vn' vp' : nat -> R) (rho : R -> R -> R) (e M : R).
    Hypothesis Hdg : double_gauss (half q) mu w.
    Hypothesis CB : changes_by e M p q mu w vn vp vn' vp' rho.
    Variables (F G : nat -> R -> R).
    Hypothesis BF : bvp p mu w vn vp rho 0 F.
    Hypothesis BG : bvp q mu w vn' vp' rho 0 G.
    Hypothesis FM : forall i t, (i < streams q)%nat -> 0 <= t <= bottom q -> Rabs (F i t) <= M.

    Lemma dir_range k : (k < 2 * half q)%nat -> -1 <= nth k mu 0 <= 1.
    Proof.
      intros Hk. destruct Hdg as (_ & H2 & _). destruct (Nat.lt_ge_cases k (half q)) as [H|H]; [destruct (H2 k H); lra|].
      destruct (H2 (k - half q)%nat ltac:(lia)) as (P1 & P2 & _). replace (half q + (k - half q))%nat with k in P2 by lia. lra.
    Qed.
    Lemma wsum2 : rsum (2 * half q) (fun i => wnode (half q) w i) = 2.
    Proof. destruct Hdg as (H1 & H2 & _ & H4). apply (one_sum (half q) mu w (half_pos q Vq) H1); auto. intros k Hk. apply (H2 k Hk). Qed.

    Lemma rte_kernel r wg l k x V : valid r -> scattering_kept r -> (l < nlayers r)%nat -> is_cutoff (albedo_s r l) (wphase_s r l) (ncoeffs r) 0 wg ->
      rte r mu w wg 0 l k x V = scl r l * V k - rsum (streams r) (fun j => wnode (half r) w j * skernel r l (nth k mu 0) (nth j mu 0) * V j)
        - 2 * (p_I0 r / (4 * PI)) * skernel r l (nth k mu 0) (- p_mu0 r) * exp (- depth_s r l x / p_mu0 r) - (1 - albedo r l) * source r l x.
    Proof.
      intros Vr Kr Hl Hc. unfold rte. cbn [Nat.eqb]. rewrite X_spec_0m, <- (skernel_D r Vr l wg _ (- p_mu0 r) Hl Kr Hc).
      rewrite (rsum_ext (streams r) (fun j => wnode (half r) w j * skernel r l (nth k mu 0) (nth j mu 0) * V j)
        (fun j => scl r l * (wnode (half r) w j * D_spec (albedo_s r l) wg (ncoeffs r) 0 (nth k mu 0) (nth j mu 0) * V j))).
      2: { intros j _. rewrite <- (skernel_D r Vr l wg _ _ Hl Kr Hc). ring. }
      rewrite rsum_scal. ring.
    Qed.

    Lemma beam_change l k x : (l < nlayers q)%nat -> (k < 2 * half q)%nat -> top_of q l < x < bot_of q l ->
      Rabs (2 * (p_I0 q / (4 * PI)) * skernel q l (nth k mu 0) (- p_mu0 q) * exp (- depth_s q l x / p_mu0 q)
            - 2 * (p_I0 p / (4 * PI)) * skernel p l (nth k mu 0) (- p_mu0 p) * exp (- depth_s p l x / p_mu0 p))
      <= p_I0 q / (4 * PI) * (scattering_dist p q l + scattering_size q l * (depth_dist p q / p_mu0 q)).
    Proof.
      intros Hl Hk Hx. rewrite (ss_mu0 _ _ SS), (ss_I0 _ _ SS). pose proof (v_I0 q Vq) as HI. pose proof PI_RGT_0.
      destruct (Rle_lt_or_eq_dec 0 (p_I0 q) ltac:(lra)) as [Hlt|E].
      2: { rewrite <- E. unfold Rdiv. rewrite !Rmult_0_l, Rmult_0_r, !Rmult_0_l, Rminus_0_r, Rabs_R0. lra. }
      pose proof (v_mu0 q Vq Hlt) as Hm. set (c := p_I0 q / (4 * PI)). assert (Hc : 0 < c) by (unfold c; apply Rdiv_lt_0_compat; lra).
      pose proof (kernel_dist l (nth k mu 0) (- p_mu0 q) (dir_range k Hk) ltac:(lra)) as K1. pose proof (kernel_size l (nth k mu 0) (- p_mu0 q) (dir_range k Hk) ltac:(lra)) as K2.
      pose proof (beam_near l x ltac:(lra) Hl ltac:(lra)) as K3.
      assert (K4 : exp (- depth_s p l x / p_mu0 q) <= 1).
      { rewrite <- exp_0. apply exp_mono. pose proof (depth_nonneg p Vp l x ltac:(rewrite ss_nlayers; exact Hl) ltac:(rewrite ss_top; lra)) as H0.
        assert (0 <= depth_s p l x / p_mu0 q) by (apply Rmult_le_pos; [exact H0|apply Rlt_le, Rinv_0_lt_compat; lra]). unfold Rdiv in *. lra. }
      pose proof (exp_pos (- depth_s p l x / p_mu0 q)) as K5. set (ep := exp (- depth_s p l x / p_mu0 q)) in *. set (eq := exp (- depth_s q l x / p_mu0 q)) in *.
      set (kp := skernel p l _ _) in *. set (kq := skernel q l _ _) in *. set (d := depth_dist p q / p_mu0 q) in *.
      replace (2 * c * kq * eq - 2 * c * kp * ep) with (2 * c * (- ((kp - kq) * ep) - kq * (ep - eq))) by ring.
      rewrite Rabs_mult, (Rabs_pos_eq (2 * c)) by lra. replace (c * (scattering_dist p q l + scattering_size q l * d)) with (2 * c * (/ 2 * scattering_dist p q l + / 2 * scattering_size q l * d)) by field.
      apply Rmult_le_compat_l; [lra|]. unfold Rminus at 1. eapply Rle_trans; [apply Rabs_triang|]. rewrite !Rabs_Ropp, !Rabs_mult. apply Rplus_le_compat.
      - rewrite (Rabs_pos_eq ep) by lra. pose proof (Rabs_pos (kp - kq)). nra.
      - apply Rmult_le_compat; auto using Rabs_pos.
    Qed.

    Lemma defect l k x wg wg' : (l < nlayers q)%nat -> (k < 2 * half q)%nat -> top_of q l < x < bot_of q l ->
      is_cutoff (albedo_s p l) (wphase_s p l) (ncoeffs p) 0 wg -> is_cutoff (albedo_s q l) (wphase_s q l) (ncoeffs q) 0 wg' ->
      Rabs (rte q mu w wg' 0 l k x (fun j => F j x) - rte p mu w wg 0 l k x (fun j => F j x)) <= (1 - albedo q l) * e.
    Proof.
      intros Hl Hk Hx Hc Hc'. assert (Hlp : (l < nlayers p)%nat) by (rewrite ss_nlayers; exact Hl).
      assert (Hxb : 0 <= x <= bottom q) by (apply (layer_at_range q Vq x l); split; [exact Hl|left; lra]).
      rewrite (rte_kernel p wg) by auto. rewrite (rte_kernel q wg') by auto. rewrite ss_half, ss_streams, (streams_eq q Vq).
      pose proof (beam_change l k x Hl Hk Hx) as KB. pose proof (cb_layer _ _ _ _ _ _ _ _ _ _ _ CB l x Hl ltac:(lra)) as KL. eapply Rle_trans; [|exact KL].
      set (bq := 2 * (p_I0 q / (4 * PI)) * skernel q l _ _ * exp _) in *. set (bp := 2 * (p_I0 p / (4 * PI)) * skernel p l _ _ * exp _) in *.
      set (sq := (1 - albedo q l) * source q l x) in *. set (sp := (1 - albedo p l) * source p l x) in *.
      set (Kq' := fun j => wnode (half q) w j * skernel q l (nth k mu 0) (nth j mu 0) * F j x). set (Kp' := fun j => wnode (half q) w j * skernel p l (nth k mu 0) (nth j mu 0) * F j x).
      replace (scl q l * F k x - rsum (2 * half q) Kq' - bq - sq - (scl p l * F k x - rsum (2 * half q) Kp' - bp - sp))
        with ((scl q l - scl p l) * F k x + rsum (2 * half q) (fun j => Kp' j - Kq' j) + (- (bq - bp)) + (sp - sq)) by (rewrite rsum_minus; ring).
      eapply Rle_trans; [apply Rabs_triang|]. apply Rplus_le_compat; [|apply Rle_refl].
      eapply Rle_trans; [apply Rabs_triang|]. apply Rplus_le_compat; [|rewrite Rabs_Ropp; exact KB].
      eapply Rle_trans; [apply Rabs_triang|]. rewrite Rmult_plus_distr_r. assert (HS : forall j, (j < 2 * half q)%nat -> Rabs (F j x) <= M) by (intros; apply FM; [rewrite (streams_eq q Vq); auto|auto]).
      apply Rplus_le_compat.
      - rewrite Rabs_mult, peak_scl. apply Rmult_le_compat_l; [apply Rabs_pos|auto].
      - eapply Rle_trans; [apply rsum_abs|]. apply Rle_trans with (rsum (2 * half q) (fun j => wnode (half q) w j * (/ 2 * scattering_dist p q l * M))).
        + apply rsum_le. intros j Hj. unfold Kp', Kq'. rewrite <- Rmult_minus_distr_r, <- Rmult_minus_distr_l, !Rabs_mult, Rmult_assoc. pose proof (wnode_pos q mu w Hdg j Hj) as Wp.
          rewrite (Rabs_pos_eq (wnode _ _ _)) by lra. apply Rmult_le_compat_l; [lra|]. apply Rmult_le_compat; auto using Rabs_pos. apply kernel_dist; apply dir_range; auto.
        + rewrite rsum_scal_r. assert (W2 : rsum (2 * half q) (wnode (half q) w) = 2) by exact wsum2. rewrite W2. lra.
    Qed.

    Hypothesis Hph : phase_nonneg q mu.
    Hypothesis Hsurf : passive_surface q mu w rho.

    Lemma e_nonneg : 0 <= e.
    Proof. eapply Rle_trans; [apply Rabs_pos|apply (cb_n _ _ _ _ _ _ _ _ _ _ _ CB 0%nat), half_pos; exact Vq]. Qed.

    Lemma bvp_change1 s : s = 1 \/ s = -1 -> forall i t, (i < streams q)%nat -> 0 <= t <= bottom q -> s * (F i t - G i t) <= e.
    Proof.
      intros Hs i t Hi Ht. pose proof e_nonneg as He. destruct BF as [A1 A2 A3 A4]. destruct BG as [B1 B2 B3 B4]. rewrite (streams_eq q Vq) in Hi, B1, B2.
      assert (SA : forall x y, Rabs x <= y -> s * x <= y /\ - (s * x) <= y). { intros x y H. apply Rabs_le_between in H. destruct Hs as [-> | ->]; lra. }
      enough (0 <= e - s * F i t + s * G i t) by lra. assert (HN : (half q <= 2 * half q)%nat) by lia.
      refine (field_nonneg q Vq mu w Hdg (fun i t => e - s * F i t + s * G i t)
        (fun i j => if Nat.ltb 0 (length (p_BDRF q)) then 2 * (rho (nth i mu 0) (nth j mu 0) * nth j mu 0 * w j) else 0) Hph _ _ _ _ _ _ i t Hi Ht).
      - intros k Hk. apply (cont_on_ext _ _ (fun x => (e + (- s) * F k x) + s * G k x)); [intros; ring|]. apply cont_on_plus; [|apply cont_on_scal, B2; exact Hk]. apply cont_on_plus.
        + apply cont_on_const.
        + apply cont_on_scal. rewrite <- ss_bottom. apply A2. rewrite ss_streams, (streams_eq q Vq). exact Hk.
      - intros l k x Hl Hk Hx. assert (Hlp : (l < nlayers p)%nat) by (rewrite ss_nlayers; exact Hl).
        destruct (cutoff_ex (albedo_s q l) (wphase_s q l) (ncoeffs q) 0) as (wg' & Hc'). destruct (cutoff_ex (albedo_s p l) (wphase_s p l) (ncoeffs p) 0) as (wg & Hc).
        set (nc := rsum (2 * half q) (fun j => wnode (half q) w j * D_spec (albedo_s q l) wg' (ncoeffs q) 0 (nth k mu 0) (nth j mu 0))).
        set (dl := rte q mu w wg' 0 l k x (fun j => F j x) - rte p mu w wg 0 l k x (fun j => F j x)).
        exists wg', (scl q l * e * (1 - nc) - s * dl). split; [exact Hc'|]. pose proof (scl_pos q Vq l Hl) as Hsc. split.
        + pose proof (D_row_le q Vq mu w Hdg l wg' k Hl Hc') as Hnc. fold nc in Hnc. pose proof (proj1 (SA _ _ (defect l k x wg wg' Hl Hk Hx Hc Hc'))) as Hd. fold dl in Hd.
          assert (E : scl q l * (1 - albedo_s q l) = 1 - albedo q l) by (unfold albedo_s, scl in *; field; lra).
          assert (0 <= (scl q l * e) * (albedo_s q l - nc)) by (apply Rmult_le_pos; [apply Rmult_le_pos; lra|lra]).
          replace (scl q l * e * (1 - nc) - s * dl) with (scl q l * (1 - albedo_s q l) * e - s * dl + scl q l * e * (albedo_s q l - nc)) by ring.
          rewrite E. lra.
        + pose proof (B1 l k wg' x Hl Hk Hx Hc') as DG.
          assert (DF : is_derive (F k) x (rte p mu w wg 0 l k x (fun j => F j x) / nth k mu 0)).
          { apply A1; [exact Hlp|rewrite ss_streams, (streams_eq q Vq); exact Hk|rewrite ss_top, ss_bot; exact Hx|exact Hc]. }
          refine (der_eq _ _ _ _ _ (der_plus _ _ _ _ _ (der_minus _ _ _ _ _ (is_derive_const e x) (der_scal _ s _ _ DF)) (der_scal _ s _ _ DG))). unfold dl. change zero with 0.
          set (rp := rte p mu w wg 0 l k x (fun j => F j x)). unfold rte. cbn [Nat.eqb]. rewrite (streams_eq q Vq).
          set (Dq := D_spec (albedo_s q l) wg' (ncoeffs q) 0 (nth k mu 0)) in *.
          rewrite (rsum_ext _ (fun j => wnode (half q) w j * Dq (nth j mu 0) * (e - s * F j x + s * G j x))
            (fun j => (e * (wnode (half q) w j * Dq (nth j mu 0)) - s * (wnode (half q) w j * Dq (nth j mu 0) * F j x)) - (- s) * (wnode (half q) w j * Dq (nth j mu 0) * G j x))) by (intros; ring).
          rewrite !rsum_minus, !rsum_scal. fold nc. unfold Rdiv. ring.
      - intros k Hk. rewrite (B3 k Hk). replace (half q) with (half p) in * by apply ss_half. rewrite (A3 k Hk). cbn [Nat.eqb].
        pose proof (SA _ _ (cb_n _ _ _ _ _ _ _ _ _ _ _ CB k ltac:(rewrite <- ss_half; exact Hk))). lra.
      - intros k Hk. rewrite (B4 k Hk). replace (F k (bottom q)) with (F k (bottom p)) by (rewrite ss_bottom; reflexivity). rewrite (A4 k) by (rewrite ss_half; exact Hk). cbn [Nat.eqb].
        rewrite (ss_BDRF _ _ SS), ss_half, (ss_mu0 _ _ SS), ss_nlayers, ss_bottom, (ss_I0 _ _ SS). pose proof (cb_p _ _ _ _ _ _ _ _ _ _ _ CB k Hk) as Hpk. unfold reflectance, reflects in Hpk.
        pose proof (SA _ _ (Rle_refl (Rabs (vp k - vp' k)))) as [Sv _].
        destruct (Nat.ltb 0 (length (p_BDRF q))).
        + assert (HB : s * (p_mu0 q * p_I0 q / PI * rho (nth k mu 0) (p_mu0 q) * (exp (- depth_s p (nlayers q - 1) (bottom q) / p_mu0 q) - exp (- depth_s q (nlayers q - 1) (bottom q) / p_mu0 q)))
                         <= p_I0 q / PI * Rabs (rho (nth k mu 0) (p_mu0 q)) * depth_dist p q).
          { apply (proj1 (SA _ _ (Rle_refl _))) || idtac. eapply Rle_trans; [apply (proj1 (SA _ _ (Rle_refl _)))|]. rewrite !Rabs_mult. pose proof (v_I0 q Vq) as HI. pose proof PI_RGT_0.
            destruct (Rle_lt_or_eq_dec 0 (p_I0 q) ltac:(lra)) as [Hlt|E].
            2: { rewrite <- E. unfold Rdiv. rewrite Rmult_0_r, !Rmult_0_l, Rabs_R0, !Rmult_0_l. lra. }
            pose proof (v_mu0 q Vq Hlt) as Hm. pose proof (v_ne q Vq) as Hnl.
            pose proof (beam_near (nlayers q - 1) (bottom q) ltac:(lra) ltac:(lia)) as K3. 
            assert (Hb : top_of q (nlayers q - 1) <= bottom q <= bot_of q (nlayers q - 1)). { rewrite (bottom_eq q). pose proof (layer_len (nlayers q - 1) ltac:(lia)). lra. }
            specialize (K3 Hb). rewrite (Rabs_pos_eq (p_mu0 q * p_I0 q / PI)) by (apply Rlt_le, Rdiv_lt_0_compat; [apply Rmult_lt_0_compat; lra|lra]).
            replace (p_I0 q / PI * Rabs (rho (nth k mu 0) (p_mu0 q)) * depth_dist p q) with (p_mu0 q * p_I0 q / PI * Rabs (rho (nth k mu 0) (p_mu0 q)) * (depth_dist p q / p_mu0 q)) by (field; lra).
            apply Rmult_le_compat_l; [|exact K3]. apply Rmult_le_pos; [apply Rlt_le, Rdiv_lt_0_compat; [apply Rmult_lt_0_compat; lra|lra]|apply Rabs_pos]. }
          rewrite (rsum_ext _ (fun j => 2 * (rho (nth k mu 0) (nth j mu 0) * nth j mu 0 * w j) * (e - s * F (half q + j)%nat (bottom q) + s * G (half q + j)%nat (bottom q)))
            (fun j => (2 * e * (rho (nth k mu 0) (nth j mu 0) * nth j mu 0 * w j) - 2 * s * (rho (nth k mu 0) (nth j mu 0) * nth j mu 0 * w j * F (half q + j)%nat (bottom q))) - (- 2) * s * (rho (nth k mu 0) (nth j mu 0) * nth j mu 0 * w j * G (half q + j)%nat (bottom q)))) by (intros; ring).
          rewrite !rsum_minus, !rsum_scal.
          set (SF := rsum (half q) (fun j => rho (nth k mu 0) (nth j mu 0) * nth j mu 0 * w j * F (half q + j)%nat (bottom q))) in *. set (SG := rsum (half q) (fun j => rho (nth k mu 0) (nth j mu 0) * nth j mu 0 * w j * G (half q + j)%nat (bottom q))) in *.
          set (S1 := rsum (half q) (fun i0 => rho (nth k mu 0) (nth i0 mu 0) * nth i0 mu 0 * w i0)) in *. lra.
        + rewrite rsum_0 by (intros; ring). rewrite Rabs_R0 in Hpk. lra.
      - intros k j Hk Hj. cbv beta. destruct (Nat.ltb 0 (length (p_BDRF q))); [|apply Rle_refl]. destruct Hdg as (_ & H2 & _). destruct (H2 j Hj) as (P1 & _ & P3). pose proof (ps_nonneg _ _ _ _ Hsurf k j Hk Hj) as P4.
        apply Rmult_le_pos; [lra|]. apply Rmult_le_pos; [apply Rmult_le_pos; lra|lra].
      - intros k Hk. pose proof (ps_albedo _ _ _ _ Hsurf k Hk) as Pa. unfold reflectance in Pa. destruct (Nat.ltb 0 (length (p_BDRF q))); [rewrite rsum_scal; exact Pa|]. rewrite rsum_0 by reflexivity. lra.
    Qed.
    Theorem bvp_change i t : (i < streams q)%nat -> 0 <= t <= bottom q -> Rabs (F i t - G i t) <= e.
    Proof.
      intros Hi Ht. pose proof (bvp_change1 1 (or_introl eq_refl) i t Hi Ht). pose proof (bvp_change1 (-1) (or_intror eq_refl) i t Hi Ht). apply Rabs_le. lra.
    Qed.
  End Field.
End Change.
