(** How much leaving out weak scattering can change the reported radiation. *)
From Coq Require Import Classical String Reals Lra Lia List Bool Arith ZArith.
From Coquelicot Require Import Coquelicot.
From Verif Require Import Base Tensor Spec M_LinAlg Spec_RTE Calc M_Subroutines M_GenPart M_MathscrV M_Coeffs M_Assemble M_Pydisort
  Spec_Sol Spec_Valid Spec_Calls Spec_Unique Spec_Phys Spec_Mono Spec_Depend P_Special P_Addition P_Quad P_Sub P_Solve P_Energy P_Pydisort P_Pydisort2 P_Pydisort3 P_Pydisort4 P_Pydisort5 P_Pydisort6 P_Pydisort8 P_Teq P_NT3 P_Unique2 P_Refine P_Max P_Max2 P_Max3 P_Max4 P_Mono P_Full2 P_Depend P_Depend2.
Import ListNotations.
Local Open Scope R_scope.

Definition zcut (p : py_in) : R := INR (ncoeffs p) / 100000000.
Lemma zcut_nonneg p : 0 <= zcut p.
Proof. unfold zcut. pose proof (pos_INR (ncoeffs p)). lra. Qed.
(** The scattering that the code uses. *)
Definition kern (p : py_in) (wg : nat -> R) (l : nat) (x y : R) : R := scl p l * D_spec (albedo_s p l) wg (ncoeffs p) 0 x y.

Lemma kern_full p (V : valid p) l x y : (l < nlayers p)%nat -> fwd p l < 1 -> kern p (wphase_s p l) l x y = skernel p l x y.
Proof.
  intros Hl Hf. pose proof (scl_pos p V l Hl) as Hs. unfold kern, D_spec, skernel. cbn [Nat.leb].
  replace (scl p l * (albedo_s p l / 2 * rsum (ncoeffs p) (fun ell => wphase_s p l ell * poch_term 0 ell * lpmv 0 ell x * lpmv 0 ell y)))
    with (/ 2 * ((scl p l * albedo_s p l) * rsum (ncoeffs p) (fun ell => wphase_s p l ell * poch_term 0 ell * lpmv 0 ell x * lpmv 0 ell y))) by (unfold Rdiv; ring).
  rewrite scl_albedo, <- rsum_scal by apply Hs. f_equal. apply rsum_ext. intros k Hk. rewrite poch_0, !lpmv_0. unfold wphase_s, phase_s, scattering. field. lra.
Qed.
Lemma kern_near p (V : valid p) l wg x y : (l < nlayers p)%nat -> fwd p l < 1 -> is_cutoff (albedo_s p l) (wphase_s p l) (ncoeffs p) 0 wg -> -1 <= x <= 1 -> -1 <= y <= 1 ->
  Rabs (kern p wg l x y - skernel p l x y) <= zcut p.
Proof.
  intros Hl Hf Hc Hx Hy. rewrite <- (kern_full p V l x y Hl Hf). destruct (classic (negligible (albedo_s p l) (wphase_s p l) (ncoeffs p) 0)) as [Hn|Hn].
  - pose proof (scl_pos p V l Hl) as Hs. unfold kern. rewrite (D_spec_lt _ wg (fun _ => 0)) by (intros; apply (proj1 Hc Hn)).
    unfold D_spec. cbn [Nat.leb]. rewrite (rsum_0 (ncoeffs p)) by (intros; ring). rewrite !Rmult_0_r. unfold Rminus. rewrite Rplus_0_l, Rabs_Ropp, Rabs_mult, (Rabs_pos_eq (scl p l)) by lra.
    rewrite <- rsum_scal. apply Rle_trans with (1 * (INR (ncoeffs p) * (1 / 100000000))); [|unfold zcut; lra]. apply Rmult_le_compat; [lra|apply Rabs_pos|lra|].
    eapply Rle_trans; [apply rsum_abs|]. rewrite <- (rsum_const (ncoeffs p)). apply rsum_le. intros k Hk. rewrite poch_0, !lpmv_0.
    replace (albedo_s p l / 2 * (wphase_s p l k * 1 * legendre k x * legendre k y)) with (albedo_s p l / 2 * wphase_s p l k * (legendre k x * legendre k y)) by ring.
    rewrite Rabs_mult. pose proof (leg_prod k x y Hx Hy) as L1. pose proof (Hn k ltac:(lia)) as L2. pose proof (Rabs_pos (legendre k x * legendre k y)). pose proof (Rabs_pos (albedo_s p l / 2 * wphase_s p l k)).
    apply Rle_trans with (1 / 100000000 * 1); [|lra]. apply Rmult_le_compat; lra.
  - unfold kern. rewrite (D_spec_lt _ wg (wphase_s p l)) by (intros; apply (proj2 Hc Hn)). rewrite Rminus_eq_0, Rabs_R0. apply zcut_nonneg.
Qed.

Section Change.
  Variables (p q : py_in) (SS : same_setting p q).
  Hypothesis Vp : valid p.
  Hypothesis Vq : valid q.
  Hypothesis Fp : forall l, (l < nlayers p)%nat -> fwd p l < 1.
  Hypothesis Fq : forall l, (l < nlayers q)%nat -> fwd q l < 1.
  Section Field.
    Variables (mu : list R) (w vn vp vn' vp' : nat -> R) (rho : R -> R -> R) (e J M : R).
    Hypothesis Hdg : double_gauss (half q) mu w.
    Hypothesis CB : changes_by e M p q mu w vn vp vn' vp' rho.
    Hypothesis HJ0 : 0 <= J.
    Hypothesis HJ : forall l, (l < nlayers q)%nat -> 4 * zcut q * (M + p_I0 q / (4 * PI)) <= (1 - albedo q l) * J.
    Variables (F G : nat -> R -> R).
    Hypothesis BF : bvp p mu w vn vp rho 0 F.
    Hypothesis BG : bvp q mu w vn' vp' rho 0 G.
    Hypothesis FM : forall i t, (i < streams q)%nat -> 0 <= t <= bottom q -> Rabs (F i t) <= M.
    Let ee := e + J.

    Lemma zz : zcut p = zcut q. Proof. unfold zcut. rewrite (ss_ncoeffs p q SS). reflexivity. Qed.
    Lemma c0_nonneg : 0 <= p_I0 q / (4 * PI).
    Proof. pose proof (v_I0 q Vq). pose proof PI_RGT_0. apply Rmult_le_pos; [lra|apply Rlt_le, Rinv_0_lt_compat; lra]. Qed.
    (** The right-hand side without the cut-off. *)
    Definition rfull (r : py_in) (l k : nat) (x : R) (V : nat -> R) : R :=
      scl r l * V k - rsum (streams r) (fun j => wnode (half r) w j * skernel r l (nth k mu 0) (nth j mu 0) * V j)
        - 2 * (p_I0 r / (4 * PI)) * skernel r l (nth k mu 0) (- p_mu0 r) * exp (- depth_s r l x / p_mu0 r) - (1 - albedo r l) * source r l x.
    Lemma rte_kern r wg l k x V : rte r mu w wg 0 l k x V = scl r l * V k - rsum (streams r) (fun j => wnode (half r) w j * kern r wg l (nth k mu 0) (nth j mu 0) * V j)
        - 2 * (p_I0 r / (4 * PI)) * kern r wg l (nth k mu 0) (- p_mu0 r) * exp (- depth_s r l x / p_mu0 r) - (1 - albedo r l) * source r l x.
    Proof.
      unfold rte, kern. cbn [Nat.eqb]. rewrite X_spec_0m.
      rewrite (rsum_ext (streams r) (fun j => wnode (half r) w j * (scl r l * D_spec (albedo_s r l) wg (ncoeffs r) 0 (nth k mu 0) (nth j mu 0)) * V j)
        (fun j => scl r l * (wnode (half r) w j * D_spec (albedo_s r l) wg (ncoeffs r) 0 (nth k mu 0) (nth j mu 0) * V j))) by (intros; ring).
      rewrite rsum_scal. ring.
    Qed.
    Lemma cut_effect r wg l k x V : valid r -> half r = half q -> p_I0 r = p_I0 q -> p_mu0 r = p_mu0 q -> (l < nlayers r)%nat -> fwd r l < 1 -> top_of r l <= x ->
      is_cutoff (albedo_s r l) (wphase_s r l) (ncoeffs r) 0 wg -> (k < 2 * half q)%nat -> (forall j, (j < 2 * half q)%nat -> Rabs (V j) <= M) ->
      Rabs (rte r mu w wg 0 l k x V - rfull r l k x V) <= 2 * zcut r * (M + p_I0 q / (4 * PI)).
    Proof.
      intros Vr Eh EI Em Hl Hf Hx Hc Hk HV. rewrite rte_kern. unfold rfull. rewrite (streams_eq r Vr), Eh, EI, Em. pose proof c0_nonneg as Hc0. set (c := p_I0 q / (4 * PI)) in *. pose proof (zcut_nonneg r) as Hz.
      set (K1 := fun j => wnode (half q) w j * kern r wg l (nth k mu 0) (nth j mu 0) * V j). set (K2 := fun j => wnode (half q) w j * skernel r l (nth k mu 0) (nth j mu 0) * V j).
      set (b1 := 2 * c * kern r wg l _ _ * exp _). set (b2 := 2 * c * skernel r l _ _ * exp _). set (sr := (1 - albedo r l) * _).
      replace (scl r l * V k - rsum (2 * half q) K1 - b1 - sr - (scl r l * V k - rsum (2 * half q) K2 - b2 - sr)) with (- rsum (2 * half q) (fun j => K1 j - K2 j) + - (b1 - b2)) by (rewrite rsum_minus; ring).
      eapply Rle_trans; [apply Rabs_triang|]. rewrite !Rabs_Ropp. replace (2 * zcut r * (M + c)) with (2 * (zcut r * M) + 2 * zcut r * c) by ring. apply Rplus_le_compat.
      - eapply Rle_trans; [apply rsum_abs|]. apply Rle_trans with (rsum (2 * half q) (fun j => wnode (half q) w j * (zcut r * M))).
        + apply rsum_le. intros j Hj. unfold K1, K2. rewrite <- Rmult_minus_distr_r, <- Rmult_minus_distr_l, !Rabs_mult, Rmult_assoc. pose proof (wnode_pos q mu w Hdg j Hj) as Wp.
          rewrite (Rabs_pos_eq (wnode _ _ _)) by lra. apply Rmult_le_compat_l; [lra|]. apply Rmult_le_compat; auto using Rabs_pos. apply kern_near; auto; apply (dir_range q mu w Hdg); auto.
        + rewrite rsum_scal_r. assert (W2 : rsum (2 * half q) (wnode (half q) w) = 2) by exact (wsum2 q Vq mu w Hdg). rewrite W2. lra.
      - unfold b1, b2. rewrite <- Rmult_minus_distr_r, <- Rmult_minus_distr_l, !Rabs_mult. destruct (Rle_lt_or_eq_dec 0 (p_I0 q) (proj1 (conj (v_I0 q Vq) I))) as [Hlt|E].
        2: { unfold c. rewrite <- E. unfold Rdiv. rewrite !Rmult_0_l, Rabs_R0, !Rmult_0_r, !Rmult_0_l. lra. }
        pose proof (v_mu0 q Vq Hlt) as Hm.
        pose proof (kern_near r Vr l wg (nth k mu 0) (- p_mu0 q) Hl Hf Hc (dir_range q mu w Hdg k Hk) ltac:(lra)) as KN.
        assert (K4 : exp (- depth_s r l x / p_mu0 q) <= 1).
        { rewrite <- exp_0. apply exp_mono. pose proof (depth_nonneg r Vr l x Hl Hx) as H0.
          assert (0 <= depth_s r l x / p_mu0 q) by (apply Rmult_le_pos; [exact H0|apply Rlt_le, Rinv_0_lt_compat; lra]). unfold Rdiv in *. lra. }
        pose proof (exp_pos (- depth_s r l x / p_mu0 q)) as K5. rewrite (Rabs_pos_eq (exp _)) by lra. rewrite (Rabs_pos_eq c), (Rabs_pos_eq 2) by lra.
        set (X := Rabs (kern r wg l (nth k mu 0) (- p_mu0 q) - skernel r l (nth k mu 0) (- p_mu0 q))) in *. assert (0 <= X) by apply Rabs_pos.
        replace (2 * zcut r * c) with (2 * c * zcut r * 1) by ring. apply Rmult_le_compat; [apply Rmult_le_pos; lra|lra|apply Rmult_le_compat_l; lra|exact K4].
    Qed.
    Lemma full_change l k x : (l < nlayers q)%nat -> (k < 2 * half q)%nat -> top_of q l < x < bot_of q l ->
      Rabs (rfull q l k x (fun j => F j x) - rfull p l k x (fun j => F j x)) <= (1 - albedo q l) * e.
    Proof.
      intros Hl Hk Hx. assert (Hxb : 0 <= x <= bottom q) by (apply (layer_at_range q Vq x l); split; [exact Hl|left; lra]).
      unfold rfull. rewrite (ss_half p q SS), (ss_streams p q SS), (streams_eq q Vq).
      pose proof (beam_change p q SS Vp Vq mu w Hdg l k x Hl Hk Hx) as KB. pose proof (cb_layer _ _ _ _ _ _ _ _ _ _ _ CB l x Hl ltac:(lra)) as KL. eapply Rle_trans; [|exact KL].
      set (bq := 2 * (p_I0 q / (4 * PI)) * skernel q l _ _ * exp _) in *. set (bp := 2 * (p_I0 p / (4 * PI)) * skernel p l _ _ * exp _) in *.
      set (sq := (1 - albedo q l) * source q l x) in *. set (sp := (1 - albedo p l) * source p l x) in *.
      set (Kq' := fun j => wnode (half q) w j * skernel q l (nth k mu 0) (nth j mu 0) * F j x). set (Kp' := fun j => wnode (half q) w j * skernel p l (nth k mu 0) (nth j mu 0) * F j x).
      replace (scl q l * F k x - rsum (2 * half q) Kq' - bq - sq - (scl p l * F k x - rsum (2 * half q) Kp' - bp - sp))
        with ((scl q l - scl p l) * F k x + rsum (2 * half q) (fun j => Kp' j - Kq' j) + (- (bq - bp)) + (sp - sq)) by (rewrite rsum_minus; ring).
      eapply Rle_trans; [apply Rabs_triang|]. apply Rplus_le_compat; [|apply Rle_refl].
      eapply Rle_trans; [apply Rabs_triang|]. apply Rplus_le_compat; [|rewrite Rabs_Ropp; exact KB].
      eapply Rle_trans; [apply Rabs_triang|]. rewrite Rmult_plus_distr_r. assert (HS : forall j, (j < 2 * half q)%nat -> Rabs (F j x) <= M) by (intros; apply FM; [rewrite (streams_eq q Vq); auto|auto]).
      apply Rplus_le_compat.
      - rewrite Rabs_mult, peak_scl. apply Rmult_le_compat_l; [apply Rabs_pos|auto].
      - eapply Rle_trans; [apply rsum_abs|]. apply Rle_trans with (rsum (2 * half q) (fun j => wnode (half q) w j * (/ 2 * scattering_dist p q l * M))).
        + apply rsum_le. intros j Hj. unfold Kp', Kq'. rewrite <- Rmult_minus_distr_r, <- Rmult_minus_distr_l, !Rabs_mult, Rmult_assoc. pose proof (wnode_pos q mu w Hdg j Hj) as Wp.
          rewrite (Rabs_pos_eq (wnode _ _ _)) by lra. apply Rmult_le_compat_l; [lra|]. apply Rmult_le_compat; auto using Rabs_pos. apply (kernel_dist p q SS); apply (dir_range q mu w Hdg); auto.
        + rewrite rsum_scal_r. assert (W2 : rsum (2 * half q) (wnode (half q) w) = 2) by exact (wsum2 q Vq mu w Hdg). rewrite W2. lra.
    Qed.
    Lemma defect_cut l k x wg wg' : (l < nlayers q)%nat -> (k < 2 * half q)%nat -> top_of q l < x < bot_of q l ->
      is_cutoff (albedo_s p l) (wphase_s p l) (ncoeffs p) 0 wg -> is_cutoff (albedo_s q l) (wphase_s q l) (ncoeffs q) 0 wg' ->
      Rabs (rte q mu w wg' 0 l k x (fun j => F j x) - rte p mu w wg 0 l k x (fun j => F j x)) <= (1 - albedo q l) * ee.
    Proof.
      intros Hl Hk Hx Hc Hc'. assert (Hlp : (l < nlayers p)%nat) by (rewrite (ss_nlayers p q SS); exact Hl).
      assert (Hxb : 0 <= x <= bottom q) by (apply (layer_at_range q Vq x l); split; [exact Hl|left; lra]).
      assert (HS : forall j, (j < 2 * half q)%nat -> Rabs (F j x) <= M) by (intros; apply FM; [rewrite (streams_eq q Vq); auto|auto]).
      pose proof (cut_effect q wg' l k x (fun j => F j x) Vq eq_refl eq_refl eq_refl Hl (Fq l Hl) ltac:(lra) Hc' Hk HS) as A1.
      pose proof (cut_effect p wg l k x (fun j => F j x) Vp (ss_half p q SS) (ss_I0 _ _ SS) (ss_mu0 _ _ SS) Hlp (Fp l Hlp) ltac:(rewrite (ss_top p q SS); lra) Hc Hk HS) as A2. rewrite zz in A2.
      pose proof (full_change l k x Hl Hk Hx) as A3. pose proof (HJ l Hl) as A4. unfold ee. apply Rabs_le_between in A1. apply Rabs_le_between in A2. apply Rabs_le_between in A3. apply Rabs_le. lra.
    Qed.

    Hypothesis Hph : phase_nonneg q mu.
    Hypothesis Hsurf : passive_surface q mu w rho.

    Lemma cn i : (i < half q)%nat -> Rabs (vn i - vn' i) <= ee.
    Proof. intros Hi. pose proof (cb_n _ _ _ _ _ _ _ _ _ _ _ CB i Hi). unfold ee. lra. Qed.
    Lemma cp i : (i < half q)%nat -> Rabs (vp i - vp' i) + p_I0 q / PI * Rabs (reflects q rho (nth i mu 0) (p_mu0 q)) * depth_dist p q <= (1 - reflectance q mu w rho i) * ee.
    Proof.
      intros Hi. pose proof (cb_p _ _ _ _ _ _ _ _ _ _ _ CB i Hi). pose proof (ps_albedo _ _ _ _ Hsurf i Hi). unfold ee. rewrite Rmult_plus_distr_l.
      assert (0 <= (1 - reflectance q mu w rho i) * J) by (apply Rmult_le_pos; lra). lra.
    Qed.
    Lemma ee_nonneg : 0 <= ee.
    Proof. eapply Rle_trans; [apply Rabs_pos|apply (cn 0%nat), half_pos; exact Vq]. Qed.

    Lemma bvp_change_cut1 s : s = 1 \/ s = -1 -> forall i t, (i < streams q)%nat -> 0 <= t <= bottom q -> s * (F i t - G i t) <= ee.
    Proof.
      intros Hs i t Hi Ht. pose proof ee_nonneg as He. destruct BF as [A1 A2 A3 A4]. destruct BG as [B1 B2 B3 B4]. rewrite (streams_eq q Vq) in Hi, B1, B2.
      assert (SA : forall x y, Rabs x <= y -> s * x <= y /\ - (s * x) <= y). { intros x y H. apply Rabs_le_between in H. destruct Hs as [-> | ->]; lra. }
      enough (0 <= ee - s * F i t + s * G i t) by lra. assert (HN : (half q <= 2 * half q)%nat) by lia.
      refine (field_nonneg q Vq mu w Hdg (fun i t => ee - s * F i t + s * G i t)
        (fun i j => if Nat.ltb 0 (length (p_BDRF q)) then 2 * (rho (nth i mu 0) (nth j mu 0) * nth j mu 0 * w j) else 0) Hph _ _ _ _ _ _ i t Hi Ht).
      - intros k Hk. apply (cont_on_ext _ _ (fun x => (ee + (- s) * F k x) + s * G k x)); [intros; ring|]. apply cont_on_plus; [|apply cont_on_scal, B2; exact Hk]. apply cont_on_plus.
        + apply cont_on_const.
        + apply cont_on_scal. rewrite <- (ss_bottom p q SS). apply A2. rewrite (ss_streams p q SS), (streams_eq q Vq). exact Hk.
      - intros l k x Hl Hk Hx. assert (Hlp : (l < nlayers p)%nat) by (rewrite (ss_nlayers p q SS); exact Hl).
        destruct (cutoff_ex (albedo_s q l) (wphase_s q l) (ncoeffs q) 0) as (wg' & Hc'). destruct (cutoff_ex (albedo_s p l) (wphase_s p l) (ncoeffs p) 0) as (wg & Hc).
        set (nc := rsum (2 * half q) (fun j => wnode (half q) w j * D_spec (albedo_s q l) wg' (ncoeffs q) 0 (nth k mu 0) (nth j mu 0))).
        set (dl := rte q mu w wg' 0 l k x (fun j => F j x) - rte p mu w wg 0 l k x (fun j => F j x)).
        exists wg', (scl q l * ee * (1 - nc) - s * dl). split; [exact Hc'|]. pose proof (scl_pos q Vq l Hl) as Hsc. split.
        + pose proof (D_row_le q Vq mu w Hdg l wg' k Hl Hc') as Hnc. fold nc in Hnc. pose proof (proj1 (SA _ _ (defect_cut l k x wg wg' Hl Hk Hx Hc Hc'))) as Hd. fold dl in Hd.
          assert (E : scl q l * (1 - albedo_s q l) = 1 - albedo q l) by (unfold albedo_s, scl in *; field; lra).
          assert (0 <= (scl q l * ee) * (albedo_s q l - nc)) by (apply Rmult_le_pos; [apply Rmult_le_pos; lra|lra]).
          replace (scl q l * ee * (1 - nc) - s * dl) with (scl q l * (1 - albedo_s q l) * ee - s * dl + scl q l * ee * (albedo_s q l - nc)) by ring.
          rewrite E. lra.
        + pose proof (B1 l k wg' x Hl Hk Hx Hc') as DG.
          assert (DF : is_derive (F k) x (rte p mu w wg 0 l k x (fun j => F j x) / nth k mu 0)).
          { apply A1; [exact Hlp|rewrite (ss_streams p q SS), (streams_eq q Vq); exact Hk|rewrite (ss_top p q SS), (ss_bot p q SS); exact Hx|exact Hc]. }
          refine (der_eq _ _ _ _ _ (der_plus _ _ _ _ _ (der_minus _ _ _ _ _ (is_derive_const ee x) (der_scal _ s _ _ DF)) (der_scal _ s _ _ DG))). unfold dl. change zero with 0.
          set (rp := rte p mu w wg 0 l k x (fun j => F j x)). unfold rte. cbn [Nat.eqb]. rewrite (streams_eq q Vq).
          set (Dq := D_spec (albedo_s q l) wg' (ncoeffs q) 0 (nth k mu 0)) in *.
          rewrite (rsum_ext _ (fun j => wnode (half q) w j * Dq (nth j mu 0) * (ee - s * F j x + s * G j x))
            (fun j => (ee * (wnode (half q) w j * Dq (nth j mu 0)) - s * (wnode (half q) w j * Dq (nth j mu 0) * F j x)) - (- s) * (wnode (half q) w j * Dq (nth j mu 0) * G j x))) by (intros; ring).
          rewrite !rsum_minus, !rsum_scal. fold nc. unfold Rdiv. ring.
      - intros k Hk. rewrite (B3 k Hk). replace (half q) with (half p) in * by apply (ss_half p q SS). rewrite (A3 k Hk). cbn [Nat.eqb].
        pose proof (SA _ _ (cn k ltac:(rewrite <- (ss_half p q SS); exact Hk))). lra.
      - intros k Hk. rewrite (B4 k Hk). replace (F k (bottom q)) with (F k (bottom p)) by (rewrite (ss_bottom p q SS); reflexivity). rewrite (A4 k) by (rewrite (ss_half p q SS); exact Hk). cbn [Nat.eqb].
        rewrite (ss_BDRF _ _ SS), (ss_half p q SS), (ss_mu0 _ _ SS), (ss_nlayers p q SS), (ss_bottom p q SS), (ss_I0 _ _ SS). pose proof (cp k Hk) as Hpk. unfold reflectance, reflects in Hpk.
        pose proof (SA _ _ (Rle_refl (Rabs (vp k - vp' k)))) as [Sv _].
        destruct (Nat.ltb 0 (length (p_BDRF q))).
        + assert (HB : s * (p_mu0 q * p_I0 q / PI * rho (nth k mu 0) (p_mu0 q) * (exp (- depth_s p (nlayers q - 1) (bottom q) / p_mu0 q) - exp (- depth_s q (nlayers q - 1) (bottom q) / p_mu0 q)))
                         <= p_I0 q / PI * Rabs (rho (nth k mu 0) (p_mu0 q)) * depth_dist p q).
          { apply (proj1 (SA _ _ (Rle_refl _))) || idtac. eapply Rle_trans; [apply (proj1 (SA _ _ (Rle_refl _)))|]. rewrite !Rabs_mult. pose proof (v_I0 q Vq) as HI. pose proof PI_RGT_0.
            destruct (Rle_lt_or_eq_dec 0 (p_I0 q) ltac:(lra)) as [Hlt|E].
            2: { rewrite <- E. unfold Rdiv. rewrite Rmult_0_r, !Rmult_0_l, Rabs_R0, !Rmult_0_l. lra. }
            pose proof (v_mu0 q Vq Hlt) as Hm. pose proof (v_ne q Vq) as Hnl.
            pose proof (beam_near p q SS Vp Vq (nlayers q - 1) (bottom q) ltac:(lra) ltac:(lia)) as K3. 
            assert (Hb : top_of q (nlayers q - 1) <= bottom q <= bot_of q (nlayers q - 1)). { rewrite (bottom_eq q). pose proof (layer_len q Vq (nlayers q - 1) ltac:(lia)). lra. }
            specialize (K3 Hb). rewrite (Rabs_pos_eq (p_mu0 q * p_I0 q / PI)) by (apply Rlt_le, Rdiv_lt_0_compat; [apply Rmult_lt_0_compat; lra|lra]).
            replace (p_I0 q / PI * Rabs (rho (nth k mu 0) (p_mu0 q)) * depth_dist p q) with (p_mu0 q * p_I0 q / PI * Rabs (rho (nth k mu 0) (p_mu0 q)) * (depth_dist p q / p_mu0 q)) by (field; lra).
            apply Rmult_le_compat_l; [|exact K3]. apply Rmult_le_pos; [apply Rlt_le, Rdiv_lt_0_compat; [apply Rmult_lt_0_compat; lra|lra]|apply Rabs_pos]. }
          rewrite (rsum_ext _ (fun j => 2 * (rho (nth k mu 0) (nth j mu 0) * nth j mu 0 * w j) * (ee - s * F (half q + j)%nat (bottom q) + s * G (half q + j)%nat (bottom q)))
            (fun j => (2 * ee * (rho (nth k mu 0) (nth j mu 0) * nth j mu 0 * w j) - 2 * s * (rho (nth k mu 0) (nth j mu 0) * nth j mu 0 * w j * F (half q + j)%nat (bottom q))) - (- 2) * s * (rho (nth k mu 0) (nth j mu 0) * nth j mu 0 * w j * G (half q + j)%nat (bottom q)))) by (intros; ring).
          rewrite !rsum_minus, !rsum_scal.
          set (SF := rsum (half q) (fun j => rho (nth k mu 0) (nth j mu 0) * nth j mu 0 * w j * F (half q + j)%nat (bottom q))) in *. set (SG := rsum (half q) (fun j => rho (nth k mu 0) (nth j mu 0) * nth j mu 0 * w j * G (half q + j)%nat (bottom q))) in *.
          set (S1 := rsum (half q) (fun i0 => rho (nth k mu 0) (nth i0 mu 0) * nth i0 mu 0 * w i0)) in *. lra.
        + rewrite rsum_0 by (intros; ring). rewrite Rabs_R0 in Hpk. lra.
      - intros k j Hk Hj. cbv beta. destruct (Nat.ltb 0 (length (p_BDRF q))); [|apply Rle_refl]. destruct Hdg as (_ & H2 & _). destruct (H2 j Hj) as (P1 & _ & P3). pose proof (ps_nonneg _ _ _ _ Hsurf k j Hk Hj) as P4.
        apply Rmult_le_pos; [lra|]. apply Rmult_le_pos; [apply Rmult_le_pos; lra|lra].
      - intros k Hk. pose proof (ps_albedo _ _ _ _ Hsurf k Hk) as Pa. unfold reflectance in Pa. destruct (Nat.ltb 0 (length (p_BDRF q))); [rewrite rsum_scal; exact Pa|]. rewrite rsum_0 by reflexivity. lra.
    Qed.
    Theorem bvp_change_cut i t : (i < streams q)%nat -> 0 <= t <= bottom q -> Rabs (F i t - G i t) <= ee.
    Proof.
      intros Hi Ht. pose proof (bvp_change_cut1 1 (or_introl eq_refl) i t Hi Ht). pose proof (bvp_change_cut1 (-1) (or_intror eq_refl) i t Hi Ht). apply Rabs_le. lra.
    Qed.
  End Field.
End Change.

Section Calls.
  Variables (p q : py_in) (lg : leggauss_t) (la la' : linalg) (jk jk' : junk) (out out' : py_out).
  Hypothesis Hla : linalg_ok la.
  Hypothesis Hla' : linalg_ok la'.
  Hypothesis Hlg : leggauss_ok (half p) (lg (half p)).
  Hypothesis Hp : pydisort p lg la jk = Ok out.
  Hypothesis Hq : pydisort q lg la' jk' = Ok out'.
  Variables (w : nat -> R) (vn vp vn' vp' : nat -> R) (rho : nat -> R -> R -> R).
  Hypothesis Hw : double_gauss (half p) (po_mu out) w.
  Hypothesis BD : boundary_data p vn vp rho.
  Hypothesis BD' : boundary_data q vn' vp' rho.
  Hypothesis SS : same_setting p q.
  Hypothesis Fp : forall l, (l < nlayers p)%nat -> fwd p l < 1.
  Hypothesis Fq : forall l, (l < nlayers q)%nat -> fwd q l < 1.
  Hypothesis Hph : phase_nonneg q (po_mu out).
  Hypothesis Hsurf' : passive_surface q (po_mu out) w (rho 0%nat).
  Variables e J M : R.
  Hypothesis CB : changes_by e M p q (po_mu out) w vn vp vn' vp' (rho 0%nat).
  Hypothesis HJ0 : 0 <= J.
  Hypothesis HJ : forall l, (l < nlayers q)%nat -> 4 * zcut q * (M + p_I0 q / (4 * PI)) <= (1 - albedo q l) * J.
  Let ee := e + J.

  Lemma change_modes U U' : modes_of p out U -> modes_of q out' U' -> (forall i t, (i < streams q)%nat -> 0 <= t <= bottom q -> Rabs (U 0%nat i t) <= M) ->
    forall i t, (i < streams q)%nat -> 0 <= t <= bottom q -> Rabs (U 0%nat i t - U' 0%nat i t) <= ee.
  Proof.
    intros HU HU' HM i t Hi Ht. pose proof (call_valid p lg la jk out Hp) as Vp. pose proof (call_valid q lg la' jk' out' Hq) as Vq.
    pose proof (same_mu p q lg la la' jk jk' out out' Hp Hq (ss_NQuad _ _ SS)) as Em. pose proof (ss_half p q SS) as Eh.
    assert (Hw' : double_gauss (half q) (po_mu out') w) by (rewrite <- Em, <- Eh; exact Hw).
    assert (Hlg' : leggauss_ok (half q) (lg (half q))) by (rewrite <- Eh; exact Hlg).
    pose proof (bd_bvp p lg la jk out Hla Hlg Hp w vn vp rho Hw BD U 0%nat HU (seen_0 p Vp)) as B.
    pose proof (bd_bvp q lg la' jk' out' Hla' Hlg' Hq w vn' vp' rho Hw' BD' U' 0%nat HU' (seen_0 q Vq)) as B'.
    rewrite <- Em in B', Hw'.
    exact (bvp_change_cut p q SS Vp Vq Fp Fq (po_mu out) w vn vp vn' vp' (rho 0%nat) e J M Hw' CB HJ0 HJ (U 0%nat) (U' 0%nat) B B' HM Hph Hsurf' i t Hi Ht).
  Qed.
  Lemma call_cut0 U : modes_of p out U -> (forall i t, (i < streams q)%nat -> 0 <= t <= bottom q -> Rabs (U 0%nat i t) <= M) -> forall tau, depths_ok p tau ->
    (exists A B, po_u0 out tau false false false = Ok (PVal (PT A)) /\ po_u0 out' tau false false false = Ok (PVal (PT B)) /\ twithin ee A B) /\
    (exists A B, po_flux_up out tau false false = Ok (PVal (PT A)) /\ po_flux_up out' tau false false = Ok (PVal (PT B)) /\ twithin (PI * ee) A B) /\
    (exists A A0 B B0, po_flux_down out tau false false = Ok (PTup [PT A; PT A0]) /\ po_flux_down out' tau false false = Ok (PTup [PT B; PT B0]) /\ twithin (PI * ee + p_I0 q * depth_dist p q) A B).
  Proof.
    intros HU HM tau Ht. pose proof (call_valid p lg la jk out Hp) as Vp. pose proof (call_valid q lg la' jk' out' Hq) as Vq.
    pose proof (same_mu p q lg la la' jk jk' out out' Hp Hq (ss_NQuad _ _ SS)) as Em. pose proof (ss_half p q SS) as Eh. pose proof (ss_streams p q SS) as Es.
    assert (Hlg' : leggauss_ok (half q) (lg (half q))) by (rewrite <- Eh; exact Hlg).
    destruct (modes_exist q lg la' jk' out' Hla' Hlg' Hq) as (U' & HU').
    pose proof (change_modes U U' HU HU' HM) as HLE.
    assert (Ht' : depths_ok q tau) by (intros t Hin; rewrite <- (ss_bottom p q SS); apply Ht; exact Hin).
    assert (Hin : forall k, (k < length tau)%nat -> 0 <= nth k tau 0 <= bottom q) by (intros k Hk; apply Ht', nth_In; exact Hk).
    destruct (call_fluxes p lg la jk out Hla Hlg Hp U HU) as (w1 & D1 & R1 & R1'). destruct (call_fluxes q lg la' jk' out' Hla' Hlg' Hq U' HU') as (w2 & D2 & R2 & R2').
    pose proof (dg_weights _ _ _ _ D1 Hw) as E1. rewrite <- Em, <- Eh in D2. pose proof (dg_weights _ _ _ _ D2 Hw) as E2. rewrite <- Em, <- Eh in R2, R2'.
    assert (Hc : forall i, (i < half p)%nat -> 0 <= w i * nth i (po_mu out) 0).
    { intros i Hi. destruct Hw as (_ & H2 & _). destruct (H2 i Hi) as (P1 & _ & P2). apply Rmult_le_pos; lra. }
    pose proof PI_RGT_0. assert (Hst : streams q = (half p + half p)%nat) by (rewrite (streams_eq q Vq), Eh; lia).
    assert (HS : forall f g, (forall i, (i < half p)%nat -> Rabs (f i - g i) <= ee) ->
      Rabs (2 * PI * rsum (half p) (fun i => w1 i * nth i (po_mu out) 0 * f i) - 2 * PI * rsum (half p) (fun i => w2 i * nth i (po_mu out) 0 * g i)) <= PI * ee).
    { intros f g Hfg. rewrite <- Rmult_minus_distr_l, <- rsum_minus, Rabs_mult, (Rabs_pos_eq (2 * PI)) by lra.
      apply Rle_trans with (2 * PI * (1 / 2 * ee)); [|right; field]. apply Rmult_le_compat_l; [lra|].
      rewrite <- (dg_first (half p) (po_mu out) w (half_pos p Vp) Hw), Rmult_comm, <- rsum_scal. eapply Rle_trans; [apply rsum_abs|]. apply rsum_le. intros i Hi.
      rewrite E1, E2 by auto. rewrite <- Rmult_minus_distr_l, Rabs_mult, (Rabs_pos_eq (w i * _)) by auto. rewrite (Rmult_comm ee). apply Rmult_le_compat_l; auto. }
    split; [|split].
    - destruct (proj1 HU tau Ht) as (A & EA & SA). destruct (proj1 HU' tau Ht') as (B & EB & SB). exists A, B. split; [exact EA|]. split; [exact EB|].
      rewrite <- Es in SB. refine (squeezed_within _ _ _ _ _ _ SA SB _). intros idx Hi. apply inb_2 in Hi as (a & b & -> & Ha & Hb). cbn [nth]. apply HLE; [rewrite <- Es; lia|apply Hin; lia].
    - destruct (R1 tau Ht) as (A & EA & SA). destruct (R2 tau Ht') as (B & EB & SB). exists A, B. split; [exact EA|]. split; [exact EB|].
      refine (squeezed_within _ _ _ _ _ _ SA SB _). intros idx Hi. apply inb_1 in Hi as (a & -> & Ha). cbn [nth].
      apply (HS (fun i => U 0%nat i (nth a tau 0)) (fun i => U' 0%nat i (nth a tau 0))). intros i Hi'. apply HLE; [lia|apply Hin; lia].
    - destruct (R1' tau Ht) as (A & A0 & EA & SA & _). destruct (R2' tau Ht') as (B & B0 & EB & SB & _). exists A, A0, B, B0. split; [exact EA|]. split; [exact EB|].
      refine (squeezed_within _ _ _ _ _ _ SA SB _). intros idx Hi. apply inb_1 in Hi as (a & -> & Ha). cbn [nth]. unfold direct.
      rewrite (ss_mu0 p q SS), (ss_I0 p q SS). set (t := nth a tau 0). pose proof (Hin a ltac:(lia)) as Hta. fold t in Hta.
      pose proof (HS (fun i => U 0%nat (half p + i)%nat t) (fun i => U' 0%nat (half p + i)%nat t) ltac:(intros i Hi'; apply HLE; [lia|exact Hta])) as HF. cbv beta in HF.
      assert (HB : Rabs (p_I0 q * p_mu0 q * exp (- sdepth p t / p_mu0 q) - p_I0 q * p_mu0 q * exp (- sdepth q t / p_mu0 q)) <= p_I0 q * depth_dist p q).
      { pose proof (v_I0 q Vq) as HI. destruct (Rle_lt_or_eq_dec 0 (p_I0 q) ltac:(lra)) as [Hlt|E]; [|rewrite <- E, !Rmult_0_l, Rminus_0_r, Rabs_R0; lra].
        pose proof (v_mu0 q Vq Hlt) as Hm. unfold sdepth. rewrite (ss_lay p q SS). pose proof (lay_at q Vq t Hta) as (Hl & Hlt').
        assert (Hx : top_of q (lay q t) <= t <= bot_of q (lay q t)). { destruct Hlt' as [Hx|(El & E0)]; [lra|]. rewrite El, E0. split; [cbn; lra|]. apply Rlt_le, (v_tau q Vq). pose proof (v_ne q Vq). lia. }
        pose proof (beam_near p q SS Vp Vq (lay q t) t ltac:(lra) Hl Hx) as K. rewrite <- Rmult_minus_distr_l, Rabs_mult, (Rabs_pos_eq (_ * _)) by (apply Rmult_le_pos; lra).
        replace (p_I0 q * depth_dist p q) with (p_I0 q * p_mu0 q * (depth_dist p q / p_mu0 q)) by (field; lra). apply Rmult_le_compat_l; [apply Rmult_le_pos; lra|exact K]. }
      match goal with |- Rabs ?x <= _ => match type of HF with Rabs ?y <= _ => match type of HB with Rabs ?z <= _ => replace x with (y + z) by ring end end end.
      eapply Rle_trans; [apply Rabs_triang|]. lra.
  Qed.

  Theorem call_cut : u0_bounded p out M -> forall tau, depths_ok p tau ->
    (exists A B, po_u0 out tau false false false = Ok (PVal (PT A)) /\ po_u0 out' tau false false false = Ok (PVal (PT B)) /\ twithin ee A B) /\
    (exists A B, po_flux_up out tau false false = Ok (PVal (PT A)) /\ po_flux_up out' tau false false = Ok (PVal (PT B)) /\ twithin (PI * ee) A B) /\
    (exists A A0 B B0, po_flux_down out tau false false = Ok (PTup [PT A; PT A0]) /\ po_flux_down out' tau false false = Ok (PTup [PT B; PT B0]) /\ twithin (PI * ee + p_I0 q * depth_dist p q) A B).
  Proof.
    intros HB. destruct (modes_exist p lg la jk out Hla Hlg Hp) as (U & HU). apply (call_cut0 U HU). rewrite <- (ss_streams p q SS), <- (ss_bottom p q SS).
    exact (bounded_modes p (call_valid p lg la jk out Hp) out M U HB HU).
  Qed.
End Calls.

(** Continuity up to the effect of the cut-off. *)
Theorem call_continuous_cut p lg la jk out : linalg_ok la -> leggauss_ok (half p) (lg (half p)) -> pydisort p lg la jk = Ok out ->
  forall w vn vp rho, double_gauss (half p) (po_mu out) w -> boundary_data p vn vp rho -> (forall l, (l < nlayers p)%nat -> fwd p l < 1) -> (forall i, (i < half p)%nat -> reflectance p (po_mu out) w (rho 0%nat) i < 1) ->
  forall M J, u0_bounded p out M -> (forall l, (l < nlayers p)%nat -> 4 * zcut p * (M + p_I0 p / (4 * PI)) < (1 - albedo p l) * J) ->
  forall eps, 0 < eps -> exists d, 0 < d /\
  forall q la' jk' out' vn' vp', linalg_ok la' -> pydisort q lg la' jk' = Ok out' -> boundary_data q vn' vp' rho -> same_setting p q -> nearby d p q vn vp vn' vp' ->
  (forall l, (l < nlayers q)%nat -> fwd q l < 1) -> phase_nonneg q (po_mu out) -> passive_surface q (po_mu out) w (rho 0%nat) -> forall tau, depths_ok p tau ->
  (exists A B, po_u0 out tau false false false = Ok (PVal (PT A)) /\ po_u0 out' tau false false false = Ok (PVal (PT B)) /\ twithin (J + eps) A B) /\
  (exists A B, po_flux_up out tau false false = Ok (PVal (PT A)) /\ po_flux_up out' tau false false = Ok (PVal (PT B)) /\ twithin (PI * J + eps) A B) /\
  (exists A A0 B B0, po_flux_down out tau false false = Ok (PTup [PT A; PT A0]) /\ po_flux_down out' tau false false = Ok (PTup [PT B; PT B0]) /\ twithin (PI * J + eps) A B).
Proof.
  intros Hla Hlg Hp w vn vp rho Hw BD Fp Hr M J HUB HJp eps Heps. pose proof (call_valid p lg la jk out Hp) as Vp. destruct (modes_exist p lg la jk out Hla Hlg Hp) as (U & HU).
  pose proof (half_pos p Vp) as Hh. pose proof (streams_eq p Vp) as Est. pose proof (v_I0 p Vp) as HI. pose proof PI_RGT_0 as HPI.
  assert (Hbot : 0 < bottom p). { rewrite (bottom_eq p). apply (v_tau p Vp). pose proof (v_ne p Vp). lia. }
  pose proof (bd_bvp p lg la jk out Hla Hlg Hp w vn vp rho Hw BD U 0%nat HU (seen_0 p Vp)) as B0.
  pose proof (bounded_modes p Vp out M U HUB HU) as HM. assert (HM0 : 0 <= M) by (eapply Rle_trans; [apply Rabs_pos|apply (HM 0%nat 0); [lia|lra]]).
  destruct (pos_lower (nlayers p) (fun l => (1 - albedo p l) * J - 4 * zcut p * (M + p_I0 p / (4 * PI)))) as (kj & Hkj & Hjl); [intros l Hl; pose proof (HJp l Hl); lra|].
  assert (HJ0 : 0 < J).
  { pose proof (v_ne p Vp) as Hne. pose proof (HJp 0%nat ltac:(lia)) as X. pose proof (albedo_range p Vp 0%nat ltac:(lia)). pose proof (zcut_nonneg p).
    assert (0 <= p_I0 p / (4 * PI)) by (apply Rmult_le_pos; [lra|apply Rlt_le, Rinv_0_lt_compat; lra]). assert (0 <= zcut p * (M + p_I0 p / (4 * PI))) by (apply Rmult_le_pos; lra). nra. }
  destruct (pos_lower (nlayers p) (fun l => 1 - albedo p l)) as (ka & Hka & Hal); [intros l Hl; pose proof (albedo_range p Vp l Hl); lra|].
  destruct (pos_lower (half p) (fun i => 1 - reflectance p (po_mu out) w (rho 0%nat) i)) as (kr & Hkr & Hrl); [intros i Hi; pose proof (Hr i Hi); lra|].
  destruct (fin_upper (half p) (fun i => reflects p (rho 0%nat) (nth i (po_mu out) 0) (p_mu0 p))) as (Rm & HRm & HRl).
  destruct (source_bounded p Vp) as (S0 & HS0 & HSl).
  set (n := n2 p). pose proof (n2_nonneg p) as Hn. fold n in Hn. set (T := bottom p) in *.
  set (Bm := if Rlt_dec 0 (p_I0 p) then p_I0 p / (4 * PI) * (4 * n + 2 * n * (2 * T / p_mu0 p)) else 0).
  assert (HBm : 0 <= Bm).
  { unfold Bm. destruct (Rlt_dec 0 (p_I0 p)) as [H|H]; [|lra]. pose proof (v_mu0 p Vp H). apply Rmult_le_pos; [apply Rlt_le, Rdiv_lt_0_compat; lra|]. assert (0 < 2 * T / p_mu0 p) by (apply Rdiv_lt_0_compat; lra). nra. }
  set (C1 := (2 + 4 * n) * M + Bm + (1 + S0)). assert (HC1 : 0 < C1) by (unfold C1; nra).
  set (C2 := 1 + p_I0 p / PI * Rm * (2 * T)). assert (HC2 : 0 < C2). { unfold C2. assert (0 <= p_I0 p / PI) by (apply Rmult_le_pos; [lra|apply Rlt_le, Rinv_0_lt_compat; lra]). assert (0 <= p_I0 p / PI * Rm) by (apply Rmult_le_pos; lra). nra. }
  set (C3 := 1 + p_I0 p * (2 * T)). assert (HC3 : 0 < C3) by (unfold C3; nra).
  set (e := eps / 8). assert (He : 0 < e) by (unfold e; lra).
  set (d := Rmin (kj / J) (Rmin (ka / 2) (Rmin (ka / 2 * e / C1) (Rmin (kr * e / C2) (Rmin (eps / 2 / C3) e))))).
  assert (DJ : d <= kj / J) by apply Rmin_l.
  assert (D1 : d <= ka / 2) by (eapply Rle_trans; [apply Rmin_r|apply Rmin_l]).
  assert (D2 : d <= ka / 2 * e / C1) by (eapply Rle_trans; [apply Rmin_r|eapply Rle_trans; [apply Rmin_r|apply Rmin_l]]).
  assert (D3 : d <= kr * e / C2) by (eapply Rle_trans; [apply Rmin_r|eapply Rle_trans; [apply Rmin_r|eapply Rle_trans; [apply Rmin_r|apply Rmin_l]]]).
  assert (D4 : d <= eps / 2 / C3) by (do 4 (eapply Rle_trans; [apply Rmin_r|]); apply Rmin_l).
  assert (D5 : d <= e) by (do 4 (eapply Rle_trans; [apply Rmin_r|]); apply Rmin_r).
  assert (D0 : 0 < d). { unfold d. repeat apply Rmin_pos; try lra; apply Rdiv_lt_0_compat; try lra; apply Rmult_lt_0_compat; lra. }
  clearbody d. exists d. split; [exact D0|].
  assert (D2' : d * C1 <= ka / 2 * e) by (apply (Rmult_le_reg_r (/ C1)); [apply Rinv_0_lt_compat; lra|]; replace (d * C1 * / C1) with d by (field; lra); exact D2).
  assert (D3' : d * C2 <= kr * e) by (apply (Rmult_le_reg_r (/ C2)); [apply Rinv_0_lt_compat; lra|]; replace (d * C2 * / C2) with d by (field; lra); exact D3).
  assert (D4' : d * C3 <= eps / 2) by (apply (Rmult_le_reg_r (/ C3)); [apply Rinv_0_lt_compat; lra|]; replace (d * C3 * / C3) with d by (field; lra); exact D4).
  intros q la' jk' out' vn' vp' Hla' Hq BD' SS NB Fq Hph Hsurf tau Ht. pose proof (call_valid q lg la' jk' out' Hq) as Vq.
  assert (Enl : nlayers p = nlayers q) by apply (ss_nlayers p q SS). assert (Eh : half p = half q) by apply (ss_half p q SS). assert (Eb : T = bottom q) by apply (ss_bottom p q SS).
  assert (En : n2 q = n) by (unfold n, n2; rewrite (ss_ncoeffs p q SS); reflexivity).
  pose proof (nb_depth p q vn vp vn' vp' d Vp Vq NB) as ND. rewrite <- Eb in ND. pose proof (ddist_nonneg p q Vq) as ND0.
  assert (CB : changes_by e M p q (po_mu out) w vn vp vn' vp' (rho 0%nat)).
  { constructor.
    - intros l t Hl Htl. pose proof (Hal l ltac:(rewrite Enl; exact Hl)) as A1. pose proof (nb_albedo _ _ _ _ _ _ _ NB l Hl) as A2. apply Rabs_le_between in A2.
      apply Rle_trans with (ka / 2 * e); [|apply Rmult_le_compat_r; lra]. apply Rle_trans with (2 := D2'). unfold C1. replace (d * ((2 + 4 * n) * M + Bm + (1 + S0))) with (d * ((2 + 4 * n) * M) + d * Bm + d * (1 + S0)) by ring.
      pose proof (nb_peak p q vn vp vn' vp' d Vp Vq NB l Hl) as P1. pose proof (nb_sdist p q vn vp vn' vp' d Vp Vq SS NB l Hl) as P2. pose proof (nb_size q Vq l Hl) as P3. rewrite En in P2, P3.
      pose proof (sdist_nonneg p q l) as P4. pose proof (size_nonneg q l) as P5.
      apply Rplus_le_compat; [apply Rplus_le_compat|].
      + replace (d * ((2 + 4 * n) * M)) with ((2 * d + 4 * d * n) * M) by ring. apply Rmult_le_compat_r; lra.
      + unfold Bm. rewrite <- (ss_I0 p q SS), <- (ss_mu0 p q SS). destruct (Rlt_dec 0 (p_I0 p)) as [H|H].
        2: { replace (p_I0 p) with 0 by lra. unfold Rdiv. rewrite !Rmult_0_l. lra. }
        pose proof (v_mu0 p Vp H) as Hm. replace (d * (p_I0 p / (4 * PI) * (4 * n + 2 * n * (2 * T / p_mu0 p)))) with (p_I0 p / (4 * PI) * (4 * d * n + 2 * n * (2 * d * T / p_mu0 p))) by (field; lra).
        apply Rmult_le_compat_l; [apply Rlt_le, Rdiv_lt_0_compat; lra|]. apply Rplus_le_compat; [exact P2|]. assert (Hi : 0 < / p_mu0 p) by (apply Rinv_0_lt_compat; lra).
        apply Rmult_le_compat; [exact P5| |exact P3|]; unfold Rdiv; [apply Rmult_le_pos; lra|apply Rmult_le_compat_r; lra].
      + apply (nb_emission p q vn vp vn' vp' d Vq NB l t S0 Hl Htl). apply HSl; [rewrite Enl; exact Hl|]. fold T. rewrite Eb.
        destruct (layer_in q Vq l Hl) as (X0 & X1). lra.
    - intros i Hi. eapply Rle_trans; [apply (nb_n _ _ _ _ _ _ _ NB i Hi)|]. exact D5.
    - intros i Hi. rewrite <- Eh in Hi. assert (ER : reflectance q (po_mu out) w (rho 0%nat) i = reflectance p (po_mu out) w (rho 0%nat) i) by (unfold reflectance; rewrite (ss_BDRF _ _ SS), Eh; reflexivity).
      rewrite ER. pose proof (Hrl i Hi) as R1. apply Rle_trans with (kr * e); [|apply Rmult_le_compat_r; lra]. apply Rle_trans with (2 := D3'). unfold C2. rewrite Rmult_plus_distr_l.
      apply Rplus_le_compat; [rewrite Rmult_1_r; apply (nb_p _ _ _ _ _ _ _ NB i); rewrite <- Eh; exact Hi|].
      assert (R2 : Rabs (reflects q (rho 0%nat) (nth i (po_mu out) 0) (p_mu0 q)) <= Rm). { rewrite <- (ss_mu0 _ _ SS). unfold reflects in *. rewrite <- (ss_BDRF _ _ SS). apply (HRl i Hi). }
      rewrite <- (ss_I0 _ _ SS). assert (Hi0 : 0 <= p_I0 p / PI) by (apply Rmult_le_pos; [lra|apply Rlt_le, Rinv_0_lt_compat; lra]).
      replace (d * (p_I0 p / PI * Rm * (2 * T))) with (p_I0 p / PI * Rm * (2 * d * T)) by ring. apply Rmult_le_compat; [apply Rmult_le_pos; [lra|apply Rabs_pos]|lra| |exact ND]. apply Rmult_le_compat_l; lra. }
  assert (DJ' : d * J <= kj) by (apply (Rmult_le_reg_r (/ J)); [apply Rinv_0_lt_compat; lra|]; replace (d * J * / J) with d by (field; lra); exact DJ).
  assert (HJq : forall l, (l < nlayers q)%nat -> 4 * zcut q * (M + p_I0 q / (4 * PI)) <= (1 - albedo q l) * J).
  { intros l Hl. rewrite <- (zz p q SS), <- (ss_I0 _ _ SS). pose proof (Hjl l ltac:(rewrite Enl; exact Hl)) as A1. cbv beta in A1. pose proof (nb_albedo _ _ _ _ _ _ _ NB l Hl) as A2. apply Rabs_le_between in A2. nra. }
  destruct (call_cut p q lg la la' jk jk' out out' Hla Hla' Hlg Hp Hq w vn vp vn' vp' rho Hw BD BD' SS Fp Fq Hph Hsurf e J M CB ltac:(lra) HJq HUB tau Ht) as ((A & B & E1 & E2 & W1) & (A' & B' & E3 & E4 & W2) & (A1 & A2 & B1 & B2 & E5 & E6 & W3)).
  assert (HP4 : PI <= 4) by apply PI_4. assert (Hw8 : PI * e <= eps / 2) by (unfold e; nra).
  assert (Hd3 : p_I0 q * depth_dist p q <= eps / 2). { rewrite <- (ss_I0 _ _ SS). unfold C3 in D4'. nra. }
  assert (TW : forall x y A B, x <= y -> twithin x A B -> twithin y A B) by (intros x y X Y Hx [X1 X2]; split; [exact X1|]; intros idx Hidx; eapply Rle_trans; [apply X2; exact Hidx|exact Hx]).
  split; [exists A, B|split; [exists A', B'|exists A1, A2, B1, B2]].
  - split; [exact E1|]. split; [exact E2|]. apply (TW (e + J)); [unfold e; lra|exact W1].
  - split; [exact E3|]. split; [exact E4|]. apply (TW (PI * (e + J))); [lra|exact W2].
  - split; [exact E5|]. split; [exact E6|]. apply (TW (PI * (e + J) + p_I0 q * depth_dist p q)); [lra|exact W3].
Qed.

