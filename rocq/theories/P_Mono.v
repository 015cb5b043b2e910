(** How the radiation depends on the atmosphere: comparison and stability. *)
From Coq Require Import Classical String Reals Lra Lia List Bool Arith ZArith.
From Coquelicot Require Import Coquelicot.
From Verif Require Import Base Tensor Spec M_LinAlg Spec_RTE Calc M_Subroutines M_GenPart M_MathscrV M_Coeffs M_Assemble M_Pydisort
  Spec_Sol Spec_Valid Spec_Calls Spec_Unique Spec_Phys Spec_Mono P_Special P_Quad P_Sub P_Solve P_Energy P_Pydisort P_Pydisort2 P_Pydisort3 P_Pydisort4 P_Pydisort5 P_Pydisort6 P_Pydisort8 P_Teq P_NT3 P_Unique2 P_Refine P_Max P_Max2 P_Max3 P_Max4.
Import ListNotations.
Local Open Scope R_scope.

Lemma rsum_abs n f : Rabs (rsum n f) <= rsum n (fun i => Rabs (f i)).
Proof. induction n; cbn [rsum]; [rewrite Rabs_R0; lra|]. eapply Rle_trans; [apply Rabs_triang|]. lra. Qed.

Section Dim.
  Variables (p q : py_in) (mu : list R) (w vn vp vn' vp' : nat -> R) (rho rho' : R -> R -> R).
  Hypothesis D : dimmer p q mu vn vp vn' vp' rho rho'.
  Lemma di_half : half p = half q. Proof. unfold half. rewrite (di_NQuad _ _ _ _ _ _ _ _ _ D). reflexivity. Qed.
  Lemma di_streams : streams p = streams q. Proof. unfold streams. rewrite (di_NQuad _ _ _ _ _ _ _ _ _ D). reflexivity. Qed.
  Lemma di_nlayers : nlayers p = nlayers q. Proof. unfold nlayers. rewrite (di_tau _ _ _ _ _ _ _ _ _ D). reflexivity. Qed.
  Lemma di_ncoeffs : ncoeffs p = ncoeffs q. Proof. unfold ncoeffs. rewrite (di_NLeg _ _ _ _ _ _ _ _ _ D), (di_NQuad _ _ _ _ _ _ _ _ _ D). reflexivity. Qed.
  Lemma di_top l : top_of p l = top_of q l. Proof. unfold top_of. rewrite (di_tau _ _ _ _ _ _ _ _ _ D). reflexivity. Qed.
  Lemma di_bot l : bot_of p l = bot_of q l. Proof. unfold bot_of. rewrite (di_tau _ _ _ _ _ _ _ _ _ D). reflexivity. Qed.
  Lemma di_bottom : bottom p = bottom q. Proof. unfold bottom. rewrite (di_tau _ _ _ _ _ _ _ _ _ D). reflexivity. Qed.
  Lemma di_fwd l : fwd p l = fwd q l. Proof. unfold fwd. rewrite (di_f _ _ _ _ _ _ _ _ _ D). reflexivity. Qed.
  Lemma di_wphase l : wphase_s p l = wphase_s q l. Proof. unfold wphase_s, phase_s, phase. rewrite di_fwd, (di_Leg _ _ _ _ _ _ _ _ _ D). reflexivity. Qed.
  Lemma di_lay t : lay p t = lay q t. Proof. unfold lay. rewrite (di_tau _ _ _ _ _ _ _ _ _ D). reflexivity. Qed.
  Lemma di_phase_mode m l x y : phase_mode p m l x y = phase_mode q m l x y.
  Proof. unfold phase_mode. rewrite di_ncoeffs, di_wphase. reflexivity. Qed.

  Hypothesis Vp : valid p.
  Hypothesis Vq : valid q.
  Lemma di_scl l : (l < nlayers q)%nat -> scl q l <= scl p l.
  Proof. intros Hl. unfold scl. rewrite di_fwd. pose proof (di_albedo _ _ _ _ _ _ _ _ _ D l Hl). pose proof (fwd_range q Vq l). nra. Qed.
  Lemma scl_albedo r l : 0 < scl r l -> scl r l * albedo_s r l = (1 - fwd r l) * albedo r l.
  Proof. intros H. unfold albedo_s. field. lra. Qed.
  Lemma di_scal l : (l < nlayers q)%nat -> scl p l * albedo_s p l <= scl q l * albedo_s q l.
  Proof.
    intros Hl. pose proof (scl_pos q Vq l Hl). pose proof (scl_pos p Vp l ltac:(rewrite di_nlayers; exact Hl)). rewrite !scl_albedo by lra. rewrite di_fwd.
    pose proof (fwd_range q Vq l). apply Rmult_le_compat_l; [lra|]. apply (di_albedo _ _ _ _ _ _ _ _ _ D l Hl).
  Qed.
  Lemma di_albedo_s l : (l < nlayers q)%nat -> albedo_s p l <= albedo_s q l.
  Proof.
    intros Hl. pose proof (di_scal l Hl) as H. pose proof (di_scl l Hl) as H1. pose proof (scl_pos q Vq l Hl) as H2. pose proof (albedo_s_range p Vp l ltac:(rewrite di_nlayers; exact Hl)) as H3.
    apply (Rmult_le_reg_l (scl q l)); [lra|]. apply Rle_trans with (2 := H). apply Rmult_le_compat_r; lra.
  Qed.
  Lemma di_depth l t : (l < nlayers q)%nat -> top_of q l <= t -> depth_s q l t <= depth_s p l t.
  Proof.
    intros Hl Ht. unfold depth_s. apply Rplus_le_compat.
    - apply rsum_le. intros r Hr. rewrite di_top, di_bot. apply Rmult_le_compat_r; [|apply di_scl; lia]. pose proof (v_inc q Vq r ltac:(lia)). lra.
    - rewrite di_top. apply Rmult_le_compat_r; [lra|apply di_scl; exact Hl].
  Qed.
  Lemma di_exp l t : (l < nlayers q)%nat -> top_of q l <= t -> 0 < p_mu0 q -> exp (- depth_s p l t / p_mu0 q) <= exp (- depth_s q l t / p_mu0 q).
  Proof.
    intros Hl Ht Hm. pose proof (di_depth l t Hl Ht) as [H|H]; [|rewrite H; lra]. left. apply exp_increasing. apply Rmult_lt_compat_r; [apply Rinv_0_lt_compat; exact Hm|lra].
  Qed.
  Lemma di_kernel l wg wg' x y : (l < nlayers q)%nat -> is_cutoff (albedo_s p l) (wphase_s p l) (ncoeffs p) 0 wg -> is_cutoff (albedo_s q l) (wphase_s q l) (ncoeffs q) 0 wg' ->
    0 <= phase_mode q 0 l x y -> scl p l * D_spec (albedo_s p l) wg (ncoeffs p) 0 x y <= scl q l * D_spec (albedo_s q l) wg' (ncoeffs q) 0 x y.
  Proof.
    intros Hl Hc Hc' Hp. pose proof (scl_pos q Vq l Hl) as Sq. assert (Hlp : (l < nlayers p)%nat) by (rewrite di_nlayers; exact Hl). pose proof (scl_pos p Vp l Hlp) as Sp.
    pose proof (albedo_s_range p Vp l Hlp) as Ap. pose proof (albedo_s_range q Vq l Hl) as Aq. pose proof (di_albedo_s l Hl) as Ha.
    pose proof (D_nonneg q Vq l wg' x y Hl Hc' Hp) as H0.
    destruct (classic (negligible (albedo_s p l) (wphase_s p l) (ncoeffs p) 0)) as [Hn|Hn].
    - rewrite (D_spec_0 _ wg) by (apply (proj1 Hc Hn)). rewrite Rmult_0_r. apply Rmult_le_pos; lra.
    - rewrite (D_spec_lt _ wg (wphase_s p l)) by (intros; apply (proj2 Hc Hn)).
      assert (Hn' : ~ negligible (albedo_s q l) (wphase_s q l) (ncoeffs q) 0).
      { intros H. apply Hn. intros k Hk. rewrite di_ncoeffs in Hk. specialize (H k Hk). rewrite di_wphase. eapply Rle_trans; [|exact H].
        rewrite !Rabs_mult. apply Rmult_le_compat_r; [apply Rabs_pos|]. rewrite !Rabs_pos_eq by lra. lra. }
      rewrite (D_spec_lt _ wg' (wphase_s q l)) by (intros; apply (proj2 Hc' Hn')). rewrite !D_spec_mode, di_phase_mode. pose proof (di_scal l Hl). nra.
  Qed.
  Lemma di_X l wg wg' x t : (l < nlayers q)%nat -> top_of q l <= t -> is_cutoff (albedo_s p l) (wphase_s p l) (ncoeffs p) 0 wg -> is_cutoff (albedo_s q l) (wphase_s q l) (ncoeffs q) 0 wg' ->
    (0 < p_I0 q -> 0 <= phase_mode q 0 l x (- p_mu0 q)) ->
    scl p l * (X_spec (p_I0 p / (4 * PI)) (albedo_s p l) wg (ncoeffs p) 0 (p_mu0 p) x * exp (- depth_s p l t / p_mu0 p)) <=
    scl q l * (X_spec (p_I0 q / (4 * PI)) (albedo_s q l) wg' (ncoeffs q) 0 (p_mu0 q) x * exp (- depth_s q l t / p_mu0 q)).
  Proof.
    intros Hl Ht Hc Hc' Hp. rewrite !X_spec_0m, (di_mu0 _ _ _ _ _ _ _ _ _ D). pose proof (di_I0 _ _ _ _ _ _ _ _ _ D) as HI. pose proof (v_I0 p Vp) as H0.
    destruct (Rle_lt_or_eq_dec 0 (p_I0 q) ltac:(lra)) as [Hlt|E].
    2: { replace (p_I0 p) with 0 by lra. rewrite <- E. unfold Rdiv. rewrite !Rmult_0_l, !Rmult_0_r, !Rmult_0_l, !Rmult_0_r. lra. }
    pose proof (di_kernel l wg wg' x (- p_mu0 q) Hl Hc Hc' (Hp Hlt)) as HK. pose proof (v_mu0 q Vq Hlt) as Hm. pose proof (di_exp l t Hl Ht ltac:(lra)) as HE.
    assert (K0 : 0 <= scl q l * D_spec (albedo_s q l) wg' (ncoeffs q) 0 x (- p_mu0 q)).
    { pose proof (scl_pos q Vq l Hl). apply Rmult_le_pos; [lra|]. apply D_nonneg; auto. }
    pose proof PI_RGT_0. assert (P4 : 0 < / (4 * PI)) by (apply Rinv_0_lt_compat; lra).
    set (kp := scl p l * D_spec _ _ _ _ _ _) in *. set (kq := scl q l * D_spec _ _ _ _ _ _) in *. set (ep := exp (- depth_s p l t / _)) in *. set (eq := exp (- depth_s q l t / _)) in *.
    assert (0 < ep) by apply exp_pos.
    apply Rle_trans with (2 * (p_I0 p * / (4 * PI)) * ep * kp); [right; unfold kp, Rdiv; ring|].
    apply Rle_trans with (2 * (p_I0 q * / (4 * PI)) * eq * kq); [|right; unfold kq, Rdiv; ring].
    apply Rle_trans with (2 * (p_I0 p * / (4 * PI)) * ep * kq).
    - apply Rmult_le_compat_l; [|exact HK]. apply Rmult_le_pos; [|lra]. apply Rmult_le_pos; [lra|]. apply Rmult_le_pos; lra.
    - apply Rmult_le_compat_r; [exact K0|]. apply Rmult_le_compat; [| lra | | exact HE].
      + apply Rmult_le_pos; [lra|]. apply Rmult_le_pos; lra.
      + apply Rmult_le_compat_l; [lra|]. apply Rmult_le_compat_r; lra.
  Qed.

  Theorem bvp_dim F G : double_gauss (half q) mu w -> phase_nonneg q mu -> beam_phase_nonneg q mu -> passive_surface p mu w rho -> passive_surface q mu w rho' ->
    bvp p mu w vn vp rho 0 F -> bvp q mu w vn' vp' rho' 0 G -> (forall i t, (i < streams q)%nat -> 0 <= t <= bottom q -> 0 <= F i t) ->
    forall i t, (i < streams q)%nat -> 0 <= t <= bottom q -> F i t <= G i t.
  Proof.
    intros Hdg Hph Hb [Pn' Pb' Pa'] [Pn Pb Pa] [A1 A2 A3 A4] [B1 B2 B3 B4] HF i t Hi Ht. rewrite (streams_eq q Vq) in *.
    enough (0 <= G i t - F i t) by lra.
    assert (HN : (half q <= 2 * half q)%nat) by lia.
    assert (Hw : forall j, (j < half q)%nat -> 0 <= nth j mu 0 * w j).
    { intros j Hj. destruct Hdg as (_ & H2 & _). destruct (H2 j Hj) as (P1 & _ & P3). apply Rmult_le_pos; lra. }
    refine (field_nonneg q Vq mu w Hdg (fun i t => G i t - F i t) (fun i j => 2 * (reflects q rho' (nth i mu 0) (nth j mu 0) * nth j mu 0 * w j)) Hph _ _ _ _ _ _ i t Hi Ht).
    - intros k Hk. apply (cont_on_ext _ _ (fun x => G k x + (-1) * F k x)); [intros; ring|]. apply cont_on_plus; [apply B2; auto|apply cont_on_scal].
      rewrite <- di_bottom. apply A2. rewrite di_streams, (streams_eq q Vq). exact Hk.
    - intros l k x Hl Hk Hx. assert (Hlp : (l < nlayers p)%nat) by (rewrite di_nlayers; exact Hl).
      destruct (cutoff_ex (albedo_s q l) (wphase_s q l) (ncoeffs q) 0) as (wg' & Hc'). destruct (cutoff_ex (albedo_s p l) (wphase_s p l) (ncoeffs p) 0) as (wg & Hc).
      exists wg', ((scl p l - scl q l) * F k x
         + rsum (2 * half q) (fun j => wnode (half q) w j * (scl q l * D_spec (albedo_s q l) wg' (ncoeffs q) 0 (nth k mu 0) (nth j mu 0) - scl p l * D_spec (albedo_s p l) wg (ncoeffs p) 0 (nth k mu 0) (nth j mu 0)) * F j x)
         + (scl q l * (X_spec (p_I0 q / (4 * PI)) (albedo_s q l) wg' (ncoeffs q) 0 (p_mu0 q) (nth k mu 0) * exp (- depth_s q l x / p_mu0 q))
            - scl p l * (X_spec (p_I0 p / (4 * PI)) (albedo_s p l) wg (ncoeffs p) 0 (p_mu0 p) (nth k mu 0) * exp (- depth_s p l x / p_mu0 p)))
         + ((1 - albedo q l) * source q l x - (1 - albedo p l) * source p l x)). split; [exact Hc'|].
      assert (Hxb : 0 <= x <= bottom q) by (apply (layer_at_range q Vq x l); split; [exact Hl|left; lra]).
      split.
      + apply Rplus_le_le_0_compat; [apply Rplus_le_le_0_compat; [apply Rplus_le_le_0_compat|]|].
        * apply Rmult_le_pos; [pose proof (di_scl l Hl); lra|]. apply HF; auto.
        * apply rsum_nonneg. intros j Hj. apply Rmult_le_pos; [|apply HF; auto]. apply Rmult_le_pos; [apply Rlt_le, (wnode_pos q mu w Hdg); exact Hj|].
          pose proof (di_kernel l wg wg' (nth k mu 0) (nth j mu 0) Hl Hc Hc' ltac:(apply Hph; auto; rewrite (streams_eq q Vq); auto)). lra.
        * pose proof (di_X l wg wg' (nth k mu 0) x Hl ltac:(lra) Hc Hc' ltac:(intros; apply Hb; auto; rewrite (streams_eq q Vq); auto)). lra.
        * pose proof (di_emission _ _ _ _ _ _ _ _ _ D l x Hl ltac:(lra)). lra.
      + pose proof (B1 l k wg' x Hl Hk Hx Hc') as DG.
        assert (DF : is_derive (F k) x (rte p mu w wg 0 l k x (fun j => F j x) / nth k mu 0)).
        { apply A1; [exact Hlp|rewrite di_streams, (streams_eq q Vq); exact Hk|rewrite di_top, di_bot; exact Hx|exact Hc]. }
        refine (der_eq _ _ _ _ _ (der_minus _ _ _ _ _ DG DF)). unfold rte. cbn [Nat.eqb]. rewrite di_streams, di_half, (streams_eq q Vq).
        set (Dq := D_spec (albedo_s q l) wg' (ncoeffs q) 0 (nth k mu 0)). set (Dp := D_spec (albedo_s p l) wg (ncoeffs p) 0 (nth k mu 0)).
        rewrite (rsum_ext _ (fun j => wnode (half q) w j * Dq (nth j mu 0) * (G j x - F j x))
          (fun j => wnode (half q) w j * Dq (nth j mu 0) * G j x - wnode (half q) w j * Dq (nth j mu 0) * F j x)) by (intros; ring).
        rewrite (rsum_ext _ (fun j => wnode (half q) w j * (scl q l * Dq (nth j mu 0) - scl p l * Dp (nth j mu 0)) * F j x)
          (fun j => scl q l * (wnode (half q) w j * Dq (nth j mu 0) * F j x) - scl p l * (wnode (half q) w j * Dp (nth j mu 0) * F j x))) by (intros; ring).
        rewrite !rsum_minus, !rsum_scal. unfold Rdiv. ring.
    - intros k Hk. rewrite (B3 k Hk). replace (half q) with (half p) in * by apply di_half. rewrite (A3 k Hk). cbn [Nat.eqb]. pose proof (di_n _ _ _ _ _ _ _ _ _ D k ltac:(rewrite <- di_half; exact Hk)). lra.
    - intros k Hk. rewrite (B4 k Hk). replace (F k (bottom q)) with (F k (bottom p)) by (rewrite di_bottom; reflexivity). rewrite (A4 k) by (rewrite di_half; exact Hk). cbn [Nat.eqb].
      pose proof (di_p _ _ _ _ _ _ _ _ _ D k Hk) as Hpk. pose proof (v_I0 p Vp) as HIp. pose proof (di_I0 _ _ _ _ _ _ _ _ _ D) as HI.
      assert (HFb : forall j, (j < half q)%nat -> 0 <= F (half q + j)%nat (bottom q)) by (intros j Hj; apply HF; [lia|lra]).
      set (S' := rsum (half q) (fun j => rho' (nth k mu 0) (nth j mu 0) * nth j mu 0 * w j * G (half q + j)%nat (bottom q))).
      set (e' := p_mu0 q * p_I0 q / PI * rho' (nth k mu 0) (p_mu0 q) * exp (- depth_s q (nlayers q - 1) (bottom q) / p_mu0 q)).
      set (Sp := rsum (half p) _). set (ep := p_mu0 p * p_I0 p / PI * rho (nth k mu 0) (p_mu0 p) * _).
      assert (EQ : (if Nat.ltb 0 (length (p_BDRF q)) then 2 * S' + e' else 0) =
        rsum (half q) (fun j => 2 * (reflects q rho' (nth k mu 0) (nth j mu 0) * nth j mu 0 * w j) * G (half q + j)%nat (bottom q))
        + p_mu0 q * p_I0 q / PI * reflects q rho' (nth k mu 0) (p_mu0 q) * exp (- depth_s q (nlayers q - 1) (bottom q) / p_mu0 q)).
      { unfold reflects, S', e'. destruct (Nat.ltb 0 (length (p_BDRF q))); [rewrite <- rsum_scal; f_equal; apply rsum_ext; intros; ring|]. rewrite rsum_0 by (intros; ring). ring. }
      assert (EP : (if Nat.ltb 0 (length (p_BDRF p)) then 2 * Sp + ep else 0) =
        rsum (half q) (fun j => 2 * (reflects p rho (nth k mu 0) (nth j mu 0) * nth j mu 0 * w j) * F (half q + j)%nat (bottom q))
        + p_mu0 q * p_I0 p / PI * reflects p rho (nth k mu 0) (p_mu0 q) * exp (- depth_s p (nlayers q - 1) (bottom q) / p_mu0 q)).
      { unfold reflects, Sp, ep. rewrite di_half, di_bottom, di_nlayers, (di_mu0 _ _ _ _ _ _ _ _ _ D). destruct (Nat.ltb 0 (length (p_BDRF p))); [rewrite <- rsum_scal; f_equal; apply rsum_ext; intros; ring|]. rewrite rsum_0 by (intros; ring). ring. }
      rewrite EQ, EP. clear EQ EP S' e' Sp ep.
      assert (H1 : rsum (half q) (fun j => 2 * (reflects p rho (nth k mu 0) (nth j mu 0) * nth j mu 0 * w j) * F (half q + j)%nat (bottom q)) <=
        rsum (half q) (fun j => 2 * (reflects q rho' (nth k mu 0) (nth j mu 0) * nth j mu 0 * w j) * F (half q + j)%nat (bottom q))).
      { apply rsum_le. intros j Hj. apply Rmult_le_compat_r; [apply HFb; exact Hj|]. apply Rmult_le_compat_l; [lra|]. rewrite !Rmult_assoc. apply Rmult_le_compat_r; [apply Hw; exact Hj|].
        apply (di_surface _ _ _ _ _ _ _ _ _ D); auto. }
      assert (H2 : p_mu0 q * p_I0 p / PI * reflects p rho (nth k mu 0) (p_mu0 q) * exp (- depth_s p (nlayers q - 1) (bottom q) / p_mu0 q) <=
        p_mu0 q * p_I0 q / PI * reflects q rho' (nth k mu 0) (p_mu0 q) * exp (- depth_s q (nlayers q - 1) (bottom q) / p_mu0 q)).
      { destruct (Rle_lt_or_eq_dec 0 (p_I0 q) ltac:(lra)) as [Hlt|E]; [|replace (p_I0 p) with 0 by lra; rewrite <- E; unfold Rdiv; lra].
        pose proof (v_mu0 q Vq Hlt) as Hm. pose proof (di_beam _ _ _ _ _ _ _ _ _ D Hlt k Hk) as Hr.
        assert (0 <= reflects q rho' (nth k mu 0) (p_mu0 q)) by (unfold reflects; destruct (Nat.ltb 0 (length (p_BDRF q))); [apply Pb; auto|lra]).
        pose proof (v_ne q Vq) as Hne. change (1 <= nlayers q)%nat in Hne. pose proof (v_inc q Vq (nlayers q - 1)%nat ltac:(unfold nlayers in *; lia)) as Hinc.
        assert (HE : exp (- depth_s p (nlayers q - 1) (bottom q) / p_mu0 q) <= exp (- depth_s q (nlayers q - 1) (bottom q) / p_mu0 q)).
        { apply di_exp; [lia| |lra]. rewrite (bottom_eq q). lra. }
        set (a := exp (- depth_s p (nlayers q - 1) (bottom q) / p_mu0 q)) in *. set (b := exp (- depth_s q (nlayers q - 1) (bottom q) / p_mu0 q)) in *. assert (0 < a) by apply exp_pos. pose proof PI_RGT_0. assert (0 < / PI) by (apply Rinv_0_lt_compat; lra).
        set (r := reflects p rho _ _) in *. set (r' := reflects q rho' _ _) in *. unfold Rdiv.
        apply Rle_trans with (p_mu0 q * p_I0 p * / PI * r' * a).
        - apply Rmult_le_compat_r; [lra|]. apply Rmult_le_compat_l; [|exact Hr]. apply Rmult_le_pos; [apply Rmult_le_pos; lra|lra].
        - apply Rmult_le_compat; [|lra| |exact HE].
          + apply Rmult_le_pos; [|lra]. apply Rmult_le_pos; [apply Rmult_le_pos; lra|lra].
          + apply Rmult_le_compat_r; [lra|]. apply Rmult_le_compat_r; [lra|]. apply Rmult_le_compat_l; lra. }
      rewrite (rsum_ext _ (fun j => 2 * (reflects q rho' (nth k mu 0) (nth j mu 0) * nth j mu 0 * w j) * (G (half q + j)%nat (bottom q) - F (half q + j)%nat (bottom q)))
        (fun j => 2 * (reflects q rho' (nth k mu 0) (nth j mu 0) * nth j mu 0 * w j) * G (half q + j)%nat (bottom q) - 2 * (reflects q rho' (nth k mu 0) (nth j mu 0) * nth j mu 0 * w j) * F (half q + j)%nat (bottom q))) by (intros; ring).
      rewrite rsum_minus. lra.
    - intros k j Hk Hj. cbv beta. pose proof (Hw j Hj) as W. apply Rmult_le_pos; [lra|]. rewrite Rmult_assoc. apply Rmult_le_pos; [|exact W]. unfold reflects. destruct (Nat.ltb 0 (length (p_BDRF q))); [apply Pn; auto|lra].
    - intros k Hk. specialize (Pa k Hk). unfold reflectance in Pa. rewrite rsum_scal. unfold reflects. destruct (Nat.ltb 0 (length (p_BDRF q))); [exact Pa|]. rewrite rsum_0 by (intros; ring). lra.
  Qed.
End Dim.
(** Problems with the same medium and the same beam: sources that differ little give little difference. *)
Theorem bvp_near e p q mu w vn vp vn' vp' rho F G : valid q -> double_gauss (half q) mu w -> same_medium p q -> phase_nonneg q mu -> passive_surface q mu w rho -> p_I0 p = p_I0 q -> 0 <= e ->
  (forall l t, (l < nlayers q)%nat -> top_of q l <= t <= bot_of q l -> source p l t - source q l t <= e) ->
  (forall i, (i < half q)%nat -> vn i - vn' i <= e) -> (forall i, (i < half q)%nat -> vp i - vp' i <= (1 - reflectance q mu w rho i) * e) ->
  bvp p mu w vn vp rho 0 F -> bvp q mu w vn' vp' rho 0 G ->
  forall i t, (i < streams q)%nat -> 0 <= t <= bottom q -> F i t - G i t <= e.
Proof.
  intros V Hdg S Hph Hsurf HI He Hs Hn Hp [A1 A2 A3 A4] [B1 B2 B3 B4] i t Hi Ht. rewrite (streams_eq q V) in *.
  enough (0 <= e - F i t + G i t) by lra. assert (HN : (half q <= 2 * half q)%nat) by lia.
  refine (field_nonneg q V mu w Hdg (fun i t => e - F i t + G i t)
    (fun i j => if Nat.ltb 0 (length (p_BDRF q)) then 2 * (rho (nth i mu 0) (nth j mu 0) * nth j mu 0 * w j) else 0) Hph _ _ _ _ _ _ i t Hi Ht).
  - intros k Hk. apply (cont_on_ext _ _ (fun x => (e + (-1) * F k x) + G k x)); [intros; ring|]. apply cont_on_plus; [|apply B2; exact Hk]. apply cont_on_plus.
    + intros x Hx eps He'. exists 1. split; [lra|]. intros. rewrite Rminus_eq_0, Rabs_R0. exact He'.
    + apply cont_on_scal. rewrite <- (sm_bottom p q S). apply A2. rewrite (sm_streams p q S), (streams_eq q V). exact Hk.
  - intros l k x Hl Hk Hx. destruct (cutoff_ex (albedo_s q l) (wphase_s q l) (ncoeffs q) 0) as (wg & Hc).
    set (nc := rsum (2 * half q) (fun j => wnode (half q) w j * D_spec (albedo_s q l) wg (ncoeffs q) 0 (nth k mu 0) (nth j mu 0))).
    exists wg, (scl q l * e * (1 - nc) - (1 - albedo q l) * (source p l x - source q l x)). split; [exact Hc|]. pose proof (scl_pos q V l Hl) as Hsc. split.
    + pose proof (D_row_le q V mu w Hdg l wg k Hl Hc) as Hnc. fold nc in Hnc. pose proof (Hs l x Hl ltac:(lra)). pose proof (albedo_range q V l Hl).
      assert (E : scl q l * (1 - albedo_s q l) = 1 - albedo q l) by (unfold albedo_s, scl in *; field; lra).
      set (ds := source p l x - source q l x) in *.
      assert (0 <= (1 - albedo q l) * (e - ds)) by (apply Rmult_le_pos; lra).
      assert (0 <= (scl q l * e) * (albedo_s q l - nc)) by (apply Rmult_le_pos; [apply Rmult_le_pos; lra|lra]).
      replace (scl q l * e * (1 - nc) - (1 - albedo q l) * ds) with (scl q l * (1 - albedo_s q l) * e - (1 - albedo q l) * ds + scl q l * e * (albedo_s q l - nc)) by ring.
      rewrite E. lra.
    + pose proof (B1 l k wg x Hl Hk Hx Hc) as DG.
      assert (DF : is_derive (F k) x (rte p mu w wg 0 l k x (fun j => F j x) / nth k mu 0)).
      { apply A1; [rewrite (sm_nlayers p q S); exact Hl|rewrite (sm_streams p q S), (streams_eq q V); exact Hk|rewrite (sm_top p q S), (sm_bot p q S); exact Hx|].
        rewrite (sm_albedo_s p q S), (sm_wphase p q S), (sm_ncoeffs p q S). exact Hc. }
      refine (der_eq _ _ _ _ _ (der_plus _ _ _ _ _ (der_minus _ _ _ _ _ (is_derive_const e x) DF) DG)). unfold rte. cbn [Nat.eqb]. change zero with 0.
      rewrite (sm_scl p q S), (sm_streams p q S), (sm_half p q S), (sm_albedo_s p q S), (sm_ncoeffs p q S), (sm_mu0 p q S), (sm_depth p q S), (sm_albedo p q S), HI, (streams_eq q V), !X_spec_0m.
      set (Dq := D_spec (albedo_s q l) wg (ncoeffs q) 0 (nth k mu 0)) in *.
      rewrite (rsum_ext _ (fun j => wnode (half q) w j * Dq (nth j mu 0) * (e - F j x + G j x))
        (fun j => (e * (wnode (half q) w j * Dq (nth j mu 0)) - wnode (half q) w j * Dq (nth j mu 0) * F j x) - (-1) * (wnode (half q) w j * Dq (nth j mu 0) * G j x))) by (intros; ring).
      rewrite !rsum_minus, !rsum_scal. fold nc. unfold Rdiv. ring.
  - intros k Hk. rewrite (B3 k Hk). replace (half q) with (half p) in * by apply (sm_half p q S). rewrite (A3 k Hk). cbn [Nat.eqb]. pose proof (Hn k Hk). lra.
  - intros k Hk. rewrite (B4 k Hk). replace (F k (bottom q)) with (F k (bottom p)) by (rewrite (sm_bottom p q S); reflexivity). rewrite (A4 k) by (rewrite (sm_half p q S); exact Hk). cbn [Nat.eqb].
    rewrite (sm_BDRF p q S), (sm_half p q S), (sm_mu0 p q S), (sm_depth p q S), (sm_nlayers p q S), (sm_bottom p q S), HI. pose proof (Hp k Hk) as Hpk. unfold reflectance in Hpk.
    destruct (Nat.ltb 0 (length (p_BDRF q))).
    + rewrite (rsum_ext _ (fun j => 2 * (rho (nth k mu 0) (nth j mu 0) * nth j mu 0 * w j) * (e - F (half q + j)%nat (bottom q) + G (half q + j)%nat (bottom q)))
        (fun j => (2 * e * (rho (nth k mu 0) (nth j mu 0) * nth j mu 0 * w j) - 2 * (rho (nth k mu 0) (nth j mu 0) * nth j mu 0 * w j * F (half q + j)%nat (bottom q))) - (- 2) * (rho (nth k mu 0) (nth j mu 0) * nth j mu 0 * w j * G (half q + j)%nat (bottom q)))) by (intros; ring).
      rewrite !rsum_minus, !rsum_scal. lra.
    + rewrite rsum_0 by (intros; ring). lra.
  - intros k j Hk Hj. cbv beta. destruct (Nat.ltb 0 (length (p_BDRF q))); [|apply Rle_refl]. destruct Hdg as (_ & H2 & _). destruct (H2 j Hj) as (P1 & _ & P3). pose proof (ps_nonneg _ _ _ _ Hsurf k j Hk Hj).
    apply Rmult_le_pos; [lra|]. apply Rmult_le_pos; [apply Rmult_le_pos; lra|lra].
  - intros k Hk. pose proof (ps_albedo _ _ _ _ Hsurf k Hk) as Pa. unfold reflectance in Pa. destruct (Nat.ltb 0 (length (p_BDRF q))); [rewrite rsum_scal; exact Pa|]. rewrite rsum_0 by reflexivity. lra.
Qed.

Section Calls.
  Variables (p q : py_in) (lg : leggauss_t) (la la' : linalg) (jk jk' : junk) (out out' : py_out).
  Hypothesis Hla : linalg_ok la.
  Hypothesis Hla' : linalg_ok la'.
  Hypothesis Hlg : leggauss_ok (half p) (lg (half p)).
  Hypothesis Hp : pydisort p lg la jk = Ok out.
  Hypothesis Hq : pydisort q lg la' jk' = Ok out'.
  Variables (w : nat -> R) (vn vp vn' vp' : nat -> R) (rho rho' : nat -> R -> R -> R).
  Hypothesis Hw : double_gauss (half p) (po_mu out) w.
  Hypothesis BD : boundary_data p vn vp rho.
  Hypothesis BD' : boundary_data q vn' vp' rho'.
  Hypothesis Hph : phase_nonneg q (po_mu out).
  Hypothesis Hsurf' : passive_surface q (po_mu out) w (rho' 0%nat).

  Section Dimmer.
    Hypothesis Hbeam : beam_phase_nonneg q (po_mu out).
    Hypothesis Hsurf : passive_surface p (po_mu out) w (rho 0%nat).
    Hypothesis SN : sources_nonneg p vn vp.
    Hypothesis DM : dimmer p q (po_mu out) vn vp vn' vp' (rho 0%nat) (rho' 0%nat).
    Let Eh : half p = half q := di_half _ _ _ _ _ _ _ _ _ DM.
    Let Es : streams p = streams q := di_streams _ _ _ _ _ _ _ _ _ DM.
    Let Eb : bottom p = bottom q := di_bottom _ _ _ _ _ _ _ _ _ DM.
    Let En : nlayers p = nlayers q := di_nlayers _ _ _ _ _ _ _ _ _ DM.

    Lemma dim_modes U U' : modes_of p out U -> modes_of q out' U' -> forall i t, (i < streams q)%nat -> 0 <= t <= bottom q -> U 0%nat i t <= U' 0%nat i t.
    Proof.
      intros HU HU'. pose proof (call_valid p lg la jk out Hp) as Vp. pose proof (call_valid q lg la' jk' out' Hq) as Vq.
      pose proof (same_mu p q lg la la' jk jk' out out' Hp Hq (di_NQuad _ _ _ _ _ _ _ _ _ DM)) as Em.
      assert (Hw' : double_gauss (half q) (po_mu out') w) by (rewrite <- Em, <- Eh; exact Hw).
      assert (Hlg' : leggauss_ok (half q) (lg (half q))) by (rewrite <- Eh; exact Hlg).
      pose proof (bd_bvp p lg la jk out Hla Hlg Hp w vn vp rho Hw BD U 0%nat HU (seen_0 p Vp)) as B.
      pose proof (bd_bvp q lg la' jk' out' Hla' Hlg' Hq w vn' vp' rho' Hw' BD' U' 0%nat HU' (seen_0 q Vq)) as B'.
      rewrite <- Em in B', Hw'.
      refine (bvp_dim p q (po_mu out) w vn vp vn' vp' (rho 0%nat) (rho' 0%nat) DM Vp Vq (U 0%nat) (U' 0%nat) Hw' Hph Hbeam Hsurf Hsurf' B B' _).
      rewrite <- Es, <- Eb. destruct SN as [S1 S2 S3].
      refine (modes_nonneg p lg la jk out Hla Hlg Hp w vn vp rho Hw BD _ Hsurf U _ S1 S2 S3 HU).
      - intros l i j Hl Hi Hj. rewrite (di_phase_mode _ _ _ _ _ _ _ _ _ DM). apply Hph; [rewrite <- En|rewrite <- Es|rewrite <- Es]; auto.
      - intros HI l i Hl Hi. rewrite (di_phase_mode _ _ _ _ _ _ _ _ _ DM), (di_mu0 _ _ _ _ _ _ _ _ _ DM). pose proof (di_I0 _ _ _ _ _ _ _ _ _ DM). apply Hbeam; [lra|rewrite <- En|rewrite <- Es]; auto.
    Qed.

    Theorem call_dim : forall tau, depths_ok p tau ->
      (exists A B, po_u0 out tau false false false = Ok (PVal (PT A)) /\ po_u0 out' tau false false false = Ok (PVal (PT B)) /\ tle A B) /\
      (exists A B, po_flux_up out tau false false = Ok (PVal (PT A)) /\ po_flux_up out' tau false false = Ok (PVal (PT B)) /\ tle A B) /\
      (exists A A0 B B0, po_flux_down out tau false false = Ok (PTup [PT A; PT A0]) /\ po_flux_down out' tau false false = Ok (PTup [PT B; PT B0]) /\ tle A B).
    Proof.
      intros tau Ht. pose proof (call_valid p lg la jk out Hp) as Vp. pose proof (call_valid q lg la' jk' out' Hq) as Vq.
      pose proof (same_mu p q lg la la' jk jk' out out' Hp Hq (di_NQuad _ _ _ _ _ _ _ _ _ DM)) as Em.
      assert (Hlg' : leggauss_ok (half q) (lg (half q))) by (rewrite <- Eh; exact Hlg).
      destruct (modes_exist p lg la jk out Hla Hlg Hp) as (U & HU). destruct (modes_exist q lg la' jk' out' Hla' Hlg' Hq) as (U' & HU').
      pose proof (dim_modes U U' HU HU') as HLE.
      assert (Ht' : depths_ok q tau) by (intros t Hin; rewrite <- Eb; apply Ht; exact Hin).
      assert (Hin : forall k, (k < length tau)%nat -> 0 <= nth k tau 0 <= bottom q) by (intros k Hk; apply Ht', nth_In; exact Hk).
      destruct (call_fluxes p lg la jk out Hla Hlg Hp U HU) as (w1 & D1 & R1 & R1'). destruct (call_fluxes q lg la' jk' out' Hla' Hlg' Hq U' HU') as (w2 & D2 & R2 & R2').
      pose proof (dg_weights _ _ _ _ D1 Hw) as E1. rewrite <- Em, <- Eh in D2. pose proof (dg_weights _ _ _ _ D2 Hw) as E2. rewrite <- Em, <- Eh in R2, R2'.
      assert (Hc : forall i, (i < half p)%nat -> 0 <= w i * nth i (po_mu out) 0).
      { intros i Hi. destruct Hw as (_ & H2 & _). destruct (H2 i Hi) as (P1 & _ & P2). apply Rmult_le_pos; lra. }
      pose proof PI_RGT_0. assert (Hst : streams q = (half p + half p)%nat) by (rewrite (streams_eq q Vq), Eh; lia).
      split; [|split].
      - destruct (proj1 HU tau Ht) as (A & EA & SA). destruct (proj1 HU' tau Ht') as (B & EB & SB). exists A, B. split; [exact EA|]. split; [exact EB|].
        rewrite <- Es in SB. refine (squeezed_le _ _ _ _ _ SA SB _). intros idx Hi. apply inb_2 in Hi as (a & b & -> & Ha & Hb). cbn [nth]. apply HLE; [rewrite <- Es; lia|apply Hin; lia].
      - destruct (R1 tau Ht) as (A & EA & SA). destruct (R2 tau Ht') as (B & EB & SB). exists A, B. split; [exact EA|]. split; [exact EB|].
        refine (squeezed_le _ _ _ _ _ SA SB _). intros idx Hi. apply inb_1 in Hi as (a & -> & Ha). cbn [nth]. apply Rmult_le_compat_l; [lra|]. apply rsum_le. intros i Hi'.
        rewrite E1, E2 by auto. apply Rmult_le_compat_l; [auto|]. apply HLE; [lia|apply Hin; lia].
      - destruct (R1' tau Ht) as (A & A0 & EA & SA & SA0). destruct (R2' tau Ht') as (B & B0 & EB & SB & SB0). exists A, A0, B, B0. split; [exact EA|]. split; [exact EB|].
        pose proof (di_I0 _ _ _ _ _ _ _ _ _ DM) as HI. pose proof (v_I0 p Vp) as HIp.
        + refine (squeezed_le _ _ _ _ _ SA SB _). intros idx Hi. apply inb_1 in Hi as (a & -> & Ha). cbn [nth]. set (t := nth a tau 0). pose proof (Hin a ltac:(lia)) as Hta. fold t in Hta.
          assert (HS : rsum (half p) (fun i => w1 i * nth i (po_mu out) 0 * U 0%nat (half p + i)%nat t) <= rsum (half p) (fun i => w2 i * nth i (po_mu out) 0 * U' 0%nat (half p + i)%nat t)).
          { apply rsum_le. intros i Hi'. rewrite E1, E2 by auto. apply Rmult_le_compat_l; [auto|]. apply HLE; [lia|exact Hta]. }
          assert (HD : p_I0 p * p_mu0 q * (exp (- sdepth p t / p_mu0 q) - exp (- t / p_mu0 q)) <= p_I0 q * p_mu0 q * (exp (- sdepth q t / p_mu0 q) - exp (- t / p_mu0 q))).
          { destruct (Rle_lt_or_eq_dec 0 (p_I0 q) ltac:(lra)) as [Hlt|E]; [|replace (p_I0 p) with 0 by lra; rewrite <- E; lra].
            pose proof (v_mu0 q Vq Hlt) as Hm. pose proof (sdepth_le p Vp t ltac:(rewrite Eb; exact Hta)) as Hsd.
            assert (L0 : exp (- t / p_mu0 q) <= exp (- sdepth p t / p_mu0 q)).
            { destruct (Req_dec (sdepth p t) t) as [->|]; [lra|]. left. apply exp_increasing. apply Rmult_lt_compat_r; [apply Rinv_0_lt_compat; lra|lra]. }
            assert (L1 : exp (- sdepth p t / p_mu0 q) <= exp (- sdepth q t / p_mu0 q)).
            { unfold sdepth. rewrite (di_lay _ _ _ _ _ _ _ _ _ DM). pose proof (lay_at q Vq t Hta) as (Hl & Hlt'). apply (di_exp _ _ _ _ _ _ _ _ _ DM Vq); [exact Hl| |lra].
              destruct Hlt' as [Hlt'|(El & E0)]; [lra|]. rewrite E0, El in *. cbn. lra. }
            apply Rmult_le_compat; [apply Rmult_le_pos; lra|lra| |lra]. apply Rmult_le_compat_r; lra. }
          unfold direct. rewrite (di_mu0 _ _ _ _ _ _ _ _ _ DM). nra.
    Qed.
  End Dimmer.

  Section Near.
    Variable e : R.
    Hypothesis SM : same_medium p q.
    Hypothesis ER : rho = rho'.
    Hypothesis SW : sources_within e p q (po_mu out) w vn vp vn' vp' (rho' 0%nat).

    Lemma near_modes U U' : modes_of p out U -> modes_of q out' U' -> forall i t, (i < streams q)%nat -> 0 <= t <= bottom q -> Rabs (U 0%nat i t - U' 0%nat i t) <= e.
    Proof.
      intros HU HU' i t Hi Ht. pose proof (call_valid p lg la jk out Hp) as Vp. pose proof (call_valid q lg la' jk' out' Hq) as Vq.
      pose proof (same_mu p q lg la la' jk jk' out out' Hp Hq (sm_NQuad _ _ SM)) as Em. pose proof (sm_half p q SM) as Eh.
      assert (Hw' : double_gauss (half q) (po_mu out') w) by (rewrite <- Em, <- Eh; exact Hw).
      assert (Hlg' : leggauss_ok (half q) (lg (half q))) by (rewrite <- Eh; exact Hlg).
      pose proof (bd_bvp p lg la jk out Hla Hlg Hp w vn vp rho Hw BD U 0%nat HU (seen_0 p Vp)) as B.
      pose proof (bd_bvp q lg la' jk' out' Hla' Hlg' Hq w vn' vp' rho' Hw' BD' U' 0%nat HU' (seen_0 q Vq)) as B'.
      rewrite <- Em in B', Hw'. rewrite ER in B. destruct SW as [k0 k1 k2 k3].
      assert (He : 0 <= e) by (eapply Rle_trans; [apply Rabs_pos|apply (k2 0%nat); apply half_pos; exact Vq]).
      assert (Hph' : phase_nonneg p (po_mu out)).
      { intros l a b Hl Ha Hb. rewrite (sm_phase_mode p q SM). apply Hph; [rewrite <- (sm_nlayers p q SM)|rewrite <- (sm_streams p q SM)|rewrite <- (sm_streams p q SM)]; auto. }
      assert (Hsurf : passive_surface p (po_mu out) w (rho' 0%nat)).
      { destruct Hsurf' as [c1 c2 c3]. constructor; rewrite ?Eh, ?(sm_mu0 p q SM), ?k0; auto. intros a Ha. rewrite (sm_reflectance p q SM). auto. }
      apply Rabs_le. split.
      - enough (U' 0%nat i t - U 0%nat i t <= e) by lra.
        refine (bvp_near e q p (po_mu out) w vn' vp' vn vp (rho' 0%nat) (U' 0%nat) (U 0%nat) Vp Hw (sm_sym _ _ SM) Hph' Hsurf (eq_sym k0) He _ _ _ B' B i t _ _).
        + intros l x Hl Hx. rewrite (sm_nlayers p q SM) in Hl. rewrite (sm_top p q SM), (sm_bot p q SM) in Hx. specialize (k1 l x Hl Hx). apply Rabs_le_between in k1. lra.
        + intros j Hj. rewrite Eh in Hj. specialize (k2 j Hj). apply Rabs_le_between in k2. lra.
        + intros j Hj. rewrite (sm_reflectance p q SM). rewrite Eh in Hj. specialize (k3 j Hj). apply Rabs_le_between in k3. lra.
        + rewrite (sm_streams p q SM). exact Hi.
        + rewrite (sm_bottom p q SM). exact Ht.
      - refine (bvp_near e p q (po_mu out) w vn vp vn' vp' (rho' 0%nat) (U 0%nat) (U' 0%nat) Vq Hw' SM Hph Hsurf' k0 He _ _ _ B B' i t Hi Ht).
        + intros l x Hl Hx. specialize (k1 l x Hl Hx). apply Rabs_le_between in k1. lra.
        + intros j Hj. specialize (k2 j Hj). apply Rabs_le_between in k2. lra.
        + intros j Hj. specialize (k3 j Hj). apply Rabs_le_between in k3. lra.
    Qed.
    Lemma squeezed_within A B s f g x : squeezed A s f -> squeezed B s g -> (forall idx, inb s idx -> Rabs (f idx - g idx) <= x) -> twithin x A B.
    Proof.
      intros [S1 E1] [S2 E2] H. split; [rewrite S1, S2; reflexivity|]. intros idx Hi. rewrite E1 by exact Hi. rewrite E2 by (rewrite S2; rewrite S1 in Hi; exact Hi).
      unfold tsqueeze. cbn [elt]. apply H. apply inb_unsq. rewrite S1 in Hi. exact Hi.
    Qed.

    Theorem call_near : forall tau, depths_ok p tau ->
      (exists A B, po_u0 out tau false false false = Ok (PVal (PT A)) /\ po_u0 out' tau false false false = Ok (PVal (PT B)) /\ twithin e A B) /\
      (exists A B, po_flux_up out tau false false = Ok (PVal (PT A)) /\ po_flux_up out' tau false false = Ok (PVal (PT B)) /\ twithin (PI * e) A B) /\
      (exists A A0 B B0, po_flux_down out tau false false = Ok (PTup [PT A; PT A0]) /\ po_flux_down out' tau false false = Ok (PTup [PT B; PT B0]) /\ twithin (PI * e) A B).
    Proof.
      intros tau Ht. pose proof (call_valid p lg la jk out Hp) as Vp. pose proof (call_valid q lg la' jk' out' Hq) as Vq.
      pose proof (same_mu p q lg la la' jk jk' out out' Hp Hq (sm_NQuad _ _ SM)) as Em. pose proof (sm_half p q SM) as Eh. pose proof (sm_streams p q SM) as Es.
      assert (Hlg' : leggauss_ok (half q) (lg (half q))) by (rewrite <- Eh; exact Hlg).
      destruct (modes_exist p lg la jk out Hla Hlg Hp) as (U & HU). destruct (modes_exist q lg la' jk' out' Hla' Hlg' Hq) as (U' & HU').
      pose proof (near_modes U U' HU HU') as HLE.
      assert (Ht' : depths_ok q tau) by (intros t Hin; rewrite <- (sm_bottom p q SM); apply Ht; exact Hin).
      assert (Hin : forall k, (k < length tau)%nat -> 0 <= nth k tau 0 <= bottom q) by (intros k Hk; apply Ht', nth_In; exact Hk).
      destruct (call_fluxes p lg la jk out Hla Hlg Hp U HU) as (w1 & D1 & R1 & R1'). destruct (call_fluxes q lg la' jk' out' Hla' Hlg' Hq U' HU') as (w2 & D2 & R2 & R2').
      pose proof (dg_weights _ _ _ _ D1 Hw) as E1. rewrite <- Em, <- Eh in D2. pose proof (dg_weights _ _ _ _ D2 Hw) as E2. rewrite <- Em, <- Eh in R2, R2'.
      assert (Hc : forall i, (i < half p)%nat -> 0 <= w i * nth i (po_mu out) 0).
      { intros i Hi. destruct Hw as (_ & H2 & _). destruct (H2 i Hi) as (P1 & _ & P2). apply Rmult_le_pos; lra. }
      pose proof PI_RGT_0. assert (Hst : streams q = (half p + half p)%nat) by (rewrite (streams_eq q Vq), Eh; lia).
      assert (HS : forall f g, (forall i, (i < half p)%nat -> Rabs (f i - g i) <= e) ->
        Rabs (2 * PI * rsum (half p) (fun i => w1 i * nth i (po_mu out) 0 * f i) - 2 * PI * rsum (half p) (fun i => w2 i * nth i (po_mu out) 0 * g i)) <= PI * e).
      { intros f g Hfg. rewrite <- Rmult_minus_distr_l, <- rsum_minus, Rabs_mult, (Rabs_pos_eq (2 * PI)) by lra.
        apply Rle_trans with (2 * PI * (1 / 2 * e)); [|right; field]. apply Rmult_le_compat_l; [lra|].
        rewrite <- (dg_first (half p) (po_mu out) w (half_pos p Vp) Hw), Rmult_comm, <- rsum_scal. eapply Rle_trans; [apply rsum_abs|]. apply rsum_le. intros i Hi.
        rewrite E1, E2 by auto. rewrite <- Rmult_minus_distr_l, Rabs_mult, (Rabs_pos_eq (w i * _)) by auto. rewrite (Rmult_comm e). apply Rmult_le_compat_l; auto. }
      split; [|split].
      - destruct (proj1 HU tau Ht) as (A & EA & SA). destruct (proj1 HU' tau Ht') as (B & EB & SB). exists A, B. split; [exact EA|]. split; [exact EB|].
        rewrite <- Es in SB. refine (squeezed_within _ _ _ _ _ _ SA SB _). intros idx Hi. apply inb_2 in Hi as (a & b & -> & Ha & Hb). cbn [nth]. apply HLE; [rewrite <- Es; lia|apply Hin; lia].
      - destruct (R1 tau Ht) as (A & EA & SA). destruct (R2 tau Ht') as (B & EB & SB). exists A, B. split; [exact EA|]. split; [exact EB|].
        refine (squeezed_within _ _ _ _ _ _ SA SB _). intros idx Hi. apply inb_1 in Hi as (a & -> & Ha). cbn [nth].
        apply (HS (fun i => U 0%nat i (nth a tau 0)) (fun i => U' 0%nat i (nth a tau 0))). intros i Hi'. apply HLE; [lia|apply Hin; lia].
      - destruct (R1' tau Ht) as (A & A0 & EA & SA & _). destruct (R2' tau Ht') as (B & B0 & EB & SB & _). exists A, A0, B, B0. split; [exact EA|]. split; [exact EB|].
        refine (squeezed_within _ _ _ _ _ _ SA SB _). intros idx Hi. apply inb_1 in Hi as (a & -> & Ha). cbn [nth]. unfold direct.
        rewrite (sm_sdepth p q SM), (sm_mu0 p q SM), (sw_I0 _ _ _ _ _ _ _ _ _ _ SW).
        match goal with |- Rabs (?x + ?c - ?d - (?y + ?c - ?d)) <= _ => replace (x + c - d - (y + c - d)) with (x - y) by ring end.
        apply (HS (fun i => U 0%nat (half p + i)%nat (nth a tau 0)) (fun i => U' 0%nat (half p + i)%nat (nth a tau 0))). intros i Hi'. apply HLE; [lia|apply Hin; lia].
    Qed.
  End Near.
End Calls.
