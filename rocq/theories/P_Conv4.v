(** Convergence of the reported radiation to the exact field as the number of streams grows. *)
From Coq Require Import Classical String Reals Lra Lia List Bool Arith ZArith.
From Coquelicot Require Import Coquelicot.
From Verif Require Import Base Tensor Spec M_LinAlg Spec_RTE Calc M_Subroutines M_GenPart M_MathscrV M_Coeffs M_Assemble M_Pydisort
  Spec_Sol Spec_Valid Spec_Calls Spec_Unique Spec_Phys Spec_Mono Spec_Depend Spec_Exact P_Special P_Addition P_Quad P_Sub P_Solve P_Energy P_Pydisort P_Pydisort2 P_Pydisort3 P_Pydisort4 P_Pydisort5 P_Pydisort6 P_Pydisort8 P_Teq P_NT3 P_Unique2 P_Refine P_Max P_Max2 P_Max3 P_Max4 P_Mono P_Sym P_Depend P_Depend2 P_Gauss P_Conv P_Conv2 P_Conv3.
Import ListNotations.
Local Open Scope R_scope.

(** Stability: a field that solves the discrete equations up to a small residual is near the solution. *)
Section Stable.
  Variables (q : py_in) (V : valid q) (mu : list R) (w vn vp : nat -> R) (rho : R -> R -> R) (e : R) (F G : nat -> R -> R).
  Hypothesis Hdg : double_gauss (half q) mu w.
  Hypothesis BG : bvp q mu w vn vp rho 0 G.
  Hypothesis Hph : phase_nonneg q mu.
  Hypothesis Hsurf : passive_surface q mu w rho.
  Hypothesis He : 0 <= e.
  Hypothesis Fc : forall i, (i < 2 * half q)%nat -> cont_on 0 (bottom q) (F i).
  Hypothesis Fd : forall l i t wg, (l < nlayers q)%nat -> (i < 2 * half q)%nat -> top_of q l < t < bot_of q l -> is_cutoff (albedo_s q l) (wphase_s q l) (ncoeffs q) 0 wg ->
    exists r, Rabs r <= (1 - albedo q l) * e /\ is_derive (F i) t ((rte q mu w wg 0 l i t (fun j => F j t) + r) / nth i mu 0).
  Hypothesis Ftop : forall i, (i < half q)%nat -> Rabs (F (half q + i)%nat 0 - vn i) <= e.
  Hypothesis Fbot : forall i, (i < half q)%nat -> Rabs (F i (bottom q) - (vp i +
    (if Nat.ltb 0 (length (p_BDRF q)) then
       2 * rsum (half q) (fun j => rho (nth i mu 0) (nth j mu 0) * nth j mu 0 * w j * F (half q + j)%nat (bottom q))
       + p_mu0 q * p_I0 q / PI * rho (nth i mu 0) (p_mu0 q) * exp (- depth_s q (nlayers q - 1) (bottom q) / p_mu0 q)
     else 0))) <= (1 - reflectance q mu w rho i) * e.

  Lemma stable1 s : s = 1 \/ s = -1 -> forall i t, (i < 2 * half q)%nat -> 0 <= t <= bottom q -> s * (F i t - G i t) <= e.
  Proof.
    intros Hs i t Hi Ht. destruct BG as [B1 B2 B3 B4]. rewrite (streams_eq q V) in B1, B2.
    assert (SA : forall x y, Rabs x <= y -> s * x <= y /\ - (s * x) <= y). { intros x y H. apply Rabs_le_between in H. destruct Hs as [-> | ->]; lra. }
    enough (0 <= e - s * F i t + s * G i t) by lra.
    refine (field_nonneg q V mu w Hdg (fun i t => e - s * F i t + s * G i t)
      (fun i j => if Nat.ltb 0 (length (p_BDRF q)) then 2 * (rho (nth i mu 0) (nth j mu 0) * nth j mu 0 * w j) else 0) Hph _ _ _ _ _ _ i t Hi Ht).
    - intros k Hk. apply (cont_on_ext _ _ (fun x => (e + (- s) * F k x) + s * G k x)); [intros; ring|]. apply cont_on_plus; [|apply cont_on_scal, B2; exact Hk]. apply cont_on_plus; [apply cont_on_const|apply cont_on_scal, Fc; exact Hk].
    - intros l k x Hl Hk Hx. destruct (cutoff_ex (albedo_s q l) (wphase_s q l) (ncoeffs q) 0) as (wg & Hc). destruct (Fd l k x wg Hl Hk Hx Hc) as (r & Hr & DF).
      set (nc := rsum (2 * half q) (fun j => wnode (half q) w j * D_spec (albedo_s q l) wg (ncoeffs q) 0 (nth k mu 0) (nth j mu 0))).
      exists wg, (scl q l * e * (1 - nc) + s * r). split; [exact Hc|]. pose proof (scl_pos q V l Hl) as Hsc. split.
      + pose proof (D_row_le q V mu w Hdg l wg k Hl Hc) as Hnc. fold nc in Hnc. pose proof (proj2 (SA _ _ Hr)) as Hd.
        assert (E : scl q l * (1 - albedo_s q l) = 1 - albedo q l) by (unfold albedo_s, scl in *; field; lra).
        assert (0 <= (scl q l * e) * (albedo_s q l - nc)) by (apply Rmult_le_pos; [apply Rmult_le_pos; lra|lra]).
        replace (scl q l * e * (1 - nc) + s * r) with (scl q l * (1 - albedo_s q l) * e + s * r + scl q l * e * (albedo_s q l - nc)) by ring. rewrite E. lra.
      + pose proof (B1 l k wg x Hl Hk Hx Hc) as DG.
        refine (der_eq _ _ _ _ _ (der_plus _ _ _ _ _ (der_minus _ _ _ _ _ (is_derive_const e x) (der_scal _ s _ _ DF)) (der_scal _ s _ _ DG))). change zero with 0.
        unfold rte. cbn [Nat.eqb]. rewrite (streams_eq q V). set (Dq := D_spec (albedo_s q l) wg (ncoeffs q) 0 (nth k mu 0)) in *.
        rewrite (rsum_ext _ (fun j => wnode (half q) w j * Dq (nth j mu 0) * (e - s * F j x + s * G j x))
          (fun j => (e * (wnode (half q) w j * Dq (nth j mu 0)) - s * (wnode (half q) w j * Dq (nth j mu 0) * F j x)) - (- s) * (wnode (half q) w j * Dq (nth j mu 0) * G j x))) by (intros; ring).
        rewrite !rsum_minus, !rsum_scal. fold nc. unfold Rdiv. ring.
    - intros k Hk. rewrite (B3 k Hk). cbn [Nat.eqb]. pose proof (SA _ _ (Ftop k Hk)). lra.
    - intros k Hk. rewrite (B4 k Hk). cbn [Nat.eqb]. pose proof (proj1 (SA _ _ (Fbot k Hk))) as Hpk. unfold reflectance in Hpk.
      destruct (Nat.ltb 0 (length (p_BDRF q))).
      + rewrite (rsum_ext _ (fun j => 2 * (rho (nth k mu 0) (nth j mu 0) * nth j mu 0 * w j) * (e - s * F (half q + j)%nat (bottom q) + s * G (half q + j)%nat (bottom q)))
          (fun j => (2 * e * (rho (nth k mu 0) (nth j mu 0) * nth j mu 0 * w j) - 2 * s * (rho (nth k mu 0) (nth j mu 0) * nth j mu 0 * w j * F (half q + j)%nat (bottom q))) - (- 2) * s * (rho (nth k mu 0) (nth j mu 0) * nth j mu 0 * w j * G (half q + j)%nat (bottom q)))) by (intros; ring).
        rewrite !rsum_minus, !rsum_scal.
        set (SF := rsum (half q) (fun j => rho (nth k mu 0) (nth j mu 0) * nth j mu 0 * w j * F (half q + j)%nat (bottom q))) in *. set (SG := rsum (half q) (fun j => rho (nth k mu 0) (nth j mu 0) * nth j mu 0 * w j * G (half q + j)%nat (bottom q))) in *.
        set (S1 := rsum (half q) (fun i0 => rho (nth k mu 0) (nth i0 mu 0) * nth i0 mu 0 * w i0)) in *. lra.
      + rewrite rsum_0 by (intros; ring). lra.
    - intros k j Hk Hj. cbv beta. destruct (Nat.ltb 0 (length (p_BDRF q))); [|apply Rle_refl]. destruct Hdg as (_ & H2 & _). destruct (H2 j Hj) as (P1 & _ & P3). pose proof (ps_nonneg _ _ _ _ Hsurf k j Hk Hj) as P4.
      apply Rmult_le_pos; [lra|]. apply Rmult_le_pos; [apply Rmult_le_pos; lra|lra].
    - intros k Hk. pose proof (ps_albedo _ _ _ _ Hsurf k Hk) as Pa. unfold reflectance in Pa. destruct (Nat.ltb 0 (length (p_BDRF q))); [rewrite rsum_scal; exact Pa|]. rewrite rsum_0 by reflexivity. lra.
  Qed.
  Theorem stable i t : (i < 2 * half q)%nat -> 0 <= t <= bottom q -> Rabs (F i t - G i t) <= e.
  Proof. intros Hi Ht. pose proof (stable1 1 (or_introl eq_refl) i t Hi Ht). pose proof (stable1 (-1) (or_intror eq_refl) i t Hi Ht). apply Rabs_le. lra. Qed.
End Stable.

(** The exact field of the same problem with another number of streams is the same. *)
Section Same.
  Variables (p q : py_in) (SP : same_problem p q).
  Lemma sp_nlayers : nlayers p = nlayers q. Proof. unfold nlayers. rewrite (pr_tau _ _ SP). reflexivity. Qed.
  Lemma sp_top l : top_of p l = top_of q l. Proof. unfold top_of. rewrite (pr_tau _ _ SP). reflexivity. Qed.
  Lemma sp_bot l : bot_of p l = bot_of q l. Proof. unfold bot_of. rewrite (pr_tau _ _ SP). reflexivity. Qed.
  Lemma sp_bottom : bottom p = bottom q. Proof. unfold bottom. rewrite (pr_tau _ _ SP). reflexivity. Qed.
  Lemma sp_lay t : lay p t = lay q t. Proof. unfold lay. rewrite (pr_tau _ _ SP). reflexivity. Qed.
  Lemma sp_albedo l : albedo p l = albedo q l. Proof. unfold albedo. rewrite (pr_omega _ _ SP). reflexivity. Qed.
  Lemma sp_fwd l : fwd p l = fwd q l. Proof. unfold fwd. rewrite (pr_f _ _ SP). reflexivity. Qed.
  Lemma sp_phase l k : phase p l k = phase q l k. Proof. unfold phase. rewrite (pr_Leg _ _ SP). reflexivity. Qed.
  Lemma sp_source l t : source p l t = source q l t. Proof. unfold source. rewrite (pr_s _ _ SP). reflexivity. Qed.
  Lemma sp_scl l : scl p l = scl q l. Proof. unfold scl. rewrite sp_albedo, sp_fwd. reflexivity. Qed.
  Lemma sp_albedo_s l : albedo_s p l = albedo_s q l. Proof. unfold albedo_s. rewrite sp_albedo, sp_fwd, sp_scl. reflexivity. Qed.
  Lemma sp_depth l t : depth_s p l t = depth_s q l t.
  Proof. unfold depth_s. rewrite sp_scl, sp_top. f_equal. apply rsum_ext. intros r _. rewrite sp_scl, sp_bot, sp_top. reflexivity. Qed.
  Lemma sp_sdepth t : sdepth p t = sdepth q t. Proof. unfold sdepth. rewrite sp_lay. apply sp_depth. Qed.
  Lemma sp_scatters l x y : scatters p l x y = scatters q l x y.
  Proof. unfold scatters. rewrite (pr_ncoeffs _ _ SP). f_equal. apply rsum_ext. intros k _. unfold scattering. rewrite sp_albedo, sp_phase, sp_fwd. reflexivity. Qed.
  Lemma sp_phase_mode l x y : phase_mode p 0 l x y = phase_mode q 0 l x y.
  Proof. unfold phase_mode. rewrite (pr_ncoeffs _ _ SP). apply rsum_ext. intros k _. unfold wphase_s, phase_s. rewrite sp_phase, sp_fwd. reflexivity. Qed.
  Lemma sp_kept : scattering_kept p -> scattering_kept q.
  Proof. intros H l Hl. rewrite <- sp_nlayers in Hl. specialize (H l Hl). rewrite sp_fwd, sp_albedo, sp_albedo_s in H. exact H. Qed.
  Lemma sp_direct t : direct p t = direct q t. Proof. unfold direct. rewrite (pr_mu0 _ _ SP), (pr_I0 _ _ SP). reflexivity. Qed.
End Same.

Section Converge.
  Variables (p : py_in) (V : valid p) (bn bp : R -> R) (rho : nat -> R -> R -> R) (J : R -> R -> R) (r : R).
  Hypothesis EF : exact_field p bn bp (rho 0%nat) J.
  Hypothesis Cn : ucont1 bn.
  Hypothesis Cp : ucont1 bp.
  Hypothesis Cr : ucont2 (rho 0%nat).
  Hypothesis Kp : scattering_kept p.
  Hypothesis Hph : forall l x y, (l < nlayers p)%nat -> -1 <= x <= 1 -> -1 <= y <= 1 -> 0 <= phase_mode p 0 l x y.
  Hypothesis Hrho : forall x y, 0 <= x <= 1 -> 0 <= y <= 1 -> 0 <= rho 0%nat x y.
  Hypothesis Hr : r < 1.
  Hypothesis Hr' : forall x, 0 < x <= 1 -> 2 * RInt (fun y => rho 0%nat x y * y) 0 1 <= r.

  Lemma near_modes e eps : 0 < e -> 0 < eps -> (forall l, (l < nlayers p)%nat -> 2 * eps <= (1 - albedo p l) * e) -> 2 * eps <= (1 - r - 2 * eps) * e -> 2 * eps <= 1 - r -> 2 * eps <= e ->
    forall q lg la jk out, same_problem p q -> linalg_ok la -> leggauss_ok (half q) (lg (half q)) -> pydisort q lg la jk = Ok out ->
    forall w, double_gauss (half q) (po_mu out) w ->
    (forall g, famJ p (rho 0%nat) J g -> Rabs (rsum (half q) (fun i => w i * g (nth i (po_mu out) 0)) - RInt g 0 1) <= eps) ->
    (forall g, wt p (rho 0%nat) g -> Rabs (rsum (half q) (fun i => w i * g (nth i (po_mu out) 0)) - RInt g 0 1) <= eps) ->
    boundary_data q (fun i => bn (nth i (po_mu out) 0)) (fun i => bp (nth i (po_mu out) 0)) rho ->
    forall U, modes_of q out U -> forall i t, (i < 2 * half q)%nat -> 0 <= t <= bottom q -> Rabs (J (nth i (po_mu out) 0) t - U 0%nat i t) <= e.
  Proof.
    intros He Hep Ha Hb Hb' Hb2 q lg la jk out SP Hla Hlg Hok w Hw QJ QW BD U HU i t Hi Ht. pose proof (call_valid q lg la jk out Hok) as Vq. set (mu := po_mu out) in *.
    pose proof (bd_bvp q lg la jk out Hla Hlg Hok w _ _ rho Hw BD U 0%nat HU (seen_0 q Vq)) as BU. pose proof (sp_bottom p q SP) as Eb. pose proof (sp_nlayers p q SP) as En.
    assert (Hmu : forall k, (k < half q)%nat -> 0 < nth k mu 0 < 1 /\ nth (half q + k) mu 0 = - nth k mu 0 /\ 0 < w k) by (destruct Hw as (_ & H2 & _); exact H2).
    assert (Hdir : forall k, (k < 2 * half q)%nat -> direction (nth k mu 0)).
    { intros k Hk. destruct (Nat.lt_ge_cases k (half q)) as [H|H]; [destruct (Hmu k H); split; lra|]. destruct (Hmu (k - half q)%nat ltac:(lia)) as (P1 & P2 & _). replace (half q + (k - half q))%nat with k in P2 by lia. split; lra. }
    assert (HT : 0 <= bottom p <= bottom p) by (pose proof (bottom_pos p V); lra).
    assert (Hrf : forall k, (k < half q)%nat -> reflectance q mu w (rho 0%nat) k <= r + 2 * eps).
    { intros k Hk. unfold reflectance. destruct (Nat.ltb 0 (length (p_BDRF q))).
      - destruct (Hmu k Hk) as (P1 & _). pose proof (QW (fun y => rho 0%nat (nth k mu 0) y * y)) as H. assert (Hwt : wt p (rho 0%nat) (fun y => rho 0%nat (nth k mu 0) y * y)) by (right; left; exists (nth k mu 0); split; [lra|reflexivity]).
        specialize (H Hwt). cbv beta in H. pose proof (Hr' (nth k mu 0) ltac:(lra)) as H1. apply Rabs_le_between in H. rewrite (rsum_ext _ _ (fun i => w i * (rho 0%nat (nth k mu 0) (nth i mu 0) * nth i mu 0))) by (intros; ring). lra.
      - assert (0 <= 2 * RInt (fun y => rho 0%nat 1 y * y) 0 1); [|pose proof (Hr' 1 ltac:(lra)); lra]. apply Rmult_le_pos; [lra|]. apply RInt_ge_0; [lra|apply cont_int, (rho_cont (rho 0%nat) Cr); lra|]. intros y Hy. apply Rmult_le_pos; [apply Hrho; lra|lra]. }
    refine (stable q Vq mu w _ _ (rho 0%nat) e (fun k t => J (nth k mu 0) t) (U 0%nat) Hw BU _ _ ltac:(lra) _ _ _ _ i t Hi Ht).
    - intros l a b Hl Ha' Hb''. rewrite (streams_eq q Vq) in Ha', Hb''. rewrite <- (sp_phase_mode p q SP). apply Hph; [rewrite En; exact Hl|apply Hdir; auto|apply Hdir; auto].
    - constructor.
      + intros a b Ha' Hb''. destruct (Hmu a Ha'). destruct (Hmu b Hb''). apply Hrho; lra.
      + intros HI a Ha'. destruct (Hmu a Ha'). pose proof (v_mu0 q Vq HI). apply Hrho; lra.
      + intros a Ha'. pose proof (Hrf a Ha'). lra.
    - intros k Hk. rewrite <- Eb. apply (ef_continuous _ _ _ _ _ EF), Hdir, Hk.
    - intros l k x wg Hl Hk Hx Hc. assert (Hlp : (l < nlayers p)%nat) by (rewrite En; exact Hl). pose proof (Hdir k Hk) as Dk. rewrite <- (sp_top p q SP), <- (sp_bot p q SP) in Hx.
      pose proof (ef_transfer _ _ _ _ _ EF l (nth k mu 0) x Hlp Dk Hx) as D. pose proof (in_bottom p V l x Hlp ltac:(lra)) as Hxb.
      set (I1 := RInt (fun y => scatters p l (nth k mu 0) y * J y x) 0 1) in *. set (I2 := RInt (fun y => scatters p l (nth k mu 0) (- y) * J (- y) x) 0 1) in *.
      exists (rsum (streams q) (fun j => wnode (half q) w j * skernel q l (nth k mu 0) (nth j mu 0) * J (nth j mu 0) x) - (I1 + I2)). split.
      + rewrite (streams_eq q Vq). replace (2 * half q)%nat with (half q + half q)%nat by lia. rewrite rsum_split.
        assert (Q1 : Rabs (rsum (half q) (fun j => wnode (half q) w j * skernel q l (nth k mu 0) (nth j mu 0) * J (nth j mu 0) x) - I1) <= eps).
        { replace I1 with (RInt (fun y => scatters p l (nth k mu 0) (1 * y) * J (1 * y) x) 0 1) by (apply RInt_ext; intros; rewrite Rmult_1_l; reflexivity).
          rewrite (rsum_ext _ _ (fun j => w j * (fun y => scatters p l (nth k mu 0) (1 * y) * J (1 * y) x) (nth j mu 0))).
          2: { intros j Hj. unfold wnode. destruct (Nat.ltb_spec j (half q)); [|lia]. cbv beta. rewrite Rmult_1_l, (sp_scatters p q SP). change skernel with scatters. ring. }
          apply (QJ (fun y => scatters p l (nth k mu 0) (1 * y) * J (1 * y) x)). exists (fun y => scatters p l (nth k mu 0) (1 * y)), 1, x. split; [left; exists l, (nth k mu 0), 1; split; [exact Hlp|split; [apply Dk|split; [left; reflexivity|reflexivity]]]|]. split; [left; reflexivity|]. split; [exact Hxb|reflexivity]. }
        assert (Q2 : Rabs (rsum (half q) (fun j => wnode (half q) w (half q + j)%nat * skernel q l (nth k mu 0) (nth (half q + j) mu 0) * J (nth (half q + j) mu 0) x) - I2) <= eps).
        { replace I2 with (RInt (fun y => scatters p l (nth k mu 0) (-1 * y) * J (-1 * y) x) 0 1) by (apply RInt_ext; intros y _; replace (-1 * y) with (- y) by ring; reflexivity).
          rewrite (rsum_ext _ _ (fun j => w j * (fun y => scatters p l (nth k mu 0) (-1 * y) * J (-1 * y) x) (nth j mu 0))).
          2: { intros j Hj. unfold wnode. destruct (Nat.ltb_spec (half q + j)%nat (half q)); [lia|]. replace (half q + j - half q)%nat with j by lia. cbv beta. destruct (Hmu j Hj) as (_ & -> & _). replace (-1 * nth j mu 0) with (- nth j mu 0) by ring. rewrite (sp_scatters p q SP). change skernel with scatters. ring. }
          apply (QJ (fun y => scatters p l (nth k mu 0) (-1 * y) * J (-1 * y) x)). exists (fun y => scatters p l (nth k mu 0) (-1 * y)), (-1), x. split; [left; exists l, (nth k mu 0), (-1); split; [exact Hlp|split; [apply Dk|split; [right; reflexivity|reflexivity]]]|]. split; [right; reflexivity|]. split; [exact Hxb|reflexivity]. }
        rewrite <- (sp_albedo p q SP). eapply Rle_trans; [|apply (Ha l Hlp)]. apply Rabs_le_between in Q1. apply Rabs_le_between in Q2. apply Rabs_le. lra.
      + refine (der_eq _ _ _ _ _ D). rewrite (rte_kernel mu w q wg l k x _ Vq (sp_kept p q SP Kp) Hl Hc). rewrite (sp_scl p q SP), (sp_scatters p q SP), (sp_depth p q SP), (sp_albedo p q SP), (sp_source p q SP), (pr_I0 _ _ SP), (pr_mu0 _ _ SP). change skernel with scatters. unfold Rdiv. ring.
    - intros k Hk. destruct (Hmu k Hk) as (P1 & P2 & _). rewrite P2, (ef_top _ _ _ _ _ EF) by lra. rewrite Rminus_eq_0, Rabs_R0. lra.
    - intros k Hk. destruct (Hmu k Hk) as (P1 & _). rewrite <- Eb, (ef_bottom _ _ _ _ _ EF) by lra. rewrite (pr_BDRF _ _ SP), (pr_mu0 _ _ SP), (pr_I0 _ _ SP), En, (sp_depth p q SP). pose proof (Hrf k Hk) as Hk'.
      apply Rle_trans with (2 * eps); [|assert ((1 - r - 2 * eps) * e <= (1 - reflectance q mu w (rho 0%nat) k) * e) by (apply Rmult_le_compat_r; lra); lra].
      destruct (Nat.ltb 0 (length (p_BDRF q))); [|rewrite Rminus_eq_0, Rabs_R0; lra].
      rewrite (rsum_ext _ _ (fun j => w j * (fun y => rho 0%nat (nth k mu 0) y * y * J (-1 * y) (bottom p)) (nth j mu 0))).
      2: { intros j Hj. destruct (Hmu j Hj) as (_ & -> & _). replace (-1 * nth j mu 0) with (- nth j mu 0) by ring. ring. }
      replace (RInt (fun y => rho 0%nat (nth k mu 0) y * y * J (- y) (bottom p)) 0 1) with (RInt (fun y => rho 0%nat (nth k mu 0) y * y * J (-1 * y) (bottom p)) 0 1) by (apply RInt_ext; intros y _; replace (-1 * y) with (- y) by ring; reflexivity).
      assert (H : Rabs (rsum (half q) (fun j => w j * (fun y => rho 0%nat (nth k mu 0) y * y * J (-1 * y) (bottom p)) (nth j mu 0)) - RInt (fun y => rho 0%nat (nth k mu 0) y * y * J (-1 * y) (bottom p)) 0 1) <= eps).
      { apply (QJ (fun y => rho 0%nat (nth k mu 0) y * y * J (-1 * y) (bottom p))). exists (fun y => rho 0%nat (nth k mu 0) y * y), (-1), (bottom p). split; [right; left; exists (nth k mu 0); split; [lra|reflexivity]|]. split; [right; reflexivity|]. split; [exact HT|reflexivity]. }
      apply Rabs_le_between in H. apply Rabs_le. lra.
  Qed.

  Theorem converges eps : 0 < eps -> exists N0, forall q lg la jk out, same_problem p q -> (N0 <= half q)%nat ->
    linalg_ok la -> leggauss_ok (half q) (lg (half q)) -> pydisort q lg la jk = Ok out ->
    boundary_data q (fun i => bn (nth i (po_mu out) 0)) (fun i => bp (nth i (po_mu out) 0)) rho -> forall tau, depths_ok p tau ->
    (exists A, po_u0 out tau false false false = Ok (PVal (PT A)) /\ twithin eps A (tsqueeze (mkT [streams q; length tau] (fun idx => J (nth (nth 0 idx 0%nat) (po_mu out) 0) (nth (nth 1 idx 0%nat) tau 0))))) /\
    (exists A, po_flux_up out tau false false = Ok (PVal (PT A)) /\ twithin eps A (tsqueeze (mkT [length tau] (fun idx => 2 * PI * RInt (fun y => y * J y (nth (nth 0 idx 0%nat) tau 0)) 0 1)))) /\
    (exists A B, po_flux_down out tau false false = Ok (PTup [PT A; PT B]) /\ twithin eps A (tsqueeze (mkT [length tau] (fun idx => let t := nth (nth 0 idx 0%nat) tau 0 in
       2 * PI * RInt (fun y => y * J (- y) t) 0 1 + p_mu0 p * p_I0 p * exp (- sdepth p t / p_mu0 p) - direct p t)))).
  Proof.
    intros Heps. pose proof PI_RGT_0 as HPI. set (e := Rmin eps (eps / (2 * PI))). assert (He : 0 < e) by (apply Rmin_pos; [lra|apply Rdiv_lt_0_compat; lra]). assert (He1 : e <= eps) by apply Rmin_l.
    assert (He2 : PI * e <= eps / 2). { apply Rle_trans with (PI * (eps / (2 * PI))); [apply Rmult_le_compat_l; [lra|apply Rmin_r]|right; field; lra]. }
    destruct (pos_lower (nlayers p) (fun l => 1 - albedo p l)) as (a & Ha & Hal). { intros l Hl. pose proof (albedo_range p V l Hl). lra. }
    set (ep := Rmin (Rmin (a * e / 2) (eps / (4 * PI))) (Rmin (Rmin ((1 - r) / 4) (e / 2)) ((1 - r) * e / 4))).
    assert (Hep : 0 < ep). { assert (0 < a * e) by (apply Rmult_lt_0_compat; lra). assert (0 < (1 - r) * e) by (apply Rmult_lt_0_compat; lra). repeat apply Rmin_pos; try lra. apply Rdiv_lt_0_compat; lra. }
    assert (E : ep <= a * e / 2 /\ ep <= eps / (4 * PI) /\ ep <= (1 - r) / 4 /\ ep <= e / 2 /\ ep <= (1 - r) * e / 4).
    { repeat split; unfold ep; repeat first [apply Rle_refl | (eapply Rle_trans; [apply Rmin_l|apply Rmin_l]) | (eapply Rle_trans; [apply Rmin_l|apply Rmin_r]) | (eapply Rle_trans; [apply Rmin_r|apply Rmin_r]) | (eapply Rle_trans; [apply Rmin_r|]; eapply Rle_trans; [apply Rmin_l|apply Rmin_l]) | (eapply Rle_trans; [apply Rmin_r|]; eapply Rle_trans; [apply Rmin_l|apply Rmin_r])]. }
    clearbody ep. destruct E as (E1 & E2 & E3 & E4 & E5). assert (E6 : 2 * PI * ep <= eps / 2). { apply Rle_trans with (2 * PI * (eps / (4 * PI))); [apply Rmult_le_compat_l; lra|right; field; lra]. }
    destruct (quad_exact p V bn bp (rho 0%nat) J EF Cn Cp Cr ep Hep) as (N0 & HN0). exists N0. intros q lg la jk out SP HNq Hla Hlg Hok BD tau Ht. pose proof (call_valid q lg la jk out Hok) as Vq.
    destruct (modes_exist q lg la jk out Hla Hlg Hok) as (U & HU). destruct (call_fluxes q lg la jk out Hla Hlg Hok U HU) as (w & Hw & R1 & R2). destruct (HN0 (half q) (po_mu out) w HNq Hw) as [QJ QW].
    assert (HLE : forall i t, (i < 2 * half q)%nat -> 0 <= t <= bottom q -> Rabs (J (nth i (po_mu out) 0) t - U 0%nat i t) <= e).
    { refine (near_modes e ep He Hep _ _ _ _ q lg la jk out SP Hla Hlg Hok w Hw QJ QW BD U HU); try lra.
      - intros l Hl. pose proof (Hal l Hl) as Hl'. cbv beta in Hl'. assert (a * e <= (1 - albedo p l) * e) by (apply Rmult_le_compat_r; lra). lra.
      - assert (2 * ep * e <= (1 - r) / 2 * e) by (apply Rmult_le_compat_r; lra). lra. }
    assert (Ht' : depths_ok q tau) by (intros t Hin; rewrite <- (sp_bottom p q SP); apply Ht; exact Hin).
    assert (Hin : forall k, (k < length tau)%nat -> 0 <= nth k tau 0 <= bottom q) by (intros k Hk; apply Ht', nth_In; exact Hk).
    assert (Hmu : forall k, (k < half q)%nat -> 0 < nth k (po_mu out) 0 < 1 /\ nth (half q + k) (po_mu out) 0 = - nth k (po_mu out) 0 /\ 0 < w k) by (destruct Hw as (_ & H2 & _); exact H2).
    assert (HS : forall (s : R) f t, s = 1 \/ s = -1 -> 0 <= t <= bottom p -> (forall i, (i < half q)%nat -> Rabs (J (s * nth i (po_mu out) 0) t - f i) <= e) ->
      Rabs (2 * PI * rsum (half q) (fun i => w i * nth i (po_mu out) 0 * f i) - 2 * PI * RInt (fun y => y * J (s * y) t) 0 1) <= eps).
    { intros s f t Hs Ht0 Hf. assert (H1 : Rabs (rsum (half q) (fun i => w i * (fun y => y * J (s * y) t) (nth i (po_mu out) 0)) - RInt (fun y => y * J (s * y) t) 0 1) <= ep).
      { apply (QJ (fun y => y * J (s * y) t)). exists (fun y => y), s, t. split; [right; right; reflexivity|]. split; [exact Hs|]. split; [exact Ht0|reflexivity]. }
      assert (H2 : Rabs (rsum (half q) (fun i => w i * nth i (po_mu out) 0 * f i) - rsum (half q) (fun i => w i * (fun y => y * J (s * y) t) (nth i (po_mu out) 0))) <= 1 / 2 * e).
      { rewrite <- (dg_first (half q) (po_mu out) w (half_pos q Vq) Hw), Rmult_comm, <- rsum_scal, <- rsum_minus. eapply Rle_trans; [apply rsum_abs|]. apply rsum_le. intros i Hi. destruct (Hmu i Hi) as (P1 & _ & P3).
        replace (w i * nth i (po_mu out) 0 * f i - w i * (nth i (po_mu out) 0 * J (s * nth i (po_mu out) 0) t)) with (- (w i * nth i (po_mu out) 0) * (J (s * nth i (po_mu out) 0) t - f i)) by ring.
        rewrite Rabs_mult, Rabs_Ropp, (Rabs_pos_eq (_ * _)) by (apply Rmult_le_pos; lra). rewrite (Rmult_comm e). apply Rmult_le_compat_l; [apply Rmult_le_pos; lra|auto]. }
      rewrite <- Rmult_minus_distr_l, Rabs_mult, (Rabs_pos_eq (2 * PI)) by lra.
      apply Rle_trans with (2 * PI * (1 / 2 * e + ep)); [|lra]. apply Rmult_le_compat_l; [lra|]. cbv beta in H1, H2. apply Rabs_le_between in H1. apply Rabs_le_between in H2. apply Rabs_le. lra. }
    assert (SQ : forall s f, squeezed (tsqueeze (mkT s f)) s f) by (intros s f; split; [reflexivity|intros; reflexivity]).
    split; [|split].
    - destruct (proj1 HU tau Ht') as (A & EA & SA). exists A. split; [exact EA|]. refine (squeezed_within _ _ _ _ _ _ SA (SQ _ _) _). intros idx Hi. rewrite (streams_eq q Vq) in Hi. apply inb_2 in Hi as (i & b & -> & Hi & Hb). cbn [nth].
      rewrite Rabs_minus_sym. eapply Rle_trans; [apply HLE; [exact Hi|apply Hin; exact Hb]|exact He1].
    - destruct (R1 tau Ht') as (A & EA & SA). exists A. split; [exact EA|]. refine (squeezed_within _ _ _ _ _ _ SA (SQ _ _) _). intros idx Hi. apply inb_1 in Hi as (b & -> & Hb). cbn [nth].
      set (t := nth b tau 0). rewrite (RInt_ext (fun y => y * J y t) (fun y => y * J (1 * y) t)) by (intros; rewrite Rmult_1_l; reflexivity).
      apply (HS 1 (fun i => U 0%nat i t) t (or_introl eq_refl)); [rewrite (sp_bottom p q SP); apply Hin; exact Hb|]. intros i Hi. rewrite Rmult_1_l. apply HLE; [lia|apply Hin; exact Hb].
    - destruct (R2 tau Ht') as (A & B & EA & SA & _). exists A, B. split; [exact EA|]. refine (squeezed_within _ _ _ _ _ _ SA (SQ _ _) _). intros idx Hi. apply inb_1 in Hi as (b & -> & Hb). cbn [nth]. cbv zeta.
      set (t := nth b tau 0). rewrite (sp_direct p q SP), (sp_sdepth p q SP), (pr_mu0 _ _ SP), (pr_I0 _ _ SP).
      rewrite (RInt_ext (fun y => y * J (- y) t) (fun y => y * J (-1 * y) t)) by (intros y _; replace (-1 * y) with (- y) by ring; reflexivity).
      pose proof (HS (-1) (fun i => U 0%nat (half q + i)%nat t) t (or_intror eq_refl)) as H. cbv beta in H.
      match goal with |- Rabs ?x <= _ => match type of H with _ -> _ -> Rabs ?y <= _ => replace x with y by ring end end. apply H; [rewrite (sp_bottom p q SP); apply Hin; exact Hb|].
      intros i Hi. destruct (Hmu i Hi) as (_ & P2 & _). replace (-1 * nth i (po_mu out) 0) with (nth (half q + i) (po_mu out) 0) by (rewrite P2; ring). apply HLE; [lia|apply Hin; exact Hb].
  Qed.
End Converge.
