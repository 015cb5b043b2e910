(** Continuous dependence of the radiation on the numerical arguments. *)
From Coq Require Import Classical String Reals Lra Lia List Bool Arith ZArith.
From Coquelicot Require Import Coquelicot.
From Verif Require Import Base Tensor Spec M_LinAlg Spec_RTE Calc M_Subroutines M_GenPart M_MathscrV M_Coeffs M_Assemble M_Pydisort
  Spec_Sol Spec_Valid Spec_Calls Spec_Unique Spec_Phys Spec_Mono Spec_Depend Spec_Stretch P_Special P_Addition P_Quad P_Sub P_Solve P_Energy P_Pydisort P_Pydisort2 P_Pydisort3 P_Pydisort4 P_Pydisort5 P_Pydisort6 P_Pydisort8 P_Teq P_NT3 P_Unique2 P_Refine P_Max P_Max2 P_Max3 P_Max4 P_Mono P_Full2 P_Depend P_Depend2.
Import ListNotations.
Local Open Scope R_scope.

Lemma cont_on_comp a b c d (f g : R -> R) : cont_on a b f -> cont_on c d g -> (forall x, c <= x <= d -> a <= g x <= b) -> cont_on c d (fun x => f (g x)).
Proof.
  intros Hf Hg Hr x Hx e He. destruct (Hf (g x) (Hr x Hx) e He) as (r & Hr0 & H). destruct (Hg x Hx r Hr0) as (r' & Hr1 & H'). exists r'. split; [exact Hr1|].
  intros y Hy Hyx. apply H; [apply Hr; exact Hy|]. apply H'; auto.
Qed.
Lemma top_sum p l : top_of p l = rsum l (thickness p).
Proof. induction l as [|l IH]; [reflexivity|]. cbn [rsum]. rewrite <- IH. unfold thickness. cbn [top_of]. unfold bot_of. ring. Qed.
Lemma clamp_lip a x y : 0 <= a -> Rabs (Rmax 0 (Rmin a x) - Rmax 0 (Rmin a y)) <= Rabs (x - y).
Proof. intros Ha. unfold Rmax, Rmin. repeat destruct (Rle_dec _ _); unfold Rabs; repeat destruct (Rcase_abs _); lra. Qed.

Section Stretch.
  Variables (p q : py_in) (SF : same_frame p q).
  Lemma sf_half : half p = half q. Proof. unfold half. rewrite (sf_NQuad _ _ SF). reflexivity. Qed.
  Lemma sf_streams : streams p = streams q. Proof. unfold streams. rewrite (sf_NQuad _ _ SF). reflexivity. Qed.
  Lemma sf_ncoeffs : ncoeffs p = ncoeffs q. Proof. unfold ncoeffs. rewrite (sf_NLeg _ _ SF), (sf_NQuad _ _ SF). reflexivity. Qed.

  Hypothesis Vp : valid p.
  Hypothesis Vq : valid q.
  Hypothesis Kp : scattering_kept p.
  Hypothesis Kq : scattering_kept q.

  Lemma thick_p l : (l < nlayers q)%nat -> 0 < thickness p l.
  Proof. intros Hl. unfold thickness. pose proof (v_inc p Vp l ltac:(rewrite (sf_layers _ _ SF); exact Hl)). lra. Qed.
  Lemma thick_q l : (l < nlayers q)%nat -> 0 < thickness q l.
  Proof. intros Hl. unfold thickness. pose proof (v_inc q Vq l Hl). lra. Qed.
  Lemma thicker_pos l : (l < nlayers q)%nat -> 0 < thicker p q l.
  Proof. intros Hl. apply Rdiv_lt_0_compat; [apply thick_p|apply thick_q]; exact Hl. Qed.
  Lemma thicker_eq l : (l < nlayers q)%nat -> thicker p q l * thickness q l = thickness p l.
  Proof. intros Hl. unfold thicker. pose proof (thick_q l Hl). field. lra. Qed.
  Lemma place_range l s : (l < nlayers q)%nat -> top_of q l <= s <= bot_of q l -> top_of p l <= same_place p q l s <= bot_of p l.
  Proof.
    intros Hl Hs. unfold same_place. pose proof (thicker_pos l Hl) as H. pose proof (thicker_eq l Hl) as E. unfold thickness in E. split; [nra|].
    assert (thicker p q l * (s - top_of q l) <= thicker p q l * (bot_of q l - top_of q l)) by (apply Rmult_le_compat_l; lra). lra.
  Qed.
  Lemma place_inner l s : (l < nlayers q)%nat -> top_of q l < s < bot_of q l -> top_of p l < same_place p q l s < bot_of p l.
  Proof.
    intros Hl Hs. unfold same_place. pose proof (thicker_pos l Hl) as H. pose proof (thicker_eq l Hl) as E. unfold thickness in E. split; [nra|].
    assert (thicker p q l * (s - top_of q l) < thicker p q l * (bot_of q l - top_of q l)) by (apply Rmult_lt_compat_l; lra). lra.
  Qed.
  (** The whole map from depths of [q] to depths of [p]. *)
  Definition theta (s : R) : R := rsum (nlayers q) (fun l => thicker p q l * Rmax 0 (Rmin (thickness q l) (s - top_of q l))).
  Lemma theta_layer l s : (l < nlayers q)%nat -> top_of q l <= s <= bot_of q l -> theta s = same_place p q l s.
  Proof.
    intros Hl Hs. unfold theta. replace (nlayers q) with (l + (1 + (nlayers q - S l)))%nat by lia. rewrite rsum_split, rsum_split. cbn [rsum]. unfold same_place. rewrite (top_sum p l).
    assert (Mono : forall a b, (a <= b)%nat -> (b < nlayers q)%nat -> top_of q a <= top_of q b).
    { intros a b Hab. induction Hab as [|b Hab IH]; [intros; lra|]. intros Hb. apply Rle_trans with (top_of q b); [apply IH; lia|]. pose proof (v_inc q Vq b ltac:(lia)). cbn [top_of]. unfold bot_of in *. lra. }
    rewrite (rsum_ext l _ (thickness p)).
    - rewrite (rsum_0 (nlayers q - S l)).
      + replace (l + 0)%nat with l by lia. rewrite Rmin_right by (unfold thickness; lra). rewrite Rmax_right by lra. ring.
      + intros r Hr. pose proof (Mono (S l) (l + (1 + r))%nat ltac:(lia) ltac:(lia)) as H. assert (E : top_of q (S l) = bot_of q l) by (cbn [top_of]; unfold bot_of; f_equal; lia).
        rewrite (Rmax_left 0); [ring|]. eapply Rle_trans; [apply Rmin_r|]. lra.
    - intros r Hr. pose proof (thick_q r ltac:(lia)) as Hq. pose proof (Mono (S r) l ltac:(lia) ltac:(lia)) as H. assert (E : top_of q (S r) = bot_of q r) by (cbn [top_of]; unfold bot_of; f_equal; lia).
      rewrite Rmin_left by (unfold thickness; lra). rewrite Rmax_right by lra. apply thicker_eq. lia.
  Qed.
  Lemma theta_cont a b : cont_on a b theta.
  Proof.
    apply (cont_on_sum a b (nlayers q) (fun l s => thicker p q l * Rmax 0 (Rmin (thickness q l) (s - top_of q l)))). intros l Hl. apply cont_on_scal. intros x Hx e He. exists e. split; [exact He|].
    intros y Hy Hyx. eapply Rle_lt_trans; [apply clamp_lip; left; apply thick_q; exact Hl|]. replace (y - top_of q l - (x - top_of q l)) with (y - x) by ring. exact Hyx.
  Qed.

  Lemma kernel_dist' l x y : -1 <= x <= 1 -> -1 <= y <= 1 -> Rabs (skernel p l x y - skernel q l x y) <= / 2 * scattering_dist p q l.
  Proof.
    intros Hx Hy. unfold skernel. rewrite sf_ncoeffs, <- Rmult_minus_distr_l, <- rsum_minus, Rabs_mult, (Rabs_pos_eq (/ 2)) by lra.
    apply Rmult_le_compat_l; [lra|]. eapply Rle_trans; [apply rsum_abs|]. apply rsum_le. intros k Hk.
    replace ((2 * INR k + 1) * scattering p l k * legendre k x * legendre k y - (2 * INR k + 1) * scattering q l k * legendre k x * legendre k y)
      with ((2 * INR k + 1) * ((scattering p l k - scattering q l k) * (legendre k x * legendre k y))) by ring.
    pose proof (pos_INR k). rewrite Rabs_mult, (Rabs_pos_eq (2 * INR k + 1)) by lra. apply Rmult_le_compat_l; [lra|]. rewrite Rabs_mult.
    pose proof (leg_prod k x y Hx Hy). pose proof (Rabs_pos (scattering p l k - scattering q l k)). nra.
  Qed.
  (** Distance of the optical thicknesses, before and after delta-M scaling. *)
  Definition thickness_dist : R := rsum (nlayers q) (fun l => Rabs (thickness p l - thickness q l)).
  Definition scaled_dist : R := rsum (nlayers q) (fun l => Rabs (scl p l * thickness p l - scl q l * thickness q l)).
  Lemma scdist_nonneg : 0 <= scaled_dist.
  Proof. apply rsum_nonneg. intros l Hl. apply Rabs_pos. Qed.
  Lemma depth_place_gen (a b : nat -> R) l s : (l < nlayers q)%nat -> top_of q l <= s <= bot_of q l ->
    Rabs (rsum l (fun r => a r * thickness p r) + a l * (same_place p q l s - top_of p l) - (rsum l (fun r => b r * thickness q r) + b l * (s - top_of q l)))
    <= rsum (nlayers q) (fun l => Rabs (a l * thickness p l - b l * thickness q l)).
  Proof.
    intros Hl Hs. unfold same_place. set (g := fun l => a l * thickness p l - b l * thickness q l).
    pose proof (thick_q l Hl) as Hq.
    replace (rsum l (fun r => a r * thickness p r) + a l * (top_of p l + thicker p q l * (s - top_of q l) - top_of p l) - (rsum l (fun r => b r * thickness q r) + b l * (s - top_of q l)))
      with (rsum l g + g l * ((s - top_of q l) / thickness q l)) by (unfold g; rewrite rsum_minus; unfold thicker; field; lra).
    apply Rle_trans with (rsum (S l) (fun l => Rabs (g l))).
    2: { change (rsum (S l) (fun l => Rabs (g l)) <= rsum (nlayers q) (fun l => Rabs (g l))). replace (nlayers q) with (S l + (nlayers q - S l))%nat by lia. rewrite (rsum_split (S l)).
      assert (H : 0 <= rsum (nlayers q - S l) (fun i => Rabs (g (S l + i)%nat))); [|lra]. apply rsum_nonneg. intros r Hr. apply Rabs_pos. }
    cbn [rsum]. eapply Rle_trans; [apply Rabs_triang|]. apply Rplus_le_compat; [apply rsum_abs|].
    assert (H : 0 <= (s - top_of q l) / thickness q l <= 1).
    { split; [apply Rmult_le_pos; [lra|apply Rlt_le, Rinv_0_lt_compat; exact Hq]|]. apply (Rmult_le_reg_r (thickness q l)); [exact Hq|]. unfold Rdiv. rewrite Rmult_assoc, Rinv_l, Rmult_1_r, Rmult_1_l by lra. unfold thickness. lra. }
    rewrite Rabs_mult, (Rabs_pos_eq (_ / _)) by lra. pose proof (Rabs_pos (g l)). nra.
  Qed.
  Lemma depth_place l s : (l < nlayers q)%nat -> top_of q l <= s <= bot_of q l -> Rabs (depth_s p l (same_place p q l s) - depth_s q l s) <= scaled_dist.
  Proof. intros Hl Hs. exact (depth_place_gen (scl p) (scl q) l s Hl Hs). Qed.
  Lemma place_near l s : (l < nlayers q)%nat -> top_of q l <= s <= bot_of q l -> Rabs (same_place p q l s - s) <= thickness_dist.
  Proof.
    intros Hl Hs. pose proof (depth_place_gen (fun _ => 1) (fun _ => 1) l s Hl Hs) as H. cbv beta in H. rewrite !rsum_scal, !Rmult_1_l, <- !top_sum in H.
    replace (top_of p l + (same_place p q l s - top_of p l) - (top_of q l + (s - top_of q l))) with (same_place p q l s - s) in H by ring.
    eapply Rle_trans; [exact H|]. apply Req_le, rsum_ext. intros k _. rewrite !Rmult_1_l. reflexivity.
  Qed.
  Lemma sf_bottom_place : same_place p q (nlayers q - 1) (bottom q) = bottom p.
  Proof.
    pose proof (v_ne q Vq) as Hn. rewrite (bottom_eq q), (bottom_eq p). unfold same_place. pose proof (thicker_eq (nlayers q - 1) ltac:(lia)) as E. rewrite (sf_layers _ _ SF).
    fold (thickness q (nlayers q - 1)). rewrite E. unfold thickness. ring.
  Qed.
  Lemma last_range : top_of q (nlayers q - 1) <= bottom q <= bot_of q (nlayers q - 1).
  Proof. pose proof (v_ne q Vq) as Hn. rewrite (bottom_eq q). pose proof (v_inc q Vq (nlayers q - 1)%nat ltac:(lia)). lra. Qed.
  Lemma theta_bottom : theta (bottom q) = bottom p.
  Proof. pose proof (v_ne q Vq) as Hn. rewrite (theta_layer (nlayers q - 1)) by (lia || apply last_range). exact sf_bottom_place. Qed.
  Lemma theta_top : theta 0 = 0.
  Proof. pose proof (v_ne q Vq) as Hn. pose proof (v_inc q Vq 0%nat ltac:(lia)) as H. rewrite (theta_layer 0 0); [|lia|split; [cbn; lra|unfold top_of in H; lra]]. unfold same_place. cbn [top_of]. ring. Qed.
  Lemma in_layer s : 0 <= s <= bottom q -> exists l, (l < nlayers q)%nat /\ top_of q l <= s <= bot_of q l.
  Proof.
    intros Hs. destruct (lay_at q Vq s Hs) as (Hl & Hlt). exists (lay q s). split; [exact Hl|]. destruct Hlt as [Hx|(El & E0)]; [lra|]. rewrite El, E0. split; [cbn; lra|]. apply Rlt_le, (v_tau q Vq). pose proof (v_ne q Vq). lia.
  Qed.
  Lemma theta_range s : 0 <= s <= bottom q -> 0 <= theta s <= bottom p.
  Proof.
    intros Hs. destruct (in_layer s Hs) as (l & Hl & Hls). rewrite (theta_layer l s Hl Hls). pose proof (place_range l s Hl Hls) as H.
    pose proof (layer_in p Vp l ltac:(rewrite (sf_layers _ _ SF); exact Hl)). lra.
  Qed.

  Section Field.
    Variables (mu : list R) (w vn vp vn' vp' : nat -> R) (rho rho' : R -> R -> R) (e M : R).
    Hypothesis Hdg : double_gauss (half q) mu w.
    Hypothesis CB : deforms_by e M p q mu w vn vp vn' vp' rho rho'.
    Variables (F0 G : nat -> R -> R).
    Hypothesis BF : bvp p mu w vn vp rho 0 F0.
    Hypothesis BG : bvp q mu w vn' vp' rho' 0 G.
    Hypothesis FM : forall i t, (i < streams p)%nat -> 0 <= t <= bottom p -> Rabs (F0 i t) <= M.
    Lemma beam_eq r l x t : 2 * (p_I0 r / (4 * PI)) * skernel r l x (- p_mu0 r) * exp (- depth_s r l t / p_mu0 r) = beam_source r l x t.
    Proof. unfold beam_source, skernel. field. pose proof PI_RGT_0. lra. Qed.
    (** The field of [p], carried over to the depths of [q]. *)
    Definition F (i : nat) (s : R) : R := F0 i (theta s).
    Lemma F_bound i s : (i < 2 * half q)%nat -> 0 <= s <= bottom q -> Rabs (F i s) <= M.
    Proof. intros Hi Hs. apply FM; [rewrite sf_streams, (streams_eq q Vq); exact Hi|apply theta_range; exact Hs]. Qed.
    Lemma M_nonneg : 0 <= M.
    Proof.
      pose proof (half_pos q Vq). eapply Rle_trans; [apply Rabs_pos|apply (F_bound 0%nat 0); [lia|]]. split; [lra|]. rewrite (bottom_eq q). apply Rlt_le, (v_tau q Vq). pose proof (v_ne q Vq). lia.
    Qed.
    Lemma F_derive l k x wg : (l < nlayers q)%nat -> (k < 2 * half q)%nat -> top_of q l < x < bot_of q l -> is_cutoff (albedo_s p l) (wphase_s p l) (ncoeffs p) 0 wg ->
      is_derive (F k) x (thicker p q l * rte p mu w wg 0 l k (same_place p q l x) (fun j => F j x) / nth k mu 0).
    Proof.
      intros Hl Hk Hx Hc. assert (Hlp : (l < nlayers p)%nat) by (rewrite (sf_layers _ _ SF); exact Hl).
      pose proof (bvp_rte _ _ _ _ _ _ _ _ BF l k wg (same_place p q l x) Hlp ltac:(rewrite sf_streams, (streams_eq q Vq); exact Hk) (place_inner l x Hl Hx) Hc) as D.
      apply (der_ext_loc (fun s => F0 k (same_place p q l s)) (F k) x _ (top_of q l) (bot_of q l)); [exact Hx| |].
      { intros y Hy. unfold F. rewrite (theta_layer l y) by (auto; lra). reflexivity. }
      assert (D1 : is_derive (same_place p q l) x (thicker p q l)).
      { unfold same_place. refine (der_eq _ _ _ _ _ (der_plus _ _ _ _ _ (is_derive_const (top_of p l) x) (der_scal _ (thicker p q l) _ _ (der_minus _ _ _ _ _ (is_derive_id x) (is_derive_const (top_of q l) x))))). change zero with 0. change one with 1. ring. }
      pose proof (is_derive_comp (F0 k) (same_place p q l) x _ _ D D1) as D2. refine (der_eq _ _ _ _ _ D2). change scal with Rmult. cbv beta.
      assert (E : rte p mu w wg 0 l k (same_place p q l x) (fun j => F0 j (same_place p q l x)) = rte p mu w wg 0 l k (same_place p q l x) (fun j => F j x)).
      { unfold rte, F. rewrite (theta_layer l x) by (auto; lra). reflexivity. }
      rewrite E. unfold Rdiv. ring.
    Qed.
    Lemma rte_size l k x wg : (l < nlayers q)%nat -> (k < 2 * half q)%nat -> top_of q l < x < bot_of q l -> is_cutoff (albedo_s p l) (wphase_s p l) (ncoeffs p) 0 wg ->
      Rabs (rte p mu w wg 0 l k (same_place p q l x) (fun j => F j x))
      <= (1 + scattering_size p l) * M + p_I0 p / (4 * PI) * scattering_size p l + (1 - albedo p l) * Rabs (source p l (same_place p q l x)).
    Proof.
      intros Hl Hk Hx Hc. assert (Hlp : (l < nlayers p)%nat) by (rewrite (sf_layers _ _ SF); exact Hl).
      assert (Hxb : 0 <= x <= bottom q) by (apply (layer_at_range q Vq x l); split; [exact Hl|left; lra]).
      rewrite (rte_kernel mu w p wg) by auto. rewrite sf_half, sf_streams, (streams_eq q Vq). set (t := same_place p q l x). pose proof M_nonneg as HM. pose proof (size_nonneg p l) as Hs0.
      assert (HS : forall j, (j < 2 * half q)%nat -> Rabs (F j x) <= M) by (intros; apply F_bound; auto).
      assert (H1 : Rabs (scl p l * F k x) <= M).
      { pose proof (scl_pos p Vp l Hlp). assert (scl p l <= 1) by (unfold scl; pose proof (albedo_range p Vp l Hlp); pose proof (fwd_range p Vp l); nra). rewrite Rabs_mult, (Rabs_pos_eq (scl p l)) by lra. pose proof (HS k Hk). pose proof (Rabs_pos (F k x)). nra. }
      assert (H2 : Rabs (rsum (2 * half q) (fun j => wnode (half q) w j * skernel p l (nth k mu 0) (nth j mu 0) * F j x)) <= scattering_size p l * M).
      { eapply Rle_trans; [apply rsum_abs|]. apply Rle_trans with (rsum (2 * half q) (fun j => wnode (half q) w j * (/ 2 * scattering_size p l * M))).
        - apply rsum_le. intros j Hj. rewrite !Rabs_mult, Rmult_assoc. pose proof (wnode_pos q mu w Hdg j Hj) as Wp.
          rewrite (Rabs_pos_eq (wnode _ _ _)) by lra. apply Rmult_le_compat_l; [lra|]. apply Rmult_le_compat; auto using Rabs_pos. apply kernel_size; apply (dir_range q mu w Hdg); auto.
        - rewrite rsum_scal_r. assert (W2 : rsum (2 * half q) (wnode (half q) w) = 2) by exact (wsum2 q Vq mu w Hdg). rewrite W2. lra. }
      assert (H3 : Rabs (2 * (p_I0 p / (4 * PI)) * skernel p l (nth k mu 0) (- p_mu0 p) * exp (- depth_s p l t / p_mu0 p)) <= p_I0 p / (4 * PI) * scattering_size p l).
      { pose proof (v_I0 p Vp) as HI. pose proof PI_RGT_0. destruct (Rle_lt_or_eq_dec 0 (p_I0 p) ltac:(lra)) as [Hlt|E].
        2: { rewrite <- E. unfold Rdiv. rewrite !Rmult_0_l, Rmult_0_r, !Rmult_0_l, Rabs_R0. lra. }
        pose proof (v_mu0 p Vp Hlt) as Hm. set (c := p_I0 p / (4 * PI)). assert (0 < c) by (unfold c; apply Rdiv_lt_0_compat; lra).
        pose proof (kernel_size p l (nth k mu 0) (- p_mu0 p) (dir_range q mu w Hdg k Hk) ltac:(lra)) as K2.
        assert (K4 : exp (- depth_s p l t / p_mu0 p) <= 1).
        { rewrite <- exp_0. apply exp_mono. pose proof (depth_nonneg p Vp l t Hlp ltac:(apply place_range; [exact Hl|lra])) as Hd0.
          assert (0 <= depth_s p l t / p_mu0 p) by (apply Rmult_le_pos; [exact Hd0|apply Rlt_le, Rinv_0_lt_compat; lra]). unfold Rdiv in *. lra. }
        pose proof (exp_pos (- depth_s p l t / p_mu0 p)) as K5. rewrite !Rabs_mult, (Rabs_pos_eq 2), (Rabs_pos_eq c), (Rabs_pos_eq (exp _)) by lra. set (kk := Rabs (skernel _ _ _ _)) in *. pose proof (Rabs_pos (skernel p l (nth k mu 0) (- p_mu0 p))) as K6. fold kk in K6. set (ee := exp _) in *.
        apply Rle_trans with (2 * c * kk * 1); [apply Rmult_le_compat_l; [|lra]; apply Rmult_le_pos; lra|]. nra. }
      assert (H4 : Rabs ((1 - albedo p l) * source p l t) <= (1 - albedo p l) * Rabs (source p l t)) by (rewrite Rabs_mult, (Rabs_pos_eq (1 - albedo p l)) by (pose proof (albedo_range p Vp l Hlp); lra); lra).
      unfold Rminus at 1 2 3. eapply Rle_trans; [apply Rabs_triang|]. rewrite Rabs_Ropp. apply Rplus_le_compat; [|exact H4].
      eapply Rle_trans; [apply Rabs_triang|]. rewrite Rabs_Ropp. apply Rplus_le_compat; [|exact H3].
      eapply Rle_trans; [apply Rabs_triang|]. rewrite Rabs_Ropp. lra.
    Qed.
    Lemma defect' l k x wg wg' : (l < nlayers q)%nat -> (k < 2 * half q)%nat -> top_of q l < x < bot_of q l ->
      is_cutoff (albedo_s p l) (wphase_s p l) (ncoeffs p) 0 wg -> is_cutoff (albedo_s q l) (wphase_s q l) (ncoeffs q) 0 wg' ->
      Rabs (rte q mu w wg' 0 l k x (fun j => F j x) - thicker p q l * rte p mu w wg 0 l k (same_place p q l x) (fun j => F j x)) <= (1 - albedo q l) * e.
    Proof.
      intros Hl Hk Hx Hc Hc'. assert (Hlp : (l < nlayers p)%nat) by (rewrite (sf_layers _ _ SF); exact Hl).
      assert (Hxb : 0 <= x <= bottom q) by (apply (layer_at_range q Vq x l); split; [exact Hl|left; lra]).
      pose proof (rte_size l k x wg Hl Hk Hx Hc) as KR. pose proof (db_layer _ _ _ _ _ _ _ _ _ _ _ _ CB l k x Hl ltac:(rewrite (streams_eq q Vq); exact Hk) ltac:(lra)) as KL. eapply Rle_trans; [|exact KL].
      set (rp := rte p mu w wg 0 l k (same_place p q l x) (fun j => F j x)) in *.
      replace (rte q mu w wg' 0 l k x (fun j => F j x) - thicker p q l * rp) with (rte q mu w wg' 0 l k x (fun j => F j x) - rp + - ((thicker p q l - 1) * rp)) by ring.
      eapply Rle_trans; [apply Rabs_triang|]. rewrite Rabs_Ropp. apply Rplus_le_compat; [|rewrite Rabs_mult; apply Rmult_le_compat_l; [apply Rabs_pos|exact KR]].
      unfold rp. clear KR KL. clearbody rp. clear rp. rewrite (rte_kernel mu w p wg) by auto. rewrite (rte_kernel mu w q wg') by auto. rewrite sf_half, sf_streams, (streams_eq q Vq).
      rewrite !beam_eq. set (bq := beam_source q l _ _). set (bp := beam_source p l _ _).
      set (sq := (1 - albedo q l) * source q l x) in *. set (sp := (1 - albedo p l) * source p l _) in *.
      set (Kq' := fun j => wnode (half q) w j * skernel q l (nth k mu 0) (nth j mu 0) * F j x). set (Kp' := fun j => wnode (half q) w j * skernel p l (nth k mu 0) (nth j mu 0) * F j x).
      replace (scl q l * F k x - rsum (2 * half q) Kq' - bq - sq - (scl p l * F k x - rsum (2 * half q) Kp' - bp - sp))
        with ((scl q l - scl p l) * F k x + rsum (2 * half q) (fun j => Kp' j - Kq' j) + (bp - bq) + (sp - sq)) by (rewrite rsum_minus; ring).
      eapply Rle_trans; [apply Rabs_triang|]. apply Rplus_le_compat; [|apply Rle_refl].
      eapply Rle_trans; [apply Rabs_triang|]. apply Rplus_le_compat; [|apply Rle_refl].
      eapply Rle_trans; [apply Rabs_triang|]. rewrite Rmult_plus_distr_r. assert (HS : forall j, (j < 2 * half q)%nat -> Rabs (F j x) <= M) by (intros; apply F_bound; auto).
      apply Rplus_le_compat.
      - rewrite Rabs_mult, peak_scl. apply Rmult_le_compat_l; [apply Rabs_pos|auto].
      - eapply Rle_trans; [apply rsum_abs|]. apply Rle_trans with (rsum (2 * half q) (fun j => wnode (half q) w j * (/ 2 * scattering_dist p q l * M))).
        + apply rsum_le. intros j Hj. unfold Kp', Kq'. rewrite <- Rmult_minus_distr_r, <- Rmult_minus_distr_l, !Rabs_mult, Rmult_assoc. pose proof (wnode_pos q mu w Hdg j Hj) as Wp.
          rewrite (Rabs_pos_eq (wnode _ _ _)) by lra. apply Rmult_le_compat_l; [lra|]. apply Rmult_le_compat; auto using Rabs_pos. apply kernel_dist'; apply (dir_range q mu w Hdg); auto.
        + rewrite rsum_scal_r. assert (W2 : rsum (2 * half q) (wnode (half q) w) = 2) by exact (wsum2 q Vq mu w Hdg). rewrite W2. lra.
    Qed.

    Hypothesis Hph : phase_nonneg q mu.
    Hypothesis Hsurf : passive_surface q mu w rho'.

    Lemma e_nonneg' : 0 <= e.
    Proof. eapply Rle_trans; [apply Rabs_pos|apply (db_n _ _ _ _ _ _ _ _ _ _ _ _ CB 0%nat), half_pos; exact Vq]. Qed.

    Lemma bvp_stretch1 s : s = 1 \/ s = -1 -> forall i t, (i < streams q)%nat -> 0 <= t <= bottom q -> s * (F i t - G i t) <= e.
    Proof.
      intros Hs i t Hi Ht. pose proof e_nonneg' as He. destruct BF as [A1 A2 A3 A4]. destruct BG as [B1 B2 B3 B4]. rewrite (streams_eq q Vq) in Hi, B1, B2.
      assert (SA : forall x y, Rabs x <= y -> s * x <= y /\ - (s * x) <= y). { intros x y H. apply Rabs_le_between in H. destruct Hs as [-> | ->]; lra. }
      enough (0 <= e - s * F i t + s * G i t) by lra. assert (HN : (half q <= 2 * half q)%nat) by lia.
      refine (field_nonneg q Vq mu w Hdg (fun i t => e - s * F i t + s * G i t)
        (fun i j => if Nat.ltb 0 (length (p_BDRF q)) then 2 * (rho' (nth i mu 0) (nth j mu 0) * nth j mu 0 * w j) else 0) Hph _ _ _ _ _ _ i t Hi Ht).
      - intros k Hk. apply (cont_on_ext _ _ (fun x => (e + (- s) * F k x) + s * G k x)); [intros; ring|]. apply cont_on_plus; [|apply cont_on_scal, B2; exact Hk]. apply cont_on_plus.
        + apply cont_on_const.
        + apply cont_on_scal. refine (cont_on_comp 0 (bottom p) _ _ (F0 k) theta _ (theta_cont _ _) theta_range). apply A2. rewrite sf_streams, (streams_eq q Vq). exact Hk.
      - intros l k x Hl Hk Hx. assert (Hlp : (l < nlayers p)%nat) by (rewrite (sf_layers _ _ SF); exact Hl).
        destruct (cutoff_ex (albedo_s q l) (wphase_s q l) (ncoeffs q) 0) as (wg' & Hc'). destruct (cutoff_ex (albedo_s p l) (wphase_s p l) (ncoeffs p) 0) as (wg & Hc).
        set (nc := rsum (2 * half q) (fun j => wnode (half q) w j * D_spec (albedo_s q l) wg' (ncoeffs q) 0 (nth k mu 0) (nth j mu 0))).
        set (dl := rte q mu w wg' 0 l k x (fun j => F j x) - thicker p q l * rte p mu w wg 0 l k (same_place p q l x) (fun j => F j x)).
        exists wg', (scl q l * e * (1 - nc) - s * dl). split; [exact Hc'|]. pose proof (scl_pos q Vq l Hl) as Hsc. split.
        + pose proof (D_row_le q Vq mu w Hdg l wg' k Hl Hc') as Hnc. fold nc in Hnc. pose proof (proj1 (SA _ _ (defect' l k x wg wg' Hl Hk Hx Hc Hc'))) as Hd. fold dl in Hd.
          assert (E : scl q l * (1 - albedo_s q l) = 1 - albedo q l) by (unfold albedo_s, scl in *; field; lra).
          assert (0 <= (scl q l * e) * (albedo_s q l - nc)) by (apply Rmult_le_pos; [apply Rmult_le_pos; lra|lra]).
          replace (scl q l * e * (1 - nc) - s * dl) with (scl q l * (1 - albedo_s q l) * e - s * dl + scl q l * e * (albedo_s q l - nc)) by ring.
          rewrite E. lra.
        + pose proof (B1 l k wg' x Hl Hk Hx Hc') as DG.
          pose proof (F_derive l k x wg Hl Hk Hx Hc) as DF.
          refine (der_eq _ _ _ _ _ (der_plus _ _ _ _ _ (der_minus _ _ _ _ _ (is_derive_const e x) (der_scal _ s _ _ DF)) (der_scal _ s _ _ DG))). unfold dl. change zero with 0.
          set (rp := rte p mu w wg 0 l k (same_place p q l x) (fun j => F j x)). unfold rte. cbn [Nat.eqb]. rewrite (streams_eq q Vq).
          set (Dq := D_spec (albedo_s q l) wg' (ncoeffs q) 0 (nth k mu 0)) in *.
          rewrite (rsum_ext _ (fun j => wnode (half q) w j * Dq (nth j mu 0) * (e - s * F j x + s * G j x))
            (fun j => (e * (wnode (half q) w j * Dq (nth j mu 0)) - s * (wnode (half q) w j * Dq (nth j mu 0) * F j x)) - (- s) * (wnode (half q) w j * Dq (nth j mu 0) * G j x))) by (intros; ring).
          rewrite !rsum_minus, !rsum_scal. fold nc. unfold Rdiv. ring.
      - intros k Hk. rewrite (B3 k Hk). unfold F. rewrite theta_top. replace (half q) with (half p) in * by apply sf_half. rewrite (A3 k Hk). cbn [Nat.eqb].
        pose proof (SA _ _ (db_n _ _ _ _ _ _ _ _ _ _ _ _ CB k ltac:(rewrite <- sf_half; exact Hk))). lra.
      - intros k Hk. rewrite (B4 k Hk). assert (EF : forall j, F j (bottom q) = F0 j (bottom p)) by (intros j; unfold F; rewrite theta_bottom; reflexivity). rewrite (EF k), (A4 k) by (rewrite sf_half; exact Hk). cbn [Nat.eqb].
        rewrite (sf_surface _ _ SF), sf_half. pose proof (db_p _ _ _ _ _ _ _ _ _ _ _ _ CB k Hk) as Hpk. unfold reflectance, beam_mirror, reflects in Hpk. rewrite (sf_surface _ _ SF) in Hpk.
        pose proof (SA _ _ (Rle_refl (Rabs (vp k - vp' k)))) as [Sv _].
        destruct (Nat.ltb 0 (length (p_BDRF q))).
        + set (bp := p_mu0 p * p_I0 p / PI * _ * _) in *. set (bq := p_mu0 q * p_I0 q / PI * _ * _) in *. pose proof (SA _ _ (Rle_refl (Rabs (bp - bq)))) as [Sb _].
          rewrite (rsum_ext (half q) (fun j => rho (nth k mu 0) (nth j mu 0) * nth j mu 0 * w j * F0 (half q + j)%nat (bottom p))
            (fun j => rho' (nth k mu 0) (nth j mu 0) * nth j mu 0 * w j * F (half q + j)%nat (bottom q) - (-1) * ((rho (nth k mu 0) (nth j mu 0) - rho' (nth k mu 0) (nth j mu 0)) * nth j mu 0 * w j * F (half q + j)%nat (bottom q)))) by (intros; rewrite EF; ring).
          rewrite (rsum_ext _ (fun j => 2 * (rho' (nth k mu 0) (nth j mu 0) * nth j mu 0 * w j) * (e - s * F (half q + j)%nat (bottom q) + s * G (half q + j)%nat (bottom q)))
            (fun j => (2 * e * (rho' (nth k mu 0) (nth j mu 0) * nth j mu 0 * w j) - 2 * s * (rho' (nth k mu 0) (nth j mu 0) * nth j mu 0 * w j * F (half q + j)%nat (bottom q))) - (- 2) * s * (rho' (nth k mu 0) (nth j mu 0) * nth j mu 0 * w j * G (half q + j)%nat (bottom q)))) by (intros; ring).
          rewrite !rsum_minus, !rsum_scal.
          set (SSF := rsum (half q) (fun j => rho' (nth k mu 0) (nth j mu 0) * nth j mu 0 * w j * F (half q + j)%nat (bottom q))) in *. set (SG := rsum (half q) (fun j => rho' (nth k mu 0) (nth j mu 0) * nth j mu 0 * w j * G (half q + j)%nat (bottom q))) in *.
          set (S1 := rsum (half q) (fun i0 => rho' (nth k mu 0) (nth i0 mu 0) * nth i0 mu 0 * w i0)) in *.
          set (SD := rsum (half q) (fun j => (rho (nth k mu 0) (nth j mu 0) - rho' (nth k mu 0) (nth j mu 0)) * nth j mu 0 * w j * F (half q + j)%nat (bottom q))).
          set (SM := rsum (half q) (fun j => Rabs (rho (nth k mu 0) (nth j mu 0) - rho' (nth k mu 0) (nth j mu 0)) * nth j mu 0 * w j)) in *.
          assert (HSD : Rabs SD <= SM * M).
          { unfold SD, SM. rewrite Rmult_comm, <- rsum_scal. eapply Rle_trans; [apply rsum_abs|]. apply rsum_le. intros j Hj. destruct Hdg as (_ & H2 & _). destruct (H2 j Hj) as (P1 & _ & P3).
            assert (HFj : Rabs (F (half q + j)%nat (bottom q)) <= M) by (apply F_bound; [lia|]; split; [|lra]; rewrite (bottom_eq q); apply Rlt_le, (v_tau q Vq); pose proof (v_ne q Vq); lia).
            rewrite !Rabs_mult, (Rabs_pos_eq (nth j mu 0)), (Rabs_pos_eq (w j)) by lra. rewrite (Rmult_comm M). apply Rmult_le_compat_l; [|exact HFj]. apply Rmult_le_pos; [apply Rmult_le_pos; [apply Rabs_pos|lra]|lra]. }
          pose proof (proj1 (SA _ _ HSD)) as Sd. lra.
        + rewrite (rsum_0 (half q) (fun j => 0 * _)) by (intros; ring). pose proof (Rabs_pos (p_mu0 p * p_I0 p / PI * 0 * exp (- depth_s p (nlayers p - 1) (bottom p) / p_mu0 p) - p_mu0 q * p_I0 q / PI * 0 * exp (- depth_s q (nlayers q - 1) (bottom q) / p_mu0 q))) as Hz. rewrite (rsum_0 (half q)) in Hpk by (intros; rewrite Rminus_eq_0, Rabs_R0; ring). lra.
      - intros k j Hk Hj. cbv beta. destruct (Nat.ltb 0 (length (p_BDRF q))); [|apply Rle_refl]. destruct Hdg as (_ & H2 & _). destruct (H2 j Hj) as (P1 & _ & P3). pose proof (ps_nonneg _ _ _ _ Hsurf k j Hk Hj) as P4.
        apply Rmult_le_pos; [lra|]. apply Rmult_le_pos; [apply Rmult_le_pos; lra|lra].
      - intros k Hk. pose proof (ps_albedo _ _ _ _ Hsurf k Hk) as Pa. unfold reflectance in Pa. destruct (Nat.ltb 0 (length (p_BDRF q))); [rewrite rsum_scal; exact Pa|]. rewrite rsum_0 by reflexivity. lra.
    Qed.
    Theorem bvp_stretch i t : (i < streams q)%nat -> 0 <= t <= bottom q -> Rabs (F i t - G i t) <= e.
    Proof.
      intros Hi Ht. pose proof (bvp_stretch1 1 (or_introl eq_refl) i t Hi Ht). pose proof (bvp_stretch1 (-1) (or_intror eq_refl) i t Hi Ht). apply Rabs_le. lra.
    Qed.
  End Field.
End Stretch.
