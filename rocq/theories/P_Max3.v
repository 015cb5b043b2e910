(** Comparison of boundary-value problems and of calls. *)
From Coq Require Import Classical String Reals Lra Lia List Bool Arith ZArith.
From Coquelicot Require Import Coquelicot.
From Verif Require Import Base Tensor Spec M_LinAlg Spec_RTE Calc M_Subroutines M_GenPart M_MathscrV M_Coeffs M_Assemble M_Pydisort
  Spec_Sol Spec_Valid Spec_Calls Spec_Unique Spec_Phys P_Special P_Sub P_Solve P_Energy P_Pydisort P_Pydisort2 P_Pydisort3 P_Pydisort4 P_Pydisort5 P_Pydisort6 P_Pydisort8 P_Teq P_NT3 P_Unique2 P_Refine P_Max P_Max2.
Import ListNotations.
Local Open Scope R_scope.

Section Same.
  Variables (p q : py_in) (S : same_medium p q).
  Lemma sm_half : half p = half q. Proof. unfold half. rewrite (sm_NQuad _ _ S). reflexivity. Qed.
  Lemma sm_streams : streams p = streams q. Proof. unfold streams. rewrite (sm_NQuad _ _ S). reflexivity. Qed.
  Lemma sm_nlayers : nlayers p = nlayers q. Proof. unfold nlayers. rewrite (sm_tau _ _ S). reflexivity. Qed.
  Lemma sm_ncoeffs : ncoeffs p = ncoeffs q. Proof. unfold ncoeffs. rewrite (sm_NLeg _ _ S), (sm_NQuad _ _ S). reflexivity. Qed.
  Lemma sm_top l : top_of p l = top_of q l. Proof. unfold top_of. rewrite (sm_tau _ _ S). reflexivity. Qed.
  Lemma sm_bot l : bot_of p l = bot_of q l. Proof. unfold bot_of. rewrite (sm_tau _ _ S). reflexivity. Qed.
  Lemma sm_bottom : bottom p = bottom q. Proof. unfold bottom. rewrite (sm_tau _ _ S). reflexivity. Qed.
  Lemma sm_albedo l : albedo p l = albedo q l. Proof. unfold albedo. rewrite (sm_omega _ _ S). reflexivity. Qed.
  Lemma sm_fwd l : fwd p l = fwd q l. Proof. unfold fwd. rewrite (sm_f _ _ S). reflexivity. Qed.
  Lemma sm_scl l : scl p l = scl q l. Proof. unfold scl. rewrite sm_albedo, sm_fwd. reflexivity. Qed.
  Lemma sm_albedo_s l : albedo_s p l = albedo_s q l. Proof. unfold albedo_s. rewrite sm_scl, sm_albedo, sm_fwd. reflexivity. Qed.
  Lemma sm_wphase l : wphase_s p l = wphase_s q l. Proof. unfold wphase_s, phase_s, phase. rewrite sm_fwd, (sm_Leg _ _ S). reflexivity. Qed.
  Lemma sm_depth l t : depth_s p l t = depth_s q l t.
  Proof. unfold depth_s. rewrite sm_scl, sm_top. f_equal. apply rsum_ext. intros r _. rewrite sm_scl, sm_top, sm_bot. reflexivity. Qed.
  Lemma sm_lay t : lay p t = lay q t. Proof. unfold lay. rewrite (sm_tau _ _ S). reflexivity. Qed.
  Lemma sm_sdepth t : sdepth p t = sdepth q t. Proof. unfold sdepth. rewrite sm_lay. apply sm_depth. Qed.
  Lemma sm_phase_mode m l x y : phase_mode p m l x y = phase_mode q m l x y.
  Proof. unfold phase_mode. rewrite sm_ncoeffs, sm_wphase. reflexivity. Qed.
  Lemma sm_reflectance mu w rho i : reflectance p mu w rho i = reflectance q mu w rho i.
  Proof. unfold reflectance. rewrite (sm_BDRF _ _ S), sm_half. reflexivity. Qed.
End Same.
Lemma sm_sym p q : same_medium p q -> same_medium q p.
Proof. intros []. constructor; congruence. Qed.
Lemma sm_trans p q r : same_medium p q -> same_medium q r -> same_medium p r.
Proof. intros [] []. constructor; congruence. Qed.

(** Problems with the same medium: more source, more radiation. *)
Theorem bvp_le p q mu w vn vp vn' vp' rho F G : valid q -> double_gauss (half q) mu w -> same_medium p q -> phase_nonneg q mu -> beam_phase_nonneg q mu ->
  passive_surface q mu w rho -> p_I0 p <= p_I0 q -> 0 <= p_I0 p ->
  (forall l t, (l < nlayers q)%nat -> top_of q l <= t <= bot_of q l -> source p l t <= source q l t) ->
  (forall i, (i < half q)%nat -> vn i <= vn' i) -> (forall i, (i < half q)%nat -> vp i <= vp' i) ->
  bvp p mu w vn vp rho 0 F -> bvp q mu w vn' vp' rho 0 G ->
  forall i t, (i < streams q)%nat -> 0 <= t <= bottom q -> F i t <= G i t.
Proof.
  intros V Hdg S Hph Hb [Pn Pb Pa] HI HI0 Hs Hn Hp [A1 A2 A3 A4] [B1 B2 B3 B4] i t Hi Ht. rewrite (streams_eq q V) in *.
  enough (0 <= G i t - F i t) by lra.
  assert (HN : (half q <= 2 * half q)%nat) by lia.
  refine (field_nonneg q V mu w Hdg (fun i t => G i t - F i t)
    (fun i j => if Nat.ltb 0 (length (p_BDRF q)) then 2 * (rho (nth i mu 0) (nth j mu 0) * nth j mu 0 * w j) else 0) Hph _ _ _ _ _ _ i t Hi Ht).
  - intros k Hk. apply (cont_on_ext _ _ (fun x => G k x + (-1) * F k x)); [intros; ring|]. apply cont_on_plus; [apply B2; auto|apply cont_on_scal].
    rewrite <- (sm_bottom p q S). apply A2. rewrite (sm_streams p q S), (streams_eq q V). exact Hk.
  - intros l k x Hl Hk Hx. destruct (cutoff_ex (albedo_s q l) (wphase_s q l) (ncoeffs q) 0) as (wg & Hc).
    exists wg, (scl q l * ((p_I0 q - p_I0 p) / (4 * PI) * (2 * D_spec (albedo_s q l) wg (ncoeffs q) 0 (nth k mu 0) (- p_mu0 q)) * exp (- depth_s q l x / p_mu0 q))
       + (1 - albedo q l) * (source q l x - source p l x)). split; [exact Hc|]. split.
    + pose proof (scl_pos q V l Hl). pose proof (albedo_range q V l Hl). pose proof (Hs l x Hl ltac:(lra)). apply Rplus_le_le_0_compat.
      * apply Rmult_le_pos; [lra|]. apply Rmult_le_pos; [|left; apply exp_pos].
        destruct (Rle_lt_or_eq_dec _ _ HI) as [Hlt|E]; [|rewrite E; unfold Rdiv; lra].
        apply Rmult_le_pos; [apply Rmult_le_pos; [lra|left; apply Rinv_0_lt_compat; pose proof PI_RGT_0; lra]|].
        apply Rmult_le_pos; [lra|]. apply D_nonneg; auto. apply Hb; auto; [lra|rewrite (streams_eq q V); exact Hk].
      * apply Rmult_le_pos; lra.
    + pose proof (B1 l k wg x Hl Hk Hx Hc) as DG.
      assert (DF : is_derive (F k) x (rte p mu w wg 0 l k x (fun j => F j x) / nth k mu 0)).
      { apply A1; [rewrite (sm_nlayers p q S); exact Hl|rewrite (sm_streams p q S), (streams_eq q V); exact Hk|rewrite (sm_top p q S), (sm_bot p q S); exact Hx|].
        rewrite (sm_albedo_s p q S), (sm_wphase p q S), (sm_ncoeffs p q S). exact Hc. }
      refine (der_eq _ _ _ _ _ (der_minus _ _ _ _ _ DG DF)). unfold rte. cbn [Nat.eqb].
      rewrite (sm_scl p q S), (sm_streams p q S), (sm_half p q S), (sm_albedo_s p q S), (sm_ncoeffs p q S), (sm_mu0 p q S), (sm_depth p q S), (sm_albedo p q S), (streams_eq q V), !X_spec_0m.
      rewrite (rsum_ext _ (fun j => wnode (half q) w j * D_spec (albedo_s q l) wg (ncoeffs q) 0 (nth k mu 0) (nth j mu 0) * (G j x - F j x))
        (fun j => wnode (half q) w j * D_spec (albedo_s q l) wg (ncoeffs q) 0 (nth k mu 0) (nth j mu 0) * G j x - wnode (half q) w j * D_spec (albedo_s q l) wg (ncoeffs q) 0 (nth k mu 0) (nth j mu 0) * F j x)) by (intros; ring).
      rewrite rsum_minus. unfold Rdiv. ring.
  - intros k Hk. rewrite (B3 k Hk). replace (half q) with (half p) in * by apply (sm_half p q S). rewrite (A3 k Hk). cbn [Nat.eqb]. pose proof (Hn k Hk). lra.
  - intros k Hk. rewrite (B4 k Hk). replace (F k (bottom q)) with (F k (bottom p)) by (rewrite (sm_bottom p q S); reflexivity). rewrite (A4 k) by (rewrite (sm_half p q S); exact Hk). cbn [Nat.eqb].
    rewrite (sm_BDRF p q S), (sm_half p q S), (sm_mu0 p q S), (sm_depth p q S), (sm_nlayers p q S), (sm_bottom p q S). pose proof (Hp k Hk) as Hpk.
    destruct (Nat.ltb 0 (length (p_BDRF q))) eqn:E0.
    + rewrite (rsum_ext _ (fun j => 2 * (rho (nth k mu 0) (nth j mu 0) * nth j mu 0 * w j) * (G (half q + j)%nat (bottom q) - F (half q + j)%nat (bottom q)))
        (fun j => 2 * (rho (nth k mu 0) (nth j mu 0) * nth j mu 0 * w j * G (half q + j)%nat (bottom q)) - 2 * (rho (nth k mu 0) (nth j mu 0) * nth j mu 0 * w j * F (half q + j)%nat (bottom q)))) by (intros; ring).
      rewrite rsum_minus, !rsum_scal.
      assert (0 <= p_mu0 q * (p_I0 q - p_I0 p) / PI * rho (nth k mu 0) (p_mu0 q) * exp (- depth_s q (nlayers q - 1) (bottom q) / p_mu0 q)).
      { destruct (Rle_lt_or_eq_dec _ _ HI) as [Hlt|E]; [|rewrite E, Rminus_eq_0; unfold Rdiv; rewrite Rmult_0_r, !Rmult_0_l; lra].
        pose proof (v_mu0 q V ltac:(lra)). pose proof PI_RGT_0. apply Rmult_le_pos; [|left; apply exp_pos]. apply Rmult_le_pos; [|apply Pb; auto; lra].
        apply Rmult_le_pos; [apply Rmult_le_pos; lra|left; apply Rinv_0_lt_compat; lra]. }
      set (e := exp _) in *. set (SG := rsum _ (fun i0 => _ * G _ _)) in *. set (SF := rsum _ (fun i0 => _ * F _ _)) in *.
      replace (p_mu0 q * (p_I0 q - p_I0 p) / PI * rho (nth k mu 0) (p_mu0 q) * e) with (p_mu0 q * p_I0 q / PI * rho (nth k mu 0) (p_mu0 q) * e - p_mu0 q * p_I0 p / PI * rho (nth k mu 0) (p_mu0 q) * e) in H by (unfold Rdiv; ring). lra.
    + rewrite rsum_0 by (intros; ring). lra.
  - intros k j Hk Hj. cbv beta. destruct (Nat.ltb 0 (length (p_BDRF q))); [|apply Rle_refl]. destruct Hdg as (_ & H2 & _). destruct (H2 j Hj) as (P1 & _ & P3). pose proof (Pn k j Hk Hj).
    apply Rmult_le_pos; [lra|]. apply Rmult_le_pos; [apply Rmult_le_pos; lra|lra].
  - intros k Hk. specialize (Pa k Hk). unfold reflectance in Pa. destruct (Nat.ltb _ _); [rewrite rsum_scal; exact Pa|]. rewrite rsum_0 by reflexivity. lra.
Qed.

Lemma squeezed_le A B s f g : squeezed A s f -> squeezed B s g -> (forall idx, inb s idx -> f idx <= g idx) -> tle A B.
Proof.
  intros [S1 E1] [S2 E2] H. split; [rewrite S1, S2; reflexivity|]. intros idx Hi. rewrite E1 by exact Hi. rewrite E2 by (rewrite S2; rewrite S1 in Hi; exact Hi).
  unfold tsqueeze. cbn [elt]. apply H. apply inb_unsq. rewrite S1 in Hi. exact Hi.
Qed.
Lemma squeezed_nonneg A s f : squeezed A s f -> (forall idx, inb s idx -> 0 <= f idx) -> nonneg A.
Proof.
  intros [S1 E1] H idx Hi. rewrite E1 by exact Hi. unfold tsqueeze. cbn [elt]. apply H. apply inb_unsq. rewrite S1 in Hi. exact Hi.
Qed.
Lemma same_mu p q lg la la' jk jk' out out' : pydisort p lg la jk = Ok out -> pydisort q lg la' jk' = Ok out' -> p_NQuad p = p_NQuad q -> po_mu out = po_mu out'.
Proof.
  intros H H' E. destruct (pydisort_parts _ _ _ _ _ H) as (_ & _ & _ & _ & _ & _ & _ & -> & _). destruct (pydisort_parts _ _ _ _ _ H') as (_ & _ & _ & _ & _ & _ & _ & -> & _).
  assert (N : e_N p = e_N q) by (unfold e_N; rewrite E; reflexivity). unfold mu_arr, quad_mu, pN. rewrite N. reflexivity.
Qed.
Lemma seen_0 p : valid p -> seen p 0.
Proof. intros V. split; [apply nmodes_pos; exact V|left; reflexivity]. Qed.
Lemma sdepth_le p : valid p -> forall t, 0 <= t <= bottom p -> sdepth p t <= t.
Proof.
  intros V t Ht. pose proof (lay_at p V t Ht) as (Hl & Hlt). unfold sdepth. set (l := lay p t) in *.
  assert (T : forall k, (k <= nlayers p)%nat -> (k <= l)%nat -> rsum k (fun r => scl p r * (bot_of p r - top_of p r)) <= top_of p k).
  { induction k as [|k IH]; intros H1 H2; [cbn; lra|]. rewrite rsum_S. specialize (IH ltac:(lia) ltac:(lia)). pose proof (scl_pos p V k ltac:(lia)). pose proof (v_inc p V k ltac:(lia)).
    change (top_of p (S k)) with (bot_of p k). nra. }
  specialize (T l ltac:(lia) ltac:(lia)). pose proof (scl_pos p V l Hl). unfold depth_s. destruct Hlt as [Hlt|(E & ->)]; [nra|]. rewrite E in *. cbn [top_of] in *. lra.
Qed.

Section Calls.
  Variables (p q : py_in) (lg : leggauss_t) (la la' : linalg) (jk jk' : junk) (out out' : py_out).
  Hypothesis Hla : linalg_ok la.
  Hypothesis Hla' : linalg_ok la'.
  Hypothesis Hlg : leggauss_ok (half p) (lg (half p)).
  Hypothesis Hp : pydisort p lg la jk = Ok out.
  Hypothesis Hq : pydisort q lg la' jk' = Ok out'.
  Hypothesis SM : same_medium p q.
  Variables (w : nat -> R) (vn vp vn' vp' : nat -> R) (rho : nat -> R -> R -> R).
  Hypothesis Hw : double_gauss (half p) (po_mu out) w.
  Hypothesis BD : boundary_data p vn vp rho.
  Hypothesis BD' : boundary_data q vn' vp' rho.
  Hypothesis Hph : phase_nonneg q (po_mu out).
  Hypothesis Hbeam : beam_phase_nonneg q (po_mu out).
  Hypothesis Hsurf : passive_surface q (po_mu out) w (rho 0%nat).
  Hypothesis WK : weaker p q vn vp vn' vp'.

  Lemma call_le_modes U U' : modes_of p out U -> modes_of q out' U' -> forall i t, (i < streams q)%nat -> 0 <= t <= bottom q -> U 0%nat i t <= U' 0%nat i t.
  Proof.
    intros HU HU'. pose proof (call_valid p lg la jk out Hp) as Vp. pose proof (call_valid q lg la' jk' out' Hq) as Vq.
    pose proof (same_mu p q lg la la' jk jk' out out' Hp Hq (sm_NQuad _ _ SM)) as Em.
    assert (Hw' : double_gauss (half q) (po_mu out') w) by (rewrite <- Em, <- (sm_half p q SM); exact Hw).
    assert (Hlg' : leggauss_ok (half q) (lg (half q))) by (rewrite <- (sm_half p q SM); exact Hlg).
    destruct BD as [b1 b2 b3 b4]. destruct BD' as [c1 c2 c3 c4].
    pose proof (call_bvp p lg la jk out Hla Hlg Hp U w vn vp rho HU Hw ltac:(tauto) ltac:(tauto) b1 b2 b3 0%nat (seen_0 p Vp)) as B.
    pose proof (call_bvp q lg la' jk' out' Hla' Hlg' Hq U' w vn' vp' rho HU' Hw' ltac:(tauto) ltac:(tauto) c1 c2 c3 0%nat (seen_0 q Vq)) as B'.
    rewrite <- Em in B', Hw'. destruct WK as [k1 k2 k3 k4].
    exact (bvp_le p q (po_mu out) w vn vp vn' vp' (rho 0%nat) (U 0%nat) (U' 0%nat) Vq Hw' SM Hph Hbeam Hsurf k1 (v_I0 p Vp) k2 k3 k4 B B').
  Qed.

  Theorem call_le : forall tau, depths_ok p tau ->
    (exists A B, po_u0 out tau false false false = Ok (PVal (PT A)) /\ po_u0 out' tau false false false = Ok (PVal (PT B)) /\ tle A B) /\
    (exists A B, po_flux_up out tau false false = Ok (PVal (PT A)) /\ po_flux_up out' tau false false = Ok (PVal (PT B)) /\ tle A B) /\
    (exists A A0 B B0, po_flux_down out tau false false = Ok (PTup [PT A; PT A0]) /\ po_flux_down out' tau false false = Ok (PTup [PT B; PT B0]) /\ tle A B).
  Proof.
    intros tau Ht. pose proof (call_valid p lg la jk out Hp) as Vp. pose proof (call_valid q lg la' jk' out' Hq) as Vq.
    pose proof (same_mu p q lg la la' jk jk' out out' Hp Hq (sm_NQuad _ _ SM)) as Em.
    assert (Hlg' : leggauss_ok (half q) (lg (half q))) by (rewrite <- (sm_half p q SM); exact Hlg).
    destruct (modes_exist p lg la jk out Hla Hlg Hp) as (U & HU). destruct (modes_exist q lg la' jk' out' Hla' Hlg' Hq) as (U' & HU').
    pose proof (call_le_modes U U' HU HU') as HLE.
    assert (Ht' : depths_ok q tau) by (intros t Hin; rewrite <- (sm_bottom p q SM); apply Ht; exact Hin).
    assert (Hin : forall k, (k < length tau)%nat -> 0 <= nth k tau 0 <= bottom q) by (intros k Hk; apply Ht', nth_In; exact Hk).
    destruct (call_fluxes p lg la jk out Hla Hlg Hp U HU) as (w1 & D1 & R1 & R1'). destruct (call_fluxes q lg la' jk' out' Hla' Hlg' Hq U' HU') as (w2 & D2 & R2 & R2').
    pose proof (dg_weights _ _ _ _ D1 Hw) as E1. rewrite <- Em, <- (sm_half p q SM) in D2. pose proof (dg_weights _ _ _ _ D2 Hw) as E2. rewrite <- Em, <- (sm_half p q SM) in R2, R2'.
    assert (Hc : forall i, (i < half p)%nat -> 0 <= w i * nth i (po_mu out) 0).
    { intros i Hi. destruct Hw as (_ & H2 & _). destruct (H2 i Hi) as (P1 & _ & P2). apply Rmult_le_pos; lra. }
    pose proof PI_RGT_0. assert (Hst : streams q = (half p + half p)%nat) by (rewrite (streams_eq q Vq), (sm_half p q SM); lia).
    split; [|split].
    - destruct (proj1 HU tau Ht) as (A & EA & SA). destruct (proj1 HU' tau Ht') as (B & EB & SB). exists A, B. split; [exact EA|]. split; [exact EB|].
      rewrite <- (sm_streams p q SM) in SB. refine (squeezed_le _ _ _ _ _ SA SB _). intros idx Hi. apply inb_2 in Hi as (a & b & -> & Ha & Hb). cbn [nth]. apply HLE; [rewrite <- (sm_streams p q SM); lia|apply Hin; lia].
    - destruct (R1 tau Ht) as (A & EA & SA). destruct (R2 tau Ht') as (B & EB & SB). exists A, B. split; [exact EA|]. split; [exact EB|].
      refine (squeezed_le _ _ _ _ _ SA SB _). intros idx Hi. apply inb_1 in Hi as (a & -> & Ha). cbn [nth]. apply Rmult_le_compat_l; [lra|]. apply rsum_le. intros i Hi'.
      rewrite E1, E2 by auto. apply Rmult_le_compat_l; [auto|]. apply HLE; [lia|apply Hin; lia].
    - destruct (R1' tau Ht) as (A & A0 & EA & SA & _). destruct (R2' tau Ht') as (B & B0 & EB & SB & _). exists A, A0, B, B0. split; [exact EA|]. split; [exact EB|].
      refine (squeezed_le _ _ _ _ _ SA SB _). intros idx Hi. apply inb_1 in Hi as (a & -> & Ha). cbn [nth]. set (t := nth a tau 0). pose proof (Hin a ltac:(lia)) as Hta. fold t in Hta.
      assert (HS : rsum (half p) (fun i => w1 i * nth i (po_mu out) 0 * U 0%nat (half p + i)%nat t) <= rsum (half p) (fun i => w2 i * nth i (po_mu out) 0 * U' 0%nat (half p + i)%nat t)).
      { apply rsum_le. intros i Hi'. rewrite E1, E2 by auto. apply Rmult_le_compat_l; [auto|]. apply HLE; [lia|exact Hta]. }
      assert (HD : 0 <= (p_I0 q - p_I0 p) * (p_mu0 q * (exp (- sdepth q t / p_mu0 q) - exp (- t / p_mu0 q)))).
      { pose proof (wk_I0 _ _ _ _ _ _ WK) as HI. pose proof (v_I0 p Vp). destruct (Rle_lt_or_eq_dec _ _ HI) as [Hlt|Heq]; [|rewrite Heq; lra].
        pose proof (v_mu0 q Vq ltac:(lra)) as Hm. apply Rmult_le_pos; [lra|]. apply Rmult_le_pos; [lra|]. pose proof (sdepth_le q Vq t Hta).
        assert (exp (- t / p_mu0 q) <= exp (- sdepth q t / p_mu0 q)); [|lra].
        destruct (Req_dec (sdepth q t) t) as [->|]; [lra|]. left. apply exp_increasing. apply Rmult_lt_compat_r; [apply Rinv_0_lt_compat; lra|lra]. }
      unfold direct. rewrite (sm_sdepth p q SM), (sm_mu0 p q SM). nra.
  Qed.
End Calls.
