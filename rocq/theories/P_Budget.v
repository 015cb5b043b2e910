(** The energy budget of the atmosphere. *)
From Coq Require Import Classical String Reals Lra Lia List Bool Arith ZArith.
From Coquelicot Require Import Coquelicot.
From Verif Require Import Base Tensor Spec M_LinAlg Spec_RTE Calc M_Subroutines M_GenPart M_MathscrV M_Coeffs M_Assemble M_Pydisort
  Spec_Sol Spec_Valid Spec_Calls Spec_Unique Spec_Phys Spec_Budget P_Special P_Quad P_Sub P_Solve P_Energy P_Valid P_Pydisort P_Pydisort2 P_Pydisort3 P_Pydisort4 P_Pydisort5 P_Pydisort6 P_Pydisort8 P_Teq P_NT3 P_Unique2 P_Refine P_Max P_Max2 P_Max3 P_Max4.
Import ListNotations.
Local Open Scope R_scope.

(** Chaining a monotone function over the layers. *)
Lemma layers_mono p (g : R -> R) : valid p ->
  (forall l t1 t2, (l < nlayers p)%nat -> top_of p l <= t1 -> t1 <= t2 -> t2 <= bot_of p l -> g t1 <= g t2) ->
  forall t1 t2, 0 <= t1 -> t1 <= t2 -> t2 <= bottom p -> g t1 <= g t2.
Proof.
  intros V H.
  assert (G : forall l t1 t2, (l < nlayers p)%nat -> 0 <= t1 -> t1 <= t2 -> t2 <= bot_of p l -> g t1 <= g t2).
  { induction l as [|l IH]; intros t1 t2 Hl H1 H2 H3; [apply (H 0%nat); auto|].
    destruct (Rle_lt_dec (bot_of p l) t1) as [A|A]; [apply (H (S l)); auto|].
    destruct (Rle_lt_dec t2 (bot_of p l)) as [B|B]; [apply IH; auto; lia|].
    apply Rle_trans with (g (bot_of p l)); [apply IH; auto; [lia|lra|lra]|]. apply (H (S l)); auto; [cbn [top_of]; apply Rle_refl|lra]. }
  intros t1 t2 H1 H2 H3. pose proof (v_ne p V) as Hne. apply (G (nlayers p - 1)%nat); auto; [unfold nlayers in *; lia|]. rewrite <- (bottom_eq p). exact H3.
Qed.

Section Call.
  Variables (p : py_in) (lg : leggauss_t) (la : linalg) (jk : junk) (out : py_out).
  Hypothesis Hla : linalg_ok la.
  Hypothesis Hlg : leggauss_ok (half p) (lg (half p)).
  Hypothesis Hok : pydisort p lg la jk = Ok out.
  Let V : valid p := call_valid p lg la jk out Hok.
  Variables (w vn vp : nat -> R) (rho : nat -> R -> R -> R).
  Hypothesis Hw : double_gauss (half p) (po_mu out) w.
  Hypothesis BD : boundary_data p vn vp rho.
  Hypothesis Hph : phase_nonneg p (po_mu out).
  Hypothesis Hsurf : passive_surface p (po_mu out) w (rho 0%nat).
  Hypothesis Hbeam : beam_phase_nonneg p (po_mu out).
  Hypothesis Hs0 : forall l t, (l < nlayers p)%nat -> top_of p l <= t <= bot_of p l -> 0 <= source p l t.
  Hypothesis Hn0 : forall i, (i < half p)%nat -> 0 <= vn i.
  Hypothesis Hp0 : forall i, (i < half p)%nat -> 0 <= vp i.

  Let mu := po_mu out.
  Let N := half p.
  Section Rate.
    Variables (F : nat -> nat -> nat -> R -> R).
    Hypothesis HO : forall m l i wg t, (m < nmodes p)%nat -> (l < nlayers p)%nat -> (i < streams p)%nat ->
      is_cutoff (albedo_s p l) (wphase_s p l) (ncoeffs p) m wg ->
      is_derive (F m l i) t (rte p (po_mu out) w wg m l i t (fun j => F m l j t) / nth i (po_mu out) 0).
    Let net l x := 2 * PI * rsum (2 * N) (fun i => wnode N w i * (nth i mu 0 * F 0%nat l i x)) - p_mu0 p * p_I0 p * exp (- depth_s p l x / p_mu0 p).

    Lemma net_rate l t : (l < nlayers p)%nat -> exists c, 0 <= c <= albedo_s p l /\
      is_derive (net l) t (scl p l * (1 - c) * (2 * PI * rsum (2 * N) (fun i => wnode N w i * F 0%nat l i t) + p_I0 p * exp (- depth_s p l t / p_mu0 p))
        - 4 * PI * ((1 - albedo p l) * source p l t)).
    Proof.
      intros Hl. pose proof Hw as (Hlen & Hn & _ & Hex). pose proof (half_pos p V) as HN. fold N mu in Hlen, Hn, Hex, HN.
      assert (Hneg : forall i, (i < N)%nat -> nth (N + i) mu 0 = - nth i mu 0) by (intros i Hi; apply Hn; auto).
      destruct (cutoff_ex (albedo_s p l) (wphase_s p l) (ncoeffs p) 0) as (wg & Hwg).
      pose proof (v_leg p V) as HL1. pose proof (v_nlq p V) as HL2.
      assert (Hnc : (1 <= ncoeffs p <= 2 * N)%nat).
      { unfold N. rewrite <- (streams_eq p V). unfold ncoeffs, streams. fold (NLegZ p). lia. }
      exists (albedo_s p l * wg 0%nat). split.
      { pose proof (albedo_s_range p V l Hl). destruct (cut_cases p l 0 wg Hwg) as [E|E]; rewrite E; [lra|]. rewrite albedo_norm by auto. lra. }
      assert (Hnu : forall i, (i < 2 * N)%nat -> nth i mu 0 <> 0).
      { intros i Hi. destruct (Nat.lt_ge_cases i N) as [H|H]; [pose proof (Hn i H); lra|].
        destruct (Nat.le_exists_sub N i H) as (j & -> & _). rewrite Nat.add_comm. rewrite Hneg by lia. pose proof (Hn j ltac:(lia)). lra. }
      assert (Hder : is_derive (net l) t (2 * PI * rsum (2 * N) (fun i => wnode N w i * (nth i mu 0 * (rte p mu w wg 0 l i t (fun j => F 0%nat l j t) / nth i mu 0)))
                 - p_mu0 p * p_I0 p * ((- scl p l / p_mu0 p) * exp (- depth_s p l t / p_mu0 p)))).
      { unfold net. apply der_minus.
        - apply der_scal. apply der_sum. intros i Hi. apply der_scal, der_scal. apply (HO 0%nat l i wg t (nmodes_pos p V) Hl); [rewrite (streams_eq p V); exact Hi|exact Hwg].
        - apply der_scal. apply (der_exp (fun x => - depth_s p l x / p_mu0 p)). apply der_div, der_opp, depth_s_der. }
      refine (der_eq _ _ _ _ _ Hder). clear Hder.
      rewrite (rsum_ext (2 * N) _ (fun i => wnode N w i * rte p mu w wg 0 l i t (fun j => F 0%nat l j t))).
      2:{ intros i Hi. field. apply Hnu; auto. }
      unfold rte. cbn [Nat.eqb]. rewrite (streams_eq p V). fold N.
      set (S0 := rsum (2 * N) (fun i => wnode N w i * F 0%nat l i t)). set (e := exp (- depth_s p l t / p_mu0 p)). set (c := albedo_s p l * wg 0%nat).
      assert (ED : rsum (2 * N) (fun i => wnode N w i * rsum (2 * N) (fun j => wnode N w j * D_spec (albedo_s p l) wg (ncoeffs p) 0 (nth i mu 0) (nth j mu 0) * F 0%nat l j t)) = c * S0).
      { rewrite (rsum_ext (2 * N) _ (fun i => rsum (2 * N) (fun j => (wnode N w i * D_spec (albedo_s p l) wg (ncoeffs p) 0 (nth i mu 0) (nth j mu 0)) * (wnode N w j * F 0%nat l j t)))).
        2:{ intros i Hi. rewrite <- rsum_scal. apply rsum_ext. intros j Hj. ring. }
        rewrite rsum_swap. unfold S0. rewrite <- rsum_scal. apply rsum_ext. intros j Hj. rewrite rsum_scal_r.
        rewrite (D_sum N mu w HN Hlen Hneg Hex) by auto. unfold c. ring. }
      assert (EX : rsum (2 * N) (fun i => wnode N w i * (X_spec (p_I0 p / (4 * PI)) (albedo_s p l) wg (ncoeffs p) 0 (p_mu0 p) (nth i mu 0) * e)) = p_I0 p / (2 * PI) * c * e).
      { rewrite (rsum_ext (2 * N) _ (fun i => (wnode N w i * X_spec (p_I0 p / (4 * PI)) (albedo_s p l) wg (ncoeffs p) 0 (p_mu0 p) (nth i mu 0)) * e)) by (intros i Hi; ring).
        rewrite rsum_scal_r, (X_sum N mu w HN Hlen Hneg Hex) by auto. rewrite (Rmult_assoc _ (albedo_s p l) (wg 0%nat)). fold c. pose proof PI_RGT_0. field. lra. }
      rewrite (rsum_ext (2 * N) _ (fun i => scl p l * (wnode N w i * F 0%nat l i t
          - wnode N w i * rsum (2 * N) (fun j => wnode N w j * D_spec (albedo_s p l) wg (ncoeffs p) 0 (nth i mu 0) (nth j mu 0) * F 0%nat l j t)
          - wnode N w i * (X_spec (p_I0 p / (4 * PI)) (albedo_s p l) wg (ncoeffs p) 0 (p_mu0 p) (nth i mu 0) * e))
          - wnode N w i * ((1 - albedo p l) * source p l t))).
      2:{ intros i Hi. unfold e. ring. }
      rewrite rsum_minus, rsum_scal, !rsum_minus, ED, EX, rsum_scal_r. fold S0.
      pose proof (one_sum N mu w HN Hlen Hneg Hex) as E1. change (rsum (2 * N) (wnode N w) = 2) in E1. rewrite E1.
      pose proof PI_RGT_0 as HP.
      assert (Hb : p_mu0 p * p_I0 p * (- scl p l / p_mu0 p * e) = - (scl p l * p_I0 p * e)).
      { pose proof (v_I0 p V) as [H0|H0]; [pose proof (v_mu0 p V H0); field; lra|]. rewrite <- H0. ring. }
      rewrite Hb. field. lra.
    Qed.
  End Rate.

  Theorem call_budget : exists up dn,
    reports p (po_flux_up out) up /\ reports_down p (po_flux_down out) dn (direct p) /\
    dn 0 + direct p 0 = received p mu w vn /\
    (forall S, (forall l t, (l < nlayers p)%nat -> top_of p l <= t <= bot_of p l -> (1 - albedo p l) * source p l t <= S) ->
       forall t1 t2, 0 <= t1 -> t1 <= t2 -> t2 <= bottom p ->
       up t1 - (dn t1 + direct p t1) <= up t2 - (dn t2 + direct p t2) + 4 * PI * S * (t2 - t1)) /\
    (returns_no_more p mu w (rho 0%nat) -> (forall i, (i < N)%nat -> vp i = 0) -> up (bottom p) <= dn (bottom p) + direct p (bottom p)).
  Proof.
    destruct (solution_exists p lg la jk out Hla Hlg Hok) as (w1 & W & F & Hw1 & HW & HF & HO & Htop & Hbot & Hup & Hdn).
    pose proof (dg_weights _ _ _ _ Hw1 Hw) as Ew. pose proof Hw as (Hlen & Hn & _ & Hex). fold N mu in Hlen, Hn, Hex, Ew. pose proof (half_pos p V) as HN. fold N in HN.
    assert (Hneg : forall i, (i < N)%nat -> nth (N + i) mu 0 = - nth i mu 0) by (intros i Hi; apply Hn; auto).
    assert (HO' : forall m l i wg t, (m < nmodes p)%nat -> (l < nlayers p)%nat -> (i < streams p)%nat ->
      is_cutoff (albedo_s p l) (wphase_s p l) (ncoeffs p) m wg ->
      is_derive (F m l i) t (rte p (po_mu out) w wg m l i t (fun j => F m l j t) / nth i (po_mu out) 0)).
    { intros m l i wg t Hm Hl Hi Hc. refine (der_eq _ _ _ _ _ (HO m l i wg t Hm Hl Hi Hc)). f_equal. unfold rte. do 4 f_equal. apply rsum_ext. intros j Hj. f_equal. f_equal.
      rewrite (streams_eq p V) in Hj. fold N in Hj |- *. unfold wnode. destruct (Nat.ltb_spec j N); apply Ew; lia. }
    pose proof (modes_nonneg p lg la jk out Hla Hlg Hok w vn vp rho Hw BD Hph Hsurf W Hbeam Hs0 Hn0 Hp0 HW) as HP. rewrite (streams_eq p V) in HP. fold N in HP.
    pose proof PI_RGT_0 as HPI.
    set (up := fun t => 2 * PI * rsum N (fun i => w i * nth i mu 0 * W 0%nat i t)).
    set (dn := fun t => 2 * PI * rsum N (fun i => w i * nth i mu 0 * W 0%nat (N + i)%nat t) + p_mu0 p * p_I0 p * exp (- sdepth p t / p_mu0 p) - direct p t).
    exists up, dn. split; [|split; [|split; [|split]]].
    - intros tau Ht. destruct (Hup tau Ht) as (A & EA & SA). exists A. split; [exact EA|]. refine (squeezed_ext _ _ _ _ SA _).
      intros idx Hi. unfold up. f_equal. apply rsum_ext. intros i Hi'. rewrite Ew by exact Hi'. reflexivity.
    - intros tau Ht. destruct (Hdn tau Ht) as (A & B & EA & SA & SB & SB'). exists A, B. split; [exact EA|]. split; [|auto].
      refine (squeezed_ext _ _ _ _ (SA (lay p) _) _); [intros t Hin; apply lay_at; auto|].
      intros idx Hi. unfold dn. cbv zeta. f_equal. f_equal. f_equal. apply rsum_ext. intros i Hi'. rewrite Ew by exact Hi'. reflexivity.
    - unfold dn, received. fold N.
      assert (E0 : sdepth p 0 = 0).
      { rewrite (sdepth_closed p V 0 0 (v_ne p V)); [unfold depth_s; cbn [rsum top_of]; ring|]. pose proof (v_inc p V 0%nat (v_ne p V)) as H. change (0 < bot_of p 0) in H. cbn [top_of]. lra. }
      rewrite E0. replace (- 0 / p_mu0 p) with 0 by (unfold Rdiv; ring). rewrite exp_0.
      rewrite (rsum_ext N (fun i => w i * nth i mu 0 * W 0%nat (N + i)%nat 0) (fun i => w i * nth i mu 0 * vn i)); [ring|].
      intros i Hi. f_equal. destruct BD as [b1 b2 b3 b4]. exact (Htop ltac:(tauto) vn b1 0%nat i (nmodes_pos p V) Hi).
    - intros S HS.
      set (net := fun l x => 2 * PI * rsum (2 * N) (fun i => wnode N w i * (nth i mu 0 * F 0%nat l i x)) - p_mu0 p * p_I0 p * exp (- depth_s p l x / p_mu0 p)).
      assert (Hnet : forall l y, (l < nlayers p)%nat -> top_of p l <= y <= bot_of p l -> up y - (dn y + direct p y) = net l y).
      { intros l y Hl Hy. unfold net, up, dn. rewrite (sdepth_closed p V l y Hl Hy). replace (2 * N)%nat with (N + N)%nat by lia. rewrite rsum_split.
        rewrite (rsum_ext N (fun i => wnode N w i * (nth i mu 0 * F 0%nat l i y)) (fun i => w i * nth i mu 0 * W 0%nat i y)).
        2:{ intros i Hi. unfold wnode. rewrite (proj2 (Nat.ltb_lt i N)) by auto. rewrite (HF 0%nat l i y (nmodes_pos p V) Hl); [ring|rewrite (streams_eq p V); fold N; lia|lra]. }
        rewrite (rsum_ext N (fun i => wnode N w (N + i)%nat * (nth (N + i) mu 0 * F 0%nat l (N + i)%nat y)) (fun i => - (w i * nth i mu 0 * W 0%nat (N + i)%nat y))).
        2:{ intros i Hi. unfold wnode. rewrite (proj2 (Nat.ltb_ge (N + i) N)) by lia. rewrite Hneg by auto. replace (N + i - N)%nat with i by lia.
            rewrite (HF 0%nat l (N + i)%nat y (nmodes_pos p V) Hl); [ring|rewrite (streams_eq p V); fold N; lia|lra]. }
        rewrite rsum_opp. ring. }
      intros t1 t2 H1 H2 H3.
      enough (up t1 - (dn t1 + direct p t1) + 4 * PI * S * t1 <= up t2 - (dn t2 + direct p t2) + 4 * PI * S * t2) by lra.
      refine (layers_mono p (fun t => up t - (dn t + direct p t) + 4 * PI * S * t) V _ t1 t2 H1 H2 H3). clear t1 t2 H1 H2 H3.
      intros l t1 t2 Hl H1 H2 H3. cbv beta. rewrite (Hnet l t1), (Hnet l t2) by (auto; lra).
      destruct H2 as [H2|<-]; [|lra].
      assert (HD : forall x, top_of p l <= x <= bot_of p l -> - (4 * PI * S) <= Derive (net l) x).
      { intros x Hx. destruct (net_rate F HO' l x Hl) as (c & Hc & D). change (is_derive (net l) x (scl p l * (1 - c) * (2 * PI * rsum (2 * N) (fun i => wnode N w i * F 0%nat l i x) + p_I0 p * exp (- depth_s p l x / p_mu0 p))
        - 4 * PI * ((1 - albedo p l) * source p l x))) in D. rewrite (is_derive_unique _ _ _ D).
        pose proof (HS l x Hl Hx) as HSx. pose proof (scl_pos p V l Hl) as Hsc. pose proof (albedo_s_range p V l Hl) as Ha.
        assert (0 <= rsum (2 * N) (fun i => wnode N w i * F 0%nat l i x)).
        { apply rsum_nonneg. intros i Hi. apply Rmult_le_pos; [left; apply (wnode_pos p mu w Hw); exact Hi|].
          rewrite <- (HF 0%nat l i x (nmodes_pos p V) Hl); [|rewrite (streams_eq p V); exact Hi|exact Hx].
          apply HP; [exact Hi|]. exact (layer_in_range p lg la jk out Hlg Hok l x Hl Hx). }
        assert (0 <= p_I0 p * exp (- depth_s p l x / p_mu0 p)) by (apply Rmult_le_pos; [apply (v_I0 p V)|left; apply exp_pos]).
        assert (0 <= scl p l * (1 - c) * (2 * PI * rsum (2 * N) (fun i => wnode N w i * F 0%nat l i x) + p_I0 p * exp (- depth_s p l x / p_mu0 p))).
        { apply Rmult_le_pos; [apply Rmult_le_pos; lra|]. apply Rplus_le_le_0_compat; [|assumption]. apply Rmult_le_pos; lra. }
        assert (4 * PI * ((1 - albedo p l) * source p l x) <= 4 * PI * S) by (apply Rmult_le_compat_l; lra). lra. }
      assert (DX : forall x, is_derive (net l) x (Derive (net l) x)).
      { intros x. destruct (net_rate F HO' l x Hl) as (c & Hc & D). apply Derive_correct. eexists. exact D. }
      destruct (MVT_gen (net l) t1 t2 (Derive (net l))) as (c & Hc & E).
      { intros x _. apply DX. }
      { intros x _. apply continuity_pt_filterlim, (ex_derive_continuous (net l)). eexists. apply DX. }
      rewrite Rmin_left, Rmax_right in Hc by lra. pose proof (HD c ltac:(lra)) as Hd.
      assert (- (4 * PI * S) * (t2 - t1) <= Derive (net l) c * (t2 - t1)) by (apply Rmult_le_compat_r; lra). lra.
    - intros HR Hv0. pose proof (v_ne p V) as Hne. set (b := bottom p).
      assert (Hb : top_of p (nlayers p - 1) <= b <= bot_of p (nlayers p - 1)).
      { unfold b. rewrite (bottom_eq p). split; [|lra]. pose proof (v_inc p V (nlayers p - 1)%nat ltac:(unfold nlayers in *; lia)). lra. }
      assert (Hl : (nlayers p - 1 < nlayers p)%nat) by (unfold nlayers in *; lia).
      pose proof (layer_in_range p lg la jk out Hlg Hok _ b Hl Hb) as Hbr.
      destruct BD as [b1 b2 b3 b4]. pose proof (Hbot ltac:(tauto) vp rho b2 b3 0%nat) as HB. clear b1 b2 b3 b4.
      unfold up, dn. rewrite (sdepth_closed p V _ b Hl Hb). set (e := exp (- depth_s p (nlayers p - 1) b / p_mu0 p)).
      assert (He : 0 < e) by apply exp_pos. pose proof (v_I0 p V) as HI.
      assert (HmI : 0 <= p_mu0 p * p_I0 p) by (destruct HI as [HI|<-]; [pose proof (v_mu0 p V HI); apply Rmult_le_pos; lra|lra]).
      assert (Hm : forall i, (i < N)%nat -> 0 <= w i * nth i mu 0) by (intros i Hi; destruct (Hn i Hi) as (P1 & _ & P2); apply Rmult_le_pos; lra).
      assert (Hd : forall i, (i < N)%nat -> 0 <= W 0%nat (N + i)%nat b) by (intros i Hi; apply HP; [lia|exact Hbr]).
      unfold Rminus. rewrite Rplus_assoc, Rplus_opp_l, Rplus_0_r.
      assert (EB : forall i, (i < N)%nat -> W 0%nat i b = if Nat.ltb 0 (length (p_BDRF p)) then
         2 * rsum N (fun j => rho 0%nat (nth i mu 0) (nth j mu 0) * nth j mu 0 * w j * W 0%nat (N + j)%nat b) + p_mu0 p * p_I0 p / PI * rho 0%nat (nth i mu 0) (p_mu0 p) * e else 0).
      { intros i Hi. unfold b. rewrite (HB i (nmodes_pos p V) Hi). cbn [Nat.eqb]. rewrite (Hv0 i Hi), Rplus_0_l. fold b e N mu. destruct (Nat.ltb 0 (length (p_BDRF p))); [|reflexivity].
        f_equal. f_equal. apply rsum_ext. intros j Hj. rewrite Ew by exact Hj. reflexivity. }
      rewrite (rsum_ext N _ _ (fun i Hi => f_equal (Rmult (w i * nth i mu 0)) (EB i Hi))). destruct HR as [HR1 HR2]. unfold returned in HR1, HR2. fold N in HR1, HR2.
      destruct (Nat.ltb 0 (length (p_BDRF p))).
      + rewrite (rsum_ext N _ (fun i => rsum N (fun j => (w j * nth j mu 0 * W 0%nat (N + j)%nat b) * (2 * (w i * nth i mu 0 * rho 0%nat (nth i mu 0) (nth j mu 0))))
             + p_mu0 p * p_I0 p * e / (2 * PI) * (2 * (w i * nth i mu 0 * rho 0%nat (nth i mu 0) (p_mu0 p))))).
        2:{ intros i Hi. rewrite Rmult_plus_distr_l. f_equal; [|field; lra]. rewrite <- !rsum_scal. apply rsum_ext. intros j Hj. ring. }
        rewrite rsum_plus, rsum_swap, rsum_scal, (rsum_scal N 2).
        rewrite (rsum_ext N _ (fun j => (w j * nth j mu 0 * W 0%nat (N + j)%nat b) * (2 * rsum N (fun i => w i * nth i mu 0 * rho 0%nat (nth i mu 0) (nth j mu 0))))).
        2:{ intros j Hj. rewrite rsum_scal, rsum_scal. reflexivity. }
        rewrite Rmult_plus_distr_l. apply Rplus_le_compat.
        * apply Rmult_le_compat_l; [lra|]. apply rsum_le. intros j Hj. rewrite <- (Rmult_1_r (w j * nth j mu 0 * W 0%nat (N + j)%nat b)) at 2. apply Rmult_le_compat_l; [|apply HR1; exact Hj].
          apply Rmult_le_pos; auto.
        * set (r := 2 * rsum N _) in *. destruct HI as [HI|HI].
          -- specialize (HR2 HI). replace (2 * PI * (p_mu0 p * p_I0 p * e / (2 * PI) * r)) with (p_mu0 p * p_I0 p * e * r) by (field; lra).
             rewrite <- (Rmult_1_r (p_mu0 p * p_I0 p * e)) at 2. apply Rmult_le_compat_l; [|exact HR2]. apply Rmult_le_pos; lra.
          -- rewrite <- HI. unfold Rdiv. lra.
      + rewrite rsum_0 by (intros; ring). rewrite Rmult_0_r. apply Rplus_le_le_0_compat; [|apply Rmult_le_pos; lra].
        apply Rmult_le_pos; [lra|]. apply rsum_nonneg. intros i Hi. apply Rmult_le_pos; auto.
  Qed.

  (** Without emission the atmosphere and the surface send back at most what enters at the top. *)
  Theorem call_returns : (forall l t, (l < nlayers p)%nat -> top_of p l <= t <= bot_of p l -> source p l t = 0) ->
    (forall i, (i < N)%nat -> vp i = 0) -> returns_no_more p mu w (rho 0%nat) ->
    exists up dn, reports p (po_flux_up out) up /\ reports_down p (po_flux_down out) dn (direct p) /\
      0 <= dn (bottom p) + direct p (bottom p) - up (bottom p) <= received p mu w vn - up 0.
  Proof.
    intros HS Hv HR. destruct call_budget as (up & dn & H1 & H2 & H3 & H4 & H5). exists up, dn. split; [exact H1|]. split; [exact H2|].
    pose proof (H5 HR Hv). rewrite <- H3.
    assert (HB : 0 <= bottom p).
    { pose proof (v_ne p V). rewrite (bottom_eq p). apply (layer_in_range p lg la jk out Hlg Hok (nlayers p - 1)%nat (bot_of p (nlayers p - 1))); [unfold nlayers in *; lia|].
      pose proof (v_inc p V (nlayers p - 1)%nat ltac:(unfold nlayers in *; lia)). lra. }
    pose proof (H4 0 ltac:(intros l t Hl Ht; rewrite HS by auto; lra) 0 (bottom p) ltac:(lra) HB ltac:(lra)). lra.
  Qed.
End Call.
