(** The solution that keeps all scattering exists for every accepted atmosphere with non-negative scattering and a
    passive surface: it is the limit of successive orders of scattering. *)
From Coq Require Import Classical String Reals Lra Lia List Bool Arith ZArith.
From Coquelicot Require Import Coquelicot.
From Verif Require Import Base Tensor Spec M_LinAlg Spec_RTE Calc M_Subroutines M_GenPart M_MathscrV M_Coeffs M_Assemble M_Pydisort
  Spec_Sol Spec_Valid Spec_Calls Spec_Unique Spec_Phys Spec_Mono Spec_Depend Spec_Exact P_Special P_Addition P_Quad P_Fourier P_Sub P_Solve P_Energy P_Pydisort P_Pydisort2 P_Pydisort3 P_Pydisort4 P_Pydisort5 P_Pydisort6 P_Pydisort8 P_Teq P_NT P_NT3 P_Unique2 P_Refine P_Max P_Max2 P_Max3 P_Max4 P_Mono P_Sym P_Depend P_Depend2 P_Gauss P_Conv P_Conv2 P_Conv3 P_Exist P_Exist2 P_Exist3 P_Full2 P_Exist4 P_Exist5 P_Exist6 P_Exist7 Spec_Cutoff P_Cutoff2 P_Cutoff3 P_Cutoff4.
Import ListNotations.
Local Open Scope R_scope.

Section Orders.
  Variables (p : py_in) (Vp : valid p) (mu : list R) (w vn vp : nat -> R) (rho : R -> R -> R).
  Hypothesis Hdg : double_gauss (half p) mu w.
  Hypothesis Hph : phase_nonneg p mu.
  Hypothesis Hsurf : passive_surface p mu w rho.
  Notation N := (half p).
  Notation T := (bottom p).
  Notation NL := (nlayers p).
  Let Dk (l i j : nat) : R := D_spec (albedo_s p l) (wphase_s p l) (ncoeffs p) 0 (nth i mu 0) (nth j mu 0).
  Definition osrc (V : nat -> R -> R) (i l : nat) (t : R) : R :=
    scl p l * rsum (2 * N) (fun j => wnode N w j * Dk l i j * V j t)
    + scl p l * X_spec (p_I0 p / (4 * PI)) (albedo_s p l) (wphase_s p l) (ncoeffs p) 0 (p_mu0 p) (nth i mu 0) * exp (- depth_s p l t / p_mu0 p)
    + (1 - albedo p l) * source p l t.
  Definition odown (V : nat -> R -> R) (i : nat) (t : R) : R := along p (nth i mu 0) (osrc V i) (vn (i - N)%nat) t.
  Definition obot (V : nat -> R -> R) (i : nat) : R := vp i +
    (if Nat.ltb 0 (length (p_BDRF p)) then
       2 * rsum N (fun j => rho (nth i mu 0) (nth j mu 0) * nth j mu 0 * w j * odown V (N + j)%nat T)
       + p_mu0 p * p_I0 p / PI * rho (nth i mu 0) (p_mu0 p) * exp (- depth_s p (NL - 1) T / p_mu0 p)
     else 0).
  Definition ostep (V : nat -> R -> R) (i : nat) (t : R) : R :=
    if Nat.ltb i N then along p (nth i mu 0) (osrc V i) (obot V i) t else odown V i t.

  Definition fieldc (V : nat -> R -> R) : Prop := forall i, (i < 2 * N)%nat -> cont_on 0 T (V i).

  Lemma up_dir i : (i < N)%nat -> direction (nth i mu 0) /\ 0 < nth i mu 0.
  Proof. intros Hi. destruct Hdg as (_ & H2 & _). destruct (H2 i Hi) as (P1 & _). split; [split; lra|lra]. Qed.
  Lemma down_dir i : (N <= i < 2 * N)%nat -> direction (nth i mu 0) /\ nth i mu 0 < 0.
  Proof.
    intros Hi. destruct Hdg as (_ & H2 & _). destruct (H2 (i - N)%nat ltac:(lia)) as (P1 & P2 & _). replace (N + (i - N))%nat with i in P2 by lia. rewrite P2. split; [split; lra|lra].
  Qed.
  Lemma any_dir i : (i < 2 * N)%nat -> direction (nth i mu 0).
  Proof. intros Hi. destruct (Nat.lt_ge_cases i N); [apply up_dir; auto|apply down_dir; lia]. Qed.
  Lemma entry_up i : (i < N)%nat -> entry p (nth i mu 0) = T.
  Proof. intros Hi. destruct (up_dir i Hi) as [_ H]. unfold entry. destruct (Rlt_dec 0 (nth i mu 0)); [reflexivity|lra]. Qed.
  Lemma entry_down i : (N <= i < 2 * N)%nat -> entry p (nth i mu 0) = 0.
  Proof. intros Hi. destruct (down_dir i Hi) as [_ H]. unfold entry. destruct (Rlt_dec 0 (nth i mu 0)); [lra|reflexivity]. Qed.

  Lemma osrc_cont V i l : fieldc V -> (l < NL)%nat -> cont_on (top_of p l) (bot_of p l) (osrc V i l).
  Proof.
    intros HV Hl. destruct (layer_in p Vp l Hl) as [L1 L2]. unfold osrc. apply cont_on_plus; [apply cont_on_plus|apply cont_on_scal].
    - apply cont_on_scal. apply cont_on_sum. intros j Hj. apply cont_on_scal. apply (cont_on_sub 0 T); [exact L1|exact L2|apply HV; exact Hj].
    - apply cont_on_scal. apply cont_on_derive. intros t _. exists (- scl p l / p_mu0 p * exp (- depth_s p l t / p_mu0 p)). exact (der_exp (fun u => - depth_s p l u / p_mu0 p) t _ (der_div (fun u => - depth_s p l u) (p_mu0 p) t (- scl p l) (der_opp _ _ _ (depth_der p l t)))).
    - unfold source. destruct (Nat.ltb l (nrow (p_s p))); [|apply cont_on_const]. apply cont_on_sum. intros j _. apply cont_on_scal. apply cont_on_derive. intros t _. eexists. apply der_pow.
  Qed.
  Lemma odown_cont V i : fieldc V -> cont_on 0 T (odown V i).
  Proof. intros HV. apply along_cont; [exact Vp|]. intros l Hl. apply osrc_cont; auto. Qed.
  Lemma ostep_cont V : fieldc V -> fieldc (ostep V).
  Proof.
    intros HV i Hi. unfold ostep. destruct (Nat.ltb i N); [|apply odown_cont; exact HV]. apply along_cont; [exact Vp|]. intros l Hl. apply osrc_cont; auto.
  Qed.
  Lemma ostep_der V l i t : fieldc V -> (l < NL)%nat -> (i < 2 * N)%nat -> top_of p l < t < bot_of p l -> is_derive (ostep V i) t ((scl p l * ostep V i t - osrc V i l t) / nth i mu 0).
  Proof.
    intros HV Hl Hi Ht. pose proof (any_dir i Hi) as Hd. unfold ostep, odown. destruct (Nat.ltb i N); apply along_der; auto; intros k Hk; apply osrc_cont; auto.
  Qed.

  Variable kap : R.
  Hypothesis Hkap : forall l, (l < NL)%nat -> albedo_s p l <= kap.
  Hypothesis Hk0 : 0 <= kap < 1.

  Lemma osrc_near V V' m i l t : (l < NL)%nat -> (i < 2 * N)%nat -> 0 <= m -> (forall j, (j < 2 * N)%nat -> Rabs (V j t - V' j t) <= m) ->
    Rabs (osrc V i l t - osrc V' i l t) <= scl p l * (kap * m).
  Proof.
    intros Hl Hi Hm HD. pose proof (scl_pos p Vp l Hl) as Hs. unfold osrc. match goal with |- Rabs (?s * ?a + ?b + ?c - (?s * ?a' + ?b + ?c)) <= _ => replace (s * a + b + c - (s * a' + b + c)) with (s * (a - a')) by ring end.
    rewrite Rabs_mult, (Rabs_pos_eq (scl p l)) by lra. apply Rmult_le_compat_l; [lra|]. rewrite <- rsum_minus. eapply Rle_trans; [apply rsum_abs|].
    apply Rle_trans with (rsum (2 * N) (fun j => wnode N w j * Dk l i j * m)).
    - apply rsum_le. intros j Hj. rewrite <- Rmult_minus_distr_l, Rabs_mult. assert (0 <= wnode N w j * Dk l i j).
      { apply Rmult_le_pos; [apply Rlt_le, (wnode_pos p mu w Hdg); auto|]. unfold Dk. rewrite D_spec_mode. pose proof (albedo_s_range p Vp l Hl). apply Rmult_le_pos; [lra|]. apply Hph; auto; rewrite (streams_eq p Vp); auto. }
      rewrite Rabs_pos_eq by auto. apply Rmult_le_compat_l; auto.
    - rewrite rsum_scal_r. unfold Dk. rewrite (D_row_full p Vp mu w Hdg l i Hl). apply Rmult_le_compat_r; auto.
  Qed.
  Lemma odown_near V V' m : fieldc V -> fieldc V' -> 0 <= m -> (forall j t, (j < 2 * N)%nat -> 0 <= t <= T -> Rabs (V j t - V' j t) <= m) ->
    forall i t, (N <= i < 2 * N)%nat -> 0 <= t <= T -> Rabs (odown V i t - odown V' i t) <= kap * m.
  Proof.
    intros HV HV' Hm HD i t Hi Ht. destruct (down_dir i Hi) as [Hd _]. assert (0 <= kap * m) by (apply Rmult_le_pos; lra). replace (odown V i t - odown V' i t) with (odown V i t + (-1) * odown V' i t) by ring.
    refine (ode_bound p Vp (nth i mu 0) (fun u => odown V i u + (-1) * odown V' i u) (fun l u => osrc V i l u - osrc V' i l u) (kap * m) Hd _ _ _ _ t Ht).
    - apply cont_on_plus; [apply odown_cont; auto|apply cont_on_scal, odown_cont; auto].
    - intros l u Hl Hu. refine (der_eq _ _ _ _ _ (der_plus _ _ _ _ _ (along_der p Vp _ _ _ Hd (fun k Hk => osrc_cont V i k HV Hk) l u Hl Hu) (der_scal _ (-1) _ _ (along_der p Vp _ _ _ Hd (fun k Hk => osrc_cont V' i k HV' Hk) l u Hl Hu)))). unfold odown. field. apply Hd.
    - intros l u Hl Hu. apply osrc_near; auto; [lia|]. intros j Hj. apply HD; [exact Hj|]. apply (P_Conv2.in_bottom p Vp l u Hl). lra.
    - unfold odown. rewrite !along_entry by exact Hd. match goal with |- Rabs ?x <= _ => replace x with 0 by ring end. rewrite Rabs_R0. auto.
  Qed.
  Lemma ostep_near V V' m : fieldc V -> fieldc V' -> 0 <= m -> (forall j t, (j < 2 * N)%nat -> 0 <= t <= T -> Rabs (V j t - V' j t) <= m) ->
    forall i t, (i < 2 * N)%nat -> 0 <= t <= T -> Rabs (ostep V i t - ostep V' i t) <= kap * m.
  Proof.
    intros HV HV' Hm HD i t Hi Ht. pose proof (any_dir i Hi) as Hd. assert (Hkm : 0 <= kap * m) by (apply Rmult_le_pos; lra). pose proof (bottom_pos p Vp) as HT.
    replace (ostep V i t - ostep V' i t) with (ostep V i t + (-1) * ostep V' i t) by ring.
    refine (ode_bound p Vp (nth i mu 0) (fun u => ostep V i u + (-1) * ostep V' i u) (fun l u => osrc V i l u - osrc V' i l u) (kap * m) Hd _ _ _ _ t Ht).
    - apply cont_on_plus; [apply ostep_cont; auto|apply cont_on_scal, ostep_cont; auto].
    - intros l u Hl Hu. refine (der_eq _ _ _ _ _ (der_plus _ _ _ _ _ (ostep_der V l i u HV Hl Hi Hu) (der_scal _ (-1) _ _ (ostep_der V' l i u HV' Hl Hi Hu)))). field. apply Hd.
    - intros l u Hl Hu. apply osrc_near; auto. intros j Hj. apply HD; [exact Hj|]. apply (P_Conv2.in_bottom p Vp l u Hl). lra.
    - unfold ostep. destruct (Nat.ltb_spec i N) as [HiN|HiN].
      + rewrite !along_entry by exact Hd. unfold obot. pose proof (ps_albedo _ _ _ _ Hsurf i HiN) as Pa. unfold reflectance in Pa. destruct (Nat.ltb 0 (length (p_BDRF p))).
        2: { match goal with |- Rabs ?x <= _ => replace x with 0 by ring end. rewrite Rabs_R0. auto. }
        match goal with |- Rabs (?a + (2 * ?b + ?c) + (-1) * (?a + (2 * ?b' + ?c))) <= _ => replace (a + (2 * b + c) + (-1) * (a + (2 * b' + c))) with (2 * (b - b')) by ring end.
        rewrite <- rsum_minus, Rabs_mult, (Rabs_pos_eq 2) by lra.
        apply Rle_trans with (2 * (rsum N (fun j => rho (nth i mu 0) (nth j mu 0) * nth j mu 0 * w j) * (kap * m))).
        * apply Rmult_le_compat_l; [lra|]. eapply Rle_trans; [apply rsum_abs|]. rewrite <- rsum_scal_r. apply rsum_le. intros j Hj.
          rewrite <- Rmult_minus_distr_l, Rabs_mult. destruct Hdg as (_ & H2 & _). destruct (H2 j Hj) as (P1 & _ & P3). pose proof (ps_nonneg _ _ _ _ Hsurf i j HiN Hj) as P4.
          assert (0 <= rho (nth i mu 0) (nth j mu 0) * nth j mu 0 * w j) by (apply Rmult_le_pos; [apply Rmult_le_pos; lra|lra]). rewrite Rabs_pos_eq by auto.
          apply Rmult_le_compat_l; [auto|]. apply odown_near; auto; [lia|lra].
        * rewrite <- Rmult_assoc. apply Rle_trans with (1 * (kap * m)); [apply Rmult_le_compat_r; auto|lra].
      + unfold odown. rewrite !along_entry by exact Hd. match goal with |- Rabs ?x <= _ => replace x with 0 by ring end. rewrite Rabs_R0. auto.
  Qed.

  Theorem orders_converge : exists V, keeps_all p mu w vn vp rho V.
  Proof.
    pose proof (bottom_pos p Vp) as HT. set (it := fix it n := match n with O => fun (_ : nat) (_ : R) => 0 | Datatypes.S k => ostep (it k) end).
    assert (IC : forall n, fieldc (it n)) by (induction n as [|n IH]; [intros i _; apply cont_on_const|cbn [it]; apply ostep_cont; exact IH]).
    assert (HB : exists B, 0 <= B /\ forall i t, (i < 2 * N)%nat -> 0 <= t <= T -> Rabs (it 1%nat i t) <= B).
    { pose proof (IC 1%nat) as C. revert C. unfold fieldc. generalize (it 1%nat). generalize (2 * N)%nat. intros n F C. induction n as [|n IH]; [exists 0; split; [lra|intros; lia]|].
      destruct IH as (B & HB0 & HB1); [intros; apply C; lia|]. destruct (cont_bounded 0 T (F n) ltac:(lra) (C n ltac:(lia))) as (B' & HB0' & HB1'). exists (B + B'). split; [lra|].
      intros i t Hi Ht. destruct (Nat.eq_dec i n) as [->|]; [pose proof (HB1' t Ht); lra|pose proof (HB1 i t ltac:(lia) Ht); lra]. }
    destruct HB as (B & HB0 & HB1). set (C := B / (1 - kap)). assert (HC : 0 <= C) by (apply Rmult_le_pos; [lra|apply Rlt_le, Rinv_0_lt_compat; lra]). assert (EC : kap * C + B = C) by (unfold C; field; lra).
    assert (D1 : forall n i t, (i < 2 * N)%nat -> 0 <= t <= T -> Rabs (it (S n) i t - it n i t) <= kap ^ n * B).
    { induction n as [|n IH]; intros i t Hi Ht.
      - cbn [pow]. change (it 0%nat i t) with 0. rewrite Rminus_0_r. pose proof (HB1 i t Hi Ht). lra.
      - cbn [pow]. rewrite Rmult_assoc. apply (ostep_near (it (S n)) (it n)); auto. apply Rmult_le_pos; [apply pow_le|]; lra. }
    assert (D : forall k n i t, (i < 2 * N)%nat -> 0 <= t <= T -> Rabs (it (n + k)%nat i t - it n i t) <= kap ^ n * C).
    { induction k as [|k IH]; intros n i t Hi Ht.
      - rewrite Nat.add_0_r, Rminus_eq_0, Rabs_R0. apply Rmult_le_pos; [apply pow_le|]; lra.
      - replace (n + S k)%nat with (S n + k)%nat by lia. pose proof (IH (S n) i t Hi Ht) as A1. pose proof (D1 n i t Hi Ht) as A2. cbn [pow] in A1.
        replace (kap ^ n * C) with (kap * kap ^ n * C + kap ^ n * B) by (rewrite <- EC at 2; ring). replace (it (S n + k)%nat i t - it n i t) with ((it (S n + k)%nat i t - it (S n) i t) + (it (S n) i t - it n i t)) by ring.
        eapply Rle_trans; [apply Rabs_triang|]. lra. }
    set (J := fun i t => real (Lim_seq (fun n => it n i t))).
    assert (Lim : forall i t, (i < 2 * N)%nat -> 0 <= t <= T -> is_lim_seq (fun n => it n i t) (J i t)).
    { intros i t Hi Ht. apply Lim_seq_correct'. apply ex_lim_seq_cauchy_corr. intros eps. destruct (pow_small kap C (eps / 2) Hk0 HC ltac:(pose proof (cond_pos eps); lra)) as (M & HM). exists M. intros n m Hn Hm. specialize (HM M (Nat.le_refl M)).
      pose proof (D (n - M)%nat M i t Hi Ht) as A. pose proof (D (m - M)%nat M i t Hi Ht) as A'. replace (M + (n - M))%nat with n in A by lia. replace (M + (m - M))%nat with m in A' by lia. apply Rabs_le_between in A. apply Rabs_le_between in A'. apply Rabs_def1; lra. }
    assert (Near : forall n i t, (i < 2 * N)%nat -> 0 <= t <= T -> Rabs (J i t - it n i t) <= kap ^ n * C).
    { intros n i t Hi Ht. apply le_epsilon. intros e He. pose proof (Lim i t Hi Ht) as L. apply is_lim_seq_spec in L. destruct (L (mkposreal e He)) as (M & HM). cbn [pos] in HM. specialize (HM (n + M)%nat ltac:(lia)). pose proof (D M n i t Hi Ht) as A.
      replace (J i t - it n i t) with (- (it (n + M)%nat i t - J i t) + (it (n + M)%nat i t - it n i t)) by ring. eapply Rle_trans; [apply Rabs_triang|]. rewrite Rabs_Ropp. lra. }
    assert (JC : fieldc J).
    { intros i Hi y Hy e He. destruct (pow_small kap C (e / 3) Hk0 HC ltac:(lra)) as (n & Hn). specialize (Hn n (Nat.le_refl n)). destruct (IC n i Hi y Hy (e / 3) ltac:(lra)) as (dl & Hdl & H). exists dl. split; [exact Hdl|]. intros y' Hy' Hyy. specialize (H y' Hy' Hyy).
      pose proof (Near n i y Hi Hy) as A. pose proof (Near n i y' Hi Hy') as A'. apply Rabs_le_between in A. apply Rabs_le_between in A'. apply Rabs_def2 in H. apply Rabs_def1; lra. }
    assert (EQ : forall i t, (i < 2 * N)%nat -> 0 <= t <= T -> ostep J i t = J i t).
    { intros i t Hi Ht. destruct (Req_dec (ostep J i t) (J i t)) as [|Hne]; [assumption|exfalso]. assert (He : 0 < Rabs (ostep J i t - J i t)) by (apply Rabs_pos_lt; lra). destruct (pow_small kap (2 * C) _ Hk0 ltac:(lra) He) as (M & HM). specialize (HM (S M) ltac:(lia)).
      pose proof (ostep_near J (it M) (kap ^ M * C) JC (IC M) ltac:(apply Rmult_le_pos; [apply pow_le|]; lra) (Near M) i t Hi Ht) as A. pose proof (Near (S M) i t Hi Ht) as A'. change (it (S M) i t) with (ostep (it M) i t) in A'.
      pose proof (Rabs_triang (ostep J i t - ostep (it M) i t) (- (J i t - ostep (it M) i t))) as X. rewrite Rabs_Ropp in X. replace (ostep J i t - ostep (it M) i t + - (J i t - ostep (it M) i t)) with (ostep J i t - J i t) in X by ring. cbn [pow] in *. lra. }
    pose proof (streams_eq p Vp) as Es. pose proof (half_pos p Vp) as Hh.
    exists (ostep J). split.
    - intros l i t Hl Hi Ht. rewrite Es in Hi. refine (der_eq _ _ _ _ _ (ostep_der J l i t JC Hl Hi Ht)). f_equal. assert (Ht' : 0 <= t <= T) by (apply (P_Conv2.in_bottom p Vp l t Hl); lra).
      unfold rte, osrc. cbn [Nat.eqb]. rewrite Es. rewrite (rsum_ext _ (fun j => wnode N w j * Dk l i j * J j t) (fun j => wnode N w j * Dk l i j * ostep J j t)) by (intros j Hj; rewrite EQ by auto; reflexivity). unfold Dk. ring.
    - intros i Hi. rewrite Es in Hi. apply ostep_cont; auto.
    - intros i Hi. unfold ostep. destruct (Nat.ltb_spec (N + i) N); [lia|]. rewrite <- (entry_down (N + i)) at 1 by lia. unfold odown. rewrite along_entry by (apply any_dir; lia). f_equal. lia.
    - intros i Hi. unfold ostep at 1. destruct (Nat.ltb_spec i N); [|lia]. rewrite <- (entry_up i Hi) at 1. rewrite along_entry by (apply any_dir; lia). unfold obot. destruct (Nat.ltb 0 (length (p_BDRF p))); [|reflexivity].
      f_equal. f_equal. f_equal. apply rsum_ext. intros j Hj. unfold ostep. destruct (Nat.ltb_spec (N + j) N); [lia|]. reflexivity.
  Qed.
End Orders.

Theorem kept_exists : forall p mu w vn vp rho, valid p -> double_gauss (half p) mu w -> phase_nonneg p mu -> passive_surface p mu w rho ->
  exists V, keeps_all p mu w vn vp rho V.
Proof.
  intros p mu w vn vp rho Vp Hdg Hph Hs. destruct (pos_lower (nlayers p) (fun l => 1 - albedo_s p l)) as (nu & Hn & H). { intros l Hl. pose proof (albedo_s_range p Vp l Hl). lra. }
  assert (Hn1 : nu <= 1). { pose proof (v_ne p Vp). pose proof (H 0%nat ltac:(lia)) as A. cbv beta in A. pose proof (albedo_s_range p Vp 0 ltac:(lia)). lra. }
  apply (orders_converge p Vp mu w vn vp rho Hdg Hph Hs (1 - nu)); [|lra]. intros l Hl. pose proof (H l Hl) as A. cbv beta in A. lra.
Qed.

(** Everything about the error in terms of what is reported. *)
Theorem kept_all_in_all : forall p lg la jk out, linalg_ok la -> leggauss_ok (half p) (lg (half p)) -> pydisort p lg la jk = Ok out ->
  forall w vn vp rho, double_gauss (half p) (po_mu out) w -> boundary_data p vn vp rho -> (forall l, (l < nlayers p)%nat -> fwd p l < 1) ->
  phase_nonneg p (po_mu out) -> passive_surface p (po_mu out) w (rho 0%nat) ->
  forall M J, (forall t, 0 <= t <= bottom p -> exists A, po_u0 out [t] false false false = Ok (PVal (PT A)) /\ forall i, (i < streams p)%nat -> Rabs (elt A [i]) <= M) ->
  0 <= J -> (forall l, (l < nlayers p)%nat -> 2 * (INR (ncoeffs p) / 100000000) * (M + p_I0 p / (4 * PI)) <= (1 - albedo p l) * J) ->
  exists V, keeps_all p (po_mu out) w vn vp (rho 0%nat) V /\
  (forall W, keeps_all p (po_mu out) w vn vp (rho 0%nat) W -> forall i t, (i < streams p)%nat -> 0 <= t <= bottom p -> W i t = V i t) /\
  (forall t, 0 <= t <= bottom p -> exists A, po_u0 out [t] false false false = Ok (PVal (PT A)) /\ shp A = [streams p] /\ forall i, (i < streams p)%nat -> Rabs (V i t - elt A [i]) <= J) /\
  (forall tau, depths_ok p tau ->
  (exists A, po_flux_up out tau false false = Ok (PVal (PT A)) /\ twithin (PI * J) A (tsqueeze (mkT [length tau] (fun idx =>
     2 * PI * rsum (half p) (fun i => w i * nth i (po_mu out) 0 * V i (nth (nth 0 idx 0%nat) tau 0)))))) /\
  (exists A B, po_flux_down out tau false false = Ok (PTup [PT A; PT B]) /\ twithin (PI * J) A (tsqueeze (mkT [length tau] (fun idx => let t := nth (nth 0 idx 0%nat) tau 0 in
     2 * PI * rsum (half p) (fun i => w i * nth i (po_mu out) 0 * V (half p + i)%nat t) + p_mu0 p * p_I0 p * exp (- sdepth p t / p_mu0 p) - direct p t))))).
Proof.
  intros p lg la jk out Hla Hlg Hp w vn vp rho Hw BD Fp Hph Hs M J HM HJ0 HJ. pose proof (call_valid p lg la jk out Hp) as Vp.
  destruct (kept_exists p (po_mu out) w vn vp (rho 0%nat) Vp Hw Hph Hs) as (V & KA). exists V. split; [exact KA|]. split.
  { intros W KW. exact (kept_unique p (po_mu out) w vn vp (rho 0%nat) W V Vp Hw Hph Hs KW KA). }
  split; [exact (near_reported p lg la jk out Hla Hlg Hp w vn vp rho Hw BD Fp Hph Hs M J HM HJ0 HJ V KA)|].
  destruct (modes_exist p lg la jk out Hla Hlg Hp) as (U & HU).
  exact (fluxes_near p lg la jk out Hla Hlg Hp w Hw V J U HU (reported_near p lg la jk out Hla Hlg Hp w vn vp rho Hw BD Fp Hph Hs M J HM HJ0 HJ V KA U HU)).
Qed.
