(** Orthogonality of the associated Legendre functions, and of their values at the nodes of the
    double-Gauss rule. *)
From Coq Require Import String Reals Lra Lia List Bool Arith ZArith.
From Coquelicot Require Import Coquelicot.
From Verif Require Import Base Spec Calc M_LinAlg M_Pydisort Spec_RTE Spec_Sol P_Quad P_Special P_Addition P_Gauss P_Solve P_Energy.
Import ListNotations.
Local Open Scope R_scope.

(** The differential equation of the derivatives. *)
Lemma dl_ode_m m k x : (1 - x ^ 2) * dl (S (S m)) k x = 2 * (INR m + 1) * x * dl (S m) k x - (INR k - INR m) * (INR k + INR m + 1) * dl m k x.
Proof.
  destruct k as [|n].
  - rewrite !(dl_high (S _) 0) by lia. destruct m as [|m]; [cbn [INR]; ring|]. rewrite dl_high by lia. ring.
  - destruct (dl_AB (S m) n x) as (A1 & B1). destruct (dl_AB m n x) as (_ & B0). rewrite !S_INR in *.
    assert (E : (1 - x ^ 2) * dl (S (S m)) (S n) x = - x * (INR n + 1 - (INR m + 1)) * dl (S m) (S n) x + (INR n + (INR m + 1) + 1) * dl (S m) n x).
    { rewrite B1 in A1. set (q := dl (S (S m)) (S n) x) in *. nra. }
    rewrite E, B0. ring.
Qed.

Definition wt (m : nat) (x : R) : R := (1 - x ^ 2) ^ m.
Lemma wt_pol m : pol (S (2 * m)) (wt m).
Proof.
  induction m as [|m IH].
  - apply (pol_ext _ (fun _ => 1)); [intros x; unfold wt; cbn; ring|apply pol_const; lia].
  - apply (pol_ext _ (fun x => wt m x - x * (x * wt m x))); [intros x; unfold wt; cbn; ring|]. replace (S (2 * S m)) with (S (S (S (2 * m)))) by lia. apply pol_minus.
    + apply (pol_mono (S (2 * m))); [lia|exact IH].
    + apply pol_x, pol_x. exact IH.
Qed.
Lemma dl_pol m k : pol (S k - m) (dl m k).
Proof. apply pol_peval. pose proof (pderiv_n_len m (legendre_poly k)). pose proof (leg_poly_len k). lia. Qed.
Definition ff (m j k : nat) (x : R) : R := wt m x * dl m j x * dl m k x.
Lemma ff_pol m j k : pol (S (j + k)) (ff m j k).
Proof.
  destruct (Nat.lt_ge_cases j m) as [H|Hj]; [apply (pol_ext _ (fun _ => 0)); [intros; unfold ff; rewrite (dl_high m j) by auto; ring|apply pol_zero]|].
  destruct (Nat.lt_ge_cases k m) as [H|Hk]; [apply (pol_ext _ (fun _ => 0)); [intros; unfold ff; rewrite (dl_high m k) by auto; ring|apply pol_zero]|].
  apply (pol_ext _ (fun x => (dl m j x * wt m x) * dl m k x)); [intros; unfold ff; ring|].
  replace (S (j + k)) with ((S j - m + 2 * m) + (k - m))%nat by lia. apply pol_mul; [apply pol_mul; [apply dl_pol|apply wt_pol]|]. replace (S (k - m)) with (S k - m)%nat by lia. apply dl_pol.
Qed.
Definition JJ (m j k : nat) : R := RInt (ff m j k) (-1) 1.
Lemma wt_der m x : is_derive (wt (S m)) x (- 2 * (INR m + 1) * x * wt m x).
Proof.
  induction m as [|m IH].
  - apply (is_derive_ext (fun x => 1 - x * x)); [intros t; unfold wt; cbn; ring|].
    refine (der_eq _ _ _ _ _ (der_minus (fun _ => 1) (fun x => x * x) x _ _ (der_const 1 x) (der_mult (fun x => x) (fun x => x) x _ _ (der_id x) (der_id x)))). unfold wt; cbn; ring.
  - apply (is_derive_ext (fun x => (1 - x * x) * wt (S m) x)); [intros t; unfold wt; cbn; ring|].
    refine (der_eq _ _ _ _ _ (der_mult (fun x => 1 - x * x) (wt (S m)) x _ _ (der_minus (fun _ => 1) (fun x => x * x) x _ _ (der_const 1 x) (der_mult (fun x => x) (fun x => x) x _ _ (der_id x) (der_id x))) IH)).
    rewrite S_INR. unfold wt; cbn; ring.
Qed.
Lemma JJ_step m j k : JJ (S m) j k = (INR k - INR m) * (INR k + INR m + 1) * JJ m j k.
Proof.
  set (c := (INR k - INR m) * (INR k + INR m + 1)).
  assert (D : forall x, is_derive (fun x => wt (S m) x * dl (S m) k x * dl m j x) x (- c * ff m j k x + ff (S m) j k x)).
  { intros x. refine (der_eq _ _ _ _ _ (der_mult (fun x => wt (S m) x * dl (S m) k x) (dl m j) x _ _ (der_mult (wt (S m)) (dl (S m) k) x _ _ (wt_der m x) (dl_der (S m) k x)) (dl_der m j x))).
    unfold ff. pose proof (dl_ode_m m k x) as E. fold c in E. change (wt (S m) x) with ((1 - x ^ 2) * wt m x).
    replace ((- 2 * (INR m + 1) * x * wt m x * dl (S m) k x + (1 - x ^ 2) * wt m x * dl (S (S m)) k x) * dl m j x + (1 - x ^ 2) * wt m x * dl (S m) k x * dl (S m) j x)
      with (wt m x * dl m j x * ((1 - x ^ 2) * dl (S (S m)) k x - 2 * (INR m + 1) * x * dl (S m) k x) + (1 - x ^ 2) * wt m x * dl (S m) k x * dl (S m) j x) by ring.
    rewrite E. ring. }
  assert (I : is_RInt (fun x => - c * ff m j k x + ff (S m) j k x) (-1) 1 0).
  { replace 0 with ((wt (S m) 1 * dl (S m) k 1 * dl m j 1) - (wt (S m) (-1) * dl (S m) k (-1) * dl m j (-1))) by (unfold wt; cbn [pow]; ring).
    apply (is_RInt_derive (V := R_CompleteNormedModule) (fun x => wt (S m) x * dl (S m) k x * dl m j x)); [intros x _; apply D|].
    intros x _. apply (continuous_plus (fun x => - c * ff m j k x) (ff (S m) j k)); [apply (continuous_scal_r (V := R_NormedModule))|]; apply (pol_cont _ _ x (ff_pol _ _ _)). }
  apply (is_RInt_unique (V := R_CompleteNormedModule)) in I. rewrite RInt_add2 in I by (apply (pol_int _ _ _ _ (ff_pol _ _ _))). fold (JJ m j k) (JJ (S m) j k) in I. lra.
Qed.
Lemma JJ_sym m j k : JJ m j k = JJ m k j.
Proof. assert (E : forall x, ff m j k x = ff m k j x) by (intros x; unfold ff; ring). apply RInt_ext. intros x _. apply E. Qed.
Lemma JJ_0_lt j k : (j < k)%nat -> JJ 0 j k = 0.
Proof.
  intros H. rewrite <- (leg_orth k (dl 0 j)); [|apply (pol_mono (S j - 0)); [lia|apply dl_pol]]. 
  assert (E : forall x, ff 0 j k x = legendre k x * dl 0 j x) by (intros x; unfold ff, wt; rewrite (dl_0 k); cbn [pow]; ring). apply RInt_ext. intros x _. apply E.
Qed.
Lemma leg_at_m1 k : legendre k (-1) = (-1) ^ k.
Proof. replace (-1) with (- (1)) at 1 by ring. rewrite legendre_parity, legendre_at_1. ring. Qed.
Lemma JJ_0_eq k : JJ 0 k k = 2 / (2 * INR k + 1).
Proof.
  pose proof (pos_INR k) as Hk. enough (E : (2 * INR k + 1) * JJ 0 k k = 2) by (apply (Rmult_eq_reg_l (2 * INR k + 1)); [rewrite E; field; lra|lra]).
  (* (2k+1) P_k = P'_{k+1} - P'_{k-1} *)
  assert (R1 : forall x, (2 * INR k + 1) * dl 0 k x = dl 1 (S k) x - (match k with O => 0 | S n => dl 1 n x end)).
  { intros x. destruct k as [|n]; [rewrite dl_0, legendre_0; unfold dl; cbn; ring|]. apply dl_R1. }
  assert (P1 : pol (S (2 * k)) (fun x => legendre k x * dl 1 (S k) x)).
  { apply (pol_mono (S k + k)%nat); [lia|]. apply pol_mul; [apply leg_pol|]. apply (pol_mono (S (S k) - 1)); [lia|apply dl_pol]. }
  assert (P2 : pol k (fun x => match k with O => 0 | S n => dl 1 n x end)).
  { destruct k as [|n]; [apply pol_zero|]. apply (pol_mono (S n - 1)); [lia|apply dl_pol]. }
  assert (P3 : pol (S (k + S k)) (fun x => legendre (S k) x * dl 1 k x)).
  { apply (pol_mono (S (S k) + k)%nat); [lia|]. apply pol_mul; [apply leg_pol|]. apply (pol_mono (S k - 1)); [lia|apply dl_pol]. }
  assert (P4 : pol (S k + k) (fun x => legendre k x * (match k with O => 0 | S n => dl 1 n x end))) by (apply pol_mul; [apply leg_pol|apply (pol_mono k); [lia|exact P2]]).
  assert (I1 : RInt (fun x => legendre k x * dl 1 (S k) x) (-1) 1 = 2).
  { assert (I : is_RInt (fun x => 1 * (legendre k x * dl 1 (S k) x) + legendre (S k) x * dl 1 k x) (-1) 1 2).
    { replace 2 with ((legendre k 1 * legendre (S k) 1) - (legendre k (-1) * legendre (S k) (-1))) by (rewrite !legendre_at_1, !leg_at_m1; pose proof (sgn_sq k); cbn [pow]; nra).
      apply (is_RInt_derive (V := R_CompleteNormedModule) (fun x => legendre k x * legendre (S k) x)).
      - intros x _. refine (der_eq _ _ _ _ _ (der_mult (dl 0 k) (dl 0 (S k)) x _ _ (dl_der 0 k x) (dl_der 0 (S k) x))). change (dl 0 (S k) x) with (legendre (S k) x). change (dl 0 k x) with (legendre k x). ring.
      - intros x _. apply (continuous_plus (fun x => 1 * (legendre k x * dl 1 (S k) x)) (fun x => legendre (S k) x * dl 1 k x)); [apply (continuous_scal_r (V := R_NormedModule)); exact (pol_cont _ _ x P1)|exact (pol_cont _ _ x P3)]. }
    apply (is_RInt_unique (V := R_CompleteNormedModule)) in I. rewrite RInt_add2 in I by (eapply pol_int; eassumption).
    rewrite (leg_orth (S k) (dl 1 k)) in I by (apply (pol_mono (S k - 1)); [lia|apply dl_pol]). lra. }
  assert (E : (2 * INR k + 1) * JJ 0 k k = RInt (fun x => (-1) * (legendre k x * (match k with O => 0 | S n => dl 1 n x end)) + legendre k x * dl 1 (S k) x) (-1) 1).
  { unfold JJ. rewrite <- (RInt_scal (V := R_CompleteNormedModule) (ff 0 k k)) by (apply (pol_int _ _ _ _ (ff_pol _ _ _))). 
    assert (E : forall x, (2 * INR k + 1) * ff 0 k k x = (-1) * (legendre k x * (match k with O => 0 | S n => dl 1 n x end)) + legendre k x * dl 1 (S k) x).
    { intros x. transitivity (dl 0 k x * ((2 * INR k + 1) * dl 0 k x)); [unfold ff, wt; cbn [pow]; ring|]. rewrite R1, dl_0. ring. }
    apply RInt_ext. intros x _. apply E. }
  rewrite E, RInt_add2 by (eapply pol_int; eassumption). rewrite (leg_orth k _ P2), I1. ring.
Qed.
Lemma JJ_lt m j k : (j < k)%nat -> JJ m j k = 0.
Proof. intros H. induction m as [|m IH]; [apply JJ_0_lt; exact H|]. rewrite JJ_step, IH. ring. Qed.
Lemma JJ_ne m j k : j <> k -> JJ m j k = 0.
Proof. intros H. destruct (Nat.lt_gt_cases j k) as (T & _). destruct (T H); [|rewrite JJ_sym]; apply JJ_lt; auto. Qed.
Lemma JJ_eq m k : (m <= k)%nat -> poch_term m k * JJ m k k = 2 / (2 * INR k + 1).
Proof.
  induction m as [|m IH]; intros H; [rewrite poch_0, JJ_0_eq; ring|]. rewrite <- IH by lia. rewrite JJ_step.
  pose proof (pc_mode m k ltac:(lia)) as E. unfold pc in E. rewrite !(proj2 (Nat.leb_le _ _)) in E by lia. rewrite <- E. ring.
Qed.
Lemma lpmv_prod m j k x : -1 <= x <= 1 -> lpmv m j x * lpmv m k x = ff m j k x.
Proof.
  intros Hx. unfold lpmv, ff, wt. fold (dl m j x) (dl m k x). assert (Es : sqrt (1 - x ^ 2) * sqrt (1 - x ^ 2) = 1 - x ^ 2) by (apply sqrt_sqrt; nra).
  replace ((-1) ^ m * sqrt (1 - x ^ 2) ^ m * dl m j x * ((-1) ^ m * sqrt (1 - x ^ 2) ^ m * dl m k x)) with (((-1) ^ m * (-1) ^ m) * (sqrt (1 - x ^ 2) ^ m * sqrt (1 - x ^ 2) ^ m) * dl m j x * dl m k x) by ring.
  rewrite sgn_sq, <- Rpow_mult_distr, Es. ring.
Qed.

(** The double-Gauss rule is exact on [-1, 1]. *)
Lemma dg_exact n mu w f : double_gauss n mu w -> pol (2 * n) f -> rsum (2 * n) (fun i => wnode n w i * f (nth i mu 0)) = RInt f (-1) 1.
Proof.
  intros (H1 & H2 & _ & HE) Hf.
  assert (Hg : pol (2 * n) (fun x => f (- x))).
  { destruct Hf as (p & Hp & E). assert (X : forall p, pol (length p) (fun x => peval p (- x))).
    { induction p0 as [|c q IH]; [apply (pol_ext _ (fun _ => 0)); [reflexivity|apply pol_zero]|]. apply (pol_ext _ (fun x => c + (-1) * (x * peval q (- x)))); [intros; cbn; ring|].
      apply pol_plus; [apply pol_const; cbn; lia|apply pol_scal; cbn [length]; apply pol_x; exact IH]. }
    apply (pol_ext _ (fun x => peval p (- x))); [intros; apply E|]. apply (pol_mono (length p)); auto. }
  assert (HS : forall g, pol (2 * n) g -> rsum n (fun i => w i * g (nth i mu 0)) = RInt g 0 1).
  { intros g (p & Hp & E). destruct HE as (_ & HE). rewrite (RInt_ext g (peval p)) by (intros; apply E). rewrite <- (HE p Hp). unfold quadsum. rewrite firstn_length, H1. replace (Nat.min n (2 * n)) with n by lia.
    apply rsum_ext. intros i Hi. rewrite E. rewrite <- (firstn_skipn n mu) at 1. rewrite app_nth1 by (rewrite firstn_length; lia). rewrite (nth_indep (map w (seq 0 n)) 0 (w 0%nat)) by (rewrite map_length, seq_length; exact Hi). rewrite map_nth, seq_nth by exact Hi. reflexivity. }
  replace (2 * n)%nat with (n + n)%nat at 1 by lia. rewrite rsum_split.
  rewrite (rsum_ext n (fun i => wnode n w i * f (nth i mu 0)) (fun i => w i * f (nth i mu 0))) by (intros i Hi; unfold wnode; rewrite (proj2 (Nat.ltb_lt i n)) by auto; reflexivity).
  rewrite (rsum_ext n (fun i => wnode n w (n + i)%nat * f (nth (n + i) mu 0)) (fun i => w i * f (- nth i mu 0))).
  2:{ intros i Hi. unfold wnode. rewrite (proj2 (Nat.ltb_ge (n + i) n)) by lia. replace (n + i - n)%nat with i by lia. destruct (H2 i Hi) as (_ & -> & _). reflexivity. }
  rewrite (HS f Hf), (HS _ Hg).
  assert (If : forall a b, is_RInt (V := R_NormedModule) f a b (RInt f a b)) by (intros a b; apply (RInt_correct (V := R_CompleteNormedModule)), (pol_int _ _ a b Hf)).
  pose proof (is_RInt_Chasles (V := R_NormedModule) f (-1) 0 1 _ _ (If _ _) (If _ _)) as C. apply (is_RInt_unique (V := R_CompleteNormedModule)) in C. rewrite C.
  assert (E : RInt (fun x => f (- x)) 0 1 = RInt f (-1) 0).
  { apply (is_RInt_unique (V := R_CompleteNormedModule)).
    assert (D : is_RInt (V := R_NormedModule) (fun x => opp (f (- x))) 0 1 (opp (RInt f (-1) 0))).
    { apply (is_RInt_comp_opp (V := R_NormedModule) f). rewrite Ropp_0. replace (Ropp 1) with (-1) by ring. apply (is_RInt_swap (V := R_NormedModule)). apply If. }
    apply (is_RInt_opp (V := R_NormedModule)) in D. rewrite opp_opp in D. refine (is_RInt_ext (V := R_NormedModule) _ _ _ _ _ _ D). intros x _. apply opp_opp. }
  rewrite E. unfold plus; cbn. ring.
Qed.
