(** The addition theorem of the Legendre polynomials: the Fourier modes in which the code expands
    the phase function sum up to the phase function of the scattering angle. *)
From Coq Require Import Reals Lra Lia List Bool Arith.
From Coquelicot Require Import Coquelicot.
From Verif Require Import Base Spec Calc M_LinAlg P_Special P_Energy.
Import ListNotations.
Local Open Scope R_scope.

Definition dl (m k : nat) (x : R) : R := peval (pderiv_n m (legendre_poly k)) x.
Lemma dl_0 k x : dl 0 k x = legendre k x. Proof. reflexivity. Qed.
Lemma dl_der m k x : is_derive (dl m k) x (dl (S m) k x).
Proof. apply pderiv_correct. Qed.

(** The two first-order recurrences, differentiated [m] times. *)
Lemma dl_AB m : forall n x,
  dl (S m) (S n) x = x * dl (S m) n x + (INR n + INR m + 1) * dl m n x /\
  dl (S m) n x = x * dl (S m) (S n) x - (INR n + 1 - INR m) * dl m (S n) x.
Proof.
  induction m; intros n x.
  - destruct (dleg_AB n x) as (A & B). change (INR 0) with 0. unfold dleg in *. change (dl 1 (S n) x) with (peval (pderiv (legendre_poly (S n))) x).
    change (dl 1 n x) with (peval (pderiv (legendre_poly n)) x). change (dl 0 n x) with (legendre n x). change (dl 0 (S n) x) with (legendre (S n) x). split; lra.
  - rewrite S_INR. split.
    + assert (H : is_derive (dl (S m) (S n)) x (1 * dl (S m) n x + x * dl (S (S m)) n x + (INR n + INR m + 1) * dl (S m) n x)).
      { apply (der_ext (fun y => y * dl (S m) n y + (INR n + INR m + 1) * dl m n y)); [intros; symmetry; apply IHm|].
        apply der_plus; [apply der_mult; [apply der_id|apply dl_der]|apply der_scal, dl_der]. }
      pose proof (is_derive_unique _ _ _ H) as E1. rewrite (is_derive_unique _ _ _ (dl_der (S m) (S n) x)) in E1. rewrite E1. ring.
    + assert (H : is_derive (dl (S m) n) x (1 * dl (S m) (S n) x + x * dl (S (S m)) (S n) x - (INR n + 1 - INR m) * dl (S m) (S n) x)).
      { apply (der_ext (fun y => y * dl (S m) (S n) y - (INR n + 1 - INR m) * dl m (S n) y)); [intros; symmetry; apply IHm|].
        apply der_minus; [apply der_mult; [apply der_id|apply dl_der]|apply der_scal, dl_der]. }
      pose proof (is_derive_unique _ _ _ H) as E1. rewrite (is_derive_unique _ _ _ (dl_der (S m) n x)) in E1. rewrite E1. ring.
Qed.

Lemma pderiv_from_len n p : length (pderiv_from n p) = length p.
Proof. revert n. induction p; intros; cbn; auto. Qed.
Lemma pderiv_n_len m p : (length (pderiv_n m p) <= length p - m)%nat.
Proof. induction m; cbn; [lia|]. unfold pderiv. rewrite pderiv_from_len. destruct (pderiv_n m p); cbn in *; lia. Qed.
Lemma dl_high m k x : (k < m)%nat -> dl m k x = 0.
Proof.
  intros H. unfold dl. pose proof (pderiv_n_len m (legendre_poly k)) as E. pose proof (leg_poly_len k).
  destruct (pderiv_n m (legendre_poly k)); [reflexivity|cbn in E; lia].
Qed.

Section Two.
  Variables x y : R.
  Hypothesis Hx : -1 <= x <= 1.
  Hypothesis Hy : -1 <= y <= 1.
  Let s := sqrt (1 - x ^ 2).
  Let s' := sqrt (1 - y ^ 2).
  Lemma ss : s * s = 1 - x ^ 2. Proof. unfold s. apply sqrt_sqrt. nra. Qed.
  Lemma ss' : s' * s' = 1 - y ^ 2. Proof. unfold s'. apply sqrt_sqrt. nra. Qed.
  (** Term of mode [m] and degree [k], without the cosine. *)
  Definition am (m k : nat) : R := if Nat.leb m k then poch_term m k * lpmv m k x * lpmv m k y else 0.
  Definition pc (m k : nat) : R := if Nat.leb m k then poch_term m k else 0.

  Lemma am_eq m k : am m k = pc m k * (s * s') ^ m * dl m k x * dl m k y.
  Proof.
    unfold am, pc, lpmv. destruct (Nat.leb m k); [|ring]. fold (dl m k x) (dl m k y). fold s s'. rewrite Rpow_mult_distr.
    assert (E : (-1) ^ m * (-1) ^ m = 1) by (rewrite <- Rpow_mult_distr; replace (-1 * -1) with 1 by ring; apply pow1).
    replace (poch_term m k * ((-1) ^ m * s ^ m * dl m k x) * ((-1) ^ m * s' ^ m * dl m k y)) with ((-1) ^ m * (-1) ^ m * (poch_term m k * s ^ m * s' ^ m * dl m k x * dl m k y)) by ring.
    rewrite E. ring.
  Qed.
  Lemma fact_nz n : INR (fact n) <> 0. Proof. apply not_0_INR. pose proof (lt_O_fact n). lia. Qed.
  (** Both recurrences of the factor, without subtraction: [k = m + j]. *)
  Lemma pc_up m k : (m <= k)%nat -> pc m (S k) * (INR k + INR m + 1) = pc m k * (INR k - INR m + 1).
  Proof.
    intros H. unfold pc. rewrite !(proj2 (Nat.leb_le _ _)) by lia. unfold poch_term. replace (S k - m)%nat with (S (k - m)) by lia. replace (S k + m)%nat with (S (k + m)) by lia.
    rewrite !fact_simpl, !mult_INR, !S_INR, minus_INR, plus_INR by lia. field. pose proof (fact_nz (k + m)). pose proof (pos_INR k). pose proof (pos_INR m). split; [auto|lra].
  Qed.
  Lemma pc_mode m k : (m < k)%nat -> pc (S m) k * ((INR k - INR m) * (INR k + INR m + 1)) = pc m k.
  Proof.
    intros H. unfold pc. rewrite !(proj2 (Nat.leb_le _ _)) by lia. unfold poch_term. replace (k + S m)%nat with (S (k + m)) by lia. replace (k - m)%nat with (S (k - S m)) by lia.
    rewrite !fact_simpl, !mult_INR, !S_INR, minus_INR, plus_INR, !S_INR by lia. field. pose proof (fact_nz (k + m)). pose proof (pos_INR k). pose proof (pos_INR m). split; [auto|lra].
  Qed.

  Lemma dl_CD m n z : (INR (S n) + 1 - INR m) * dl m (S (S n)) z = - ((1 - z ^ 2) * dl (S m) (S n) z) + (INR (S n) + INR m + 1) * (z * dl m (S n) z) /\
    (INR (S n) + INR m) * dl m n z = (1 - z ^ 2) * dl (S m) (S n) z + (INR (S n) - INR m) * (z * dl m (S n) z).
  Proof.
    destruct (dl_AB m n z) as (A1 & B1). destruct (dl_AB m (S n) z) as (A2 & B2). rewrite S_INR in *. split.
    - rewrite A2 in B2. lra.
    - rewrite B1 in A1. lra.
  Qed.
  Lemma dl_R1 m n z : (2 * INR (S n) + 1) * dl m (S n) z = dl (S m) (S (S n)) z - dl (S m) n z.
  Proof. destruct (dl_AB m n z) as (A1 & B1). destruct (dl_AB m (S n) z) as (A2 & B2). rewrite S_INR in *. rewrite B1, A2. ring. Qed.

  Definition bm (m k : nat) : R := match m with O => am 1 k | S m' => (am m' k + am (S m) k) / 2 end.

  Lemma am_high m k : (k < m)%nat -> am m k = 0.
  Proof. intros H. unfold am. rewrite (proj2 (Nat.leb_gt m k)) by auto. reflexivity. Qed.

  Lemma am_rec m n : (INR (S n) + 1) * am m (S (S n)) + INR (S n) * am m n = (2 * INR (S n) + 1) * (x * y * am m (S n) + s * s' * bm m (S n)).
  Proof.
    pose proof ss as Es. pose proof ss' as Es'. set (K := INR (S n)). assert (HK : 1 <= K) by (unfold K; rewrite S_INR; pose proof (pos_INR n); lra).
    destruct (dl_CD m n x) as (Cx & Dx). destruct (dl_CD m n y) as (Cy & Dy). fold K in Cx, Dx, Cy, Dy.
    assert (Eb : s * s' * am (S m) (S n) = (s * s') ^ m * (pc (S m) (S n) * ((1 - x ^ 2) * dl (S m) (S n) x) * ((1 - y ^ 2) * dl (S m) (S n) y))).
    { rewrite am_eq, <- Es, <- Es'. cbn [pow]. ring. }
    destruct (Nat.le_gt_cases (S (S (S n))) m) as [H|H].
    { unfold bm. destruct m as [|m']; [lia|]. rewrite !am_high by lia. lra. }
    destruct m as [|m'].
    - cbn [bm]. rewrite Rmult_plus_distr_l. rewrite Eb, !am_eq, !pow_O. unfold pc at 1 2 3. cbn [Nat.leb]. rewrite !poch_0.
      pose proof (pc_mode 0 (S n) ltac:(lia)) as Ep. fold K in Ep. replace (pc 0 (S n)) with 1 in Ep by (unfold pc; cbn [Nat.leb]; rewrite poch_0; reflexivity). change (INR 0) with 0 in *.
      set (X1 := (1 - x ^ 2) * dl 1 (S n) x) in *. set (Y1 := (1 - y ^ 2) * dl 1 (S n) y) in *. set (X0 := dl 0 (S n) x) in *. set (Y0 := dl 0 (S n) y) in *.
      set (a := dl 0 (S (S n)) x) in *. set (b := dl 0 n x) in *. set (a' := dl 0 (S (S n)) y) in *. set (b' := dl 0 n y) in *.
      assert (Ea : a = x * X0 - X1 / (K + 1)) by (apply (Rmult_eq_reg_l (K + 1)); [|lra]; field_simplify; lra).
      assert (Ea' : a' = y * Y0 - Y1 / (K + 1)) by (apply (Rmult_eq_reg_l (K + 1)); [|lra]; field_simplify; lra).
      assert (Eb1 : b = x * X0 + X1 / K) by (apply (Rmult_eq_reg_l K); [|lra]; field_simplify; lra).
      assert (Eb' : b' = y * Y0 + Y1 / K) by (apply (Rmult_eq_reg_l K); [|lra]; field_simplify; lra).
      assert (Ep' : pc 1 (S n) = 1 / (K * (K + 1))) by (apply (Rmult_eq_reg_r (K * (K + 1))); [|nra]; field_simplify; lra).
      rewrite Ea, Ea', Eb1, Eb', Ep'. field. split; lra.
    - cbn [bm]. set (m := S m') in *. set (M := INR m) in *. assert (HM : 1 <= M) by (unfold M, m; rewrite S_INR; pose proof (pos_INR m'); lra).
      assert (EM : INR m' = M - 1) by (unfold M, m; rewrite S_INR; lra).
      pose proof (dl_R1 m' n x) as Rx. pose proof (dl_R1 m' n y) as Ry. fold K m in Rx, Ry.
      replace ((2 * K + 1) * (x * y * am m (S n) + s * s' * ((am m' (S n) + am (S m) (S n)) / 2))) with
        ((2 * K + 1) * (x * y * am m (S n)) + (2 * K + 1) / 2 * (s * s' * am m' (S n)) + (2 * K + 1) / 2 * (s * s' * am (S m) (S n))) by field.
      rewrite Eb, !am_eq. replace (s * s' * (pc m' (S n) * (s * s') ^ m' * dl m' (S n) x * dl m' (S n) y)) with ((s * s') ^ m * (pc m' (S n) * dl m' (S n) x * dl m' (S n) y)) by (unfold m; cbn [pow]; ring).
      set (P := (s * s') ^ m).
      cut ((K + 1) * (pc m (S (S n)) * dl m (S (S n)) x * dl m (S (S n)) y) + K * (pc m n * dl m n x * dl m n y) =
        (2 * K + 1) * (x * y * (pc m (S n) * dl m (S n) x * dl m (S n) y)) + (2 * K + 1) / 2 * (pc m' (S n) * dl m' (S n) x * dl m' (S n) y)
        + (2 * K + 1) / 2 * (pc (S m) (S n) * ((1 - x ^ 2) * dl (S m) (S n) x) * ((1 - y ^ 2) * dl (S m) (S n) y))).
      { intros HC. transitivity (P * ((K + 1) * (pc m (S (S n)) * dl m (S (S n)) x * dl m (S (S n)) y) + K * (pc m n * dl m n x * dl m n y))); [ring|]. rewrite HC. ring. }
      assert (Rx' : dl m' (S n) x = (dl m (S (S n)) x - dl m n x) / (2 * K + 1)) by (apply (Rmult_eq_reg_l (2 * K + 1)); [rewrite Rx; field; lra|lra]).
      assert (Ry' : dl m' (S n) y = (dl m (S (S n)) y - dl m n y) / (2 * K + 1)) by (apply (Rmult_eq_reg_l (2 * K + 1)); [rewrite Ry; field; lra|lra]).
      rewrite Rx', Ry'. clear Rx Ry Rx' Ry' Eb.
      destruct (Nat.eq_dec m (S (S n))) as [Em|Hne].
      + assert (E1 : pc m n = 0) by (unfold pc; rewrite (proj2 (Nat.leb_gt m n)) by lia; reflexivity).
        assert (E2 : pc m (S n) = 0) by (unfold pc; rewrite (proj2 (Nat.leb_gt m (S n))) by lia; reflexivity).
        assert (E3 : pc (S m) (S n) = 0) by (unfold pc; rewrite (proj2 (Nat.leb_gt (S m) (S n))) by lia; reflexivity).
        rewrite E1, E2, E3. rewrite (dl_high m n x), (dl_high m n y) by lia.
        assert (Em' : m' = S n) by lia. pose proof (pc_up m' (S n) ltac:(lia)) as E4. pose proof (pc_mode m' (S (S n)) ltac:(lia)) as E5. fold m in E5. rewrite EM in E4, E5. rewrite (S_INR (S n)) in E5. fold K in E4, E5.
        assert (EMK : M = K + 1) by (unfold M, K; rewrite Em, (S_INR (S n)); reflexivity). rewrite EMK in E4, E5.
        assert (E6 : pc m' (S n) = pc m (S (S n)) * (2 * K + 2) * (2 * K + 1)) by nra. rewrite E6. field. lra.
      + pose proof (pc_mode m' (S n) ltac:(lia)) as E5. fold m in E5. rewrite EM in E5. fold K in E5.
        pose proof (pc_up m (S n) ltac:(lia)) as E4. fold K M in E4.
        assert (E4' : pc m (S (S n)) = pc m (S n) * (K - M + 1) / (K + M + 1)) by (apply (Rmult_eq_reg_r (K + M + 1)); [rewrite E4; field; lra|lra]).
        assert (E5' : pc m' (S n) = pc m (S n) * ((K - M + 1) * (K + M))) by (rewrite <- E5; ring).
        rewrite E4', E5'.
        set (X1 := (1 - x ^ 2) * dl (S m) (S n) x) in *. set (Y1 := (1 - y ^ 2) * dl (S m) (S n) y) in *. set (X0 := dl m (S n) x) in *. set (Y0 := dl m (S n) y) in *.
        set (a := dl m (S (S n)) x) in *. set (a' := dl m (S (S n)) y) in *.
        assert (HMK : M <= K) by (unfold M, K; apply le_INR; lia).
        assert (Ea : a = (- X1 + (K + M + 1) * (x * X0)) / (K + 1 - M)) by (apply (Rmult_eq_reg_l (K + 1 - M)); [rewrite Cx; field; lra|lra]).
        assert (Ea' : a' = (- Y1 + (K + M + 1) * (y * Y0)) / (K + 1 - M)) by (apply (Rmult_eq_reg_l (K + 1 - M)); [rewrite Cy; field; lra|lra]).
        destruct (Nat.eq_dec m (S n)) as [Em|Hne'].
        * assert (E1 : pc m n = 0) by (unfold pc; rewrite (proj2 (Nat.leb_gt m n)) by lia; reflexivity).
          assert (E3 : pc (S m) (S n) = 0) by (unfold pc; rewrite (proj2 (Nat.leb_gt (S m) (S n))) by lia; reflexivity).
          assert (EX : X1 = 0) by (unfold X1; rewrite dl_high by lia; ring). assert (EY : Y1 = 0) by (unfold Y1; rewrite dl_high by lia; ring).
          rewrite E1, E3, Ea, Ea', EX, EY, (dl_high m n x), (dl_high m n y) by lia. assert (EMK : M = K) by (unfold M, K; rewrite Em; reflexivity). rewrite EMK. field. lra.
        * assert (HMK' : M + 1 <= K) by (unfold M, K; rewrite <- S_INR; apply le_INR; lia).
          pose proof (pc_up m n ltac:(lia)) as E7. replace (INR n) with (K - 1) in E7 by (unfold K; rewrite S_INR; ring). fold M in E7.
          assert (E7' : pc m n = pc m (S n) * (K + M) / (K - M)) by (apply (Rmult_eq_reg_r (K - M)); [field_simplify; lra|lra]).
          pose proof (pc_mode m (S n) ltac:(lia)) as E8. fold K M in E8.
          assert (E8' : pc (S m) (S n) = pc m (S n) / ((K - M) * (K + M + 1))) by (apply (Rmult_eq_reg_r ((K - M) * (K + M + 1))); [rewrite E8; field; lra|nra]).
          rewrite E7', E8'. set (b := dl m n x) in *. set (b' := dl m n y) in *.
          assert (Eb : b = (X1 + (K - M) * (x * X0)) / (K + M)) by (apply (Rmult_eq_reg_l (K + M)); [rewrite Dx; field; lra|lra]).
          assert (Eb' : b' = (Y1 + (K - M) * (y * Y0)) / (K + M)) by (apply (Rmult_eq_reg_l (K + M)); [rewrite Dy; field; lra|lra]).
          rewrite Ea, Ea', Eb, Eb'. field. repeat split; lra.
  Qed.

  Variable phi : R.
  Definition ec (m : nat) : R := if Nat.eqb m 0 then 1 else 2.
  Lemma cos_shift (A : nat -> R) N : let B m := match m with O => A 1%nat | S m' => (A m' + A (S m)) / 2 end in
    cos phi * rsum (S N) (fun m => ec m * A m * cos (INR m * phi)) =
    rsum (S N) (fun m => ec m * B m * cos (INR m * phi)) + A N * cos (INR (S N) * phi) - A (S N) * cos (INR N * phi).
  Proof.
    intros B. induction N as [|N IH].
    - unfold ec, B. cbn [rsum Nat.eqb INR]. rewrite Rmult_0_l, cos_0. replace (1 * phi) with phi by ring. ring.
    - rewrite rsum_S, Rmult_plus_distr_l, IH. rewrite (rsum_S (S N)). change (ec (S N)) with 2. change (B (S N)) with ((A N + A (S (S N))) / 2).
      assert (E : 2 * cos phi * cos (INR (S N) * phi) = cos (INR (S (S N)) * phi) + cos (INR N * phi)).
      { rewrite !S_INR. replace ((INR N + 1 + 1) * phi) with ((INR N + 1) * phi + phi) by ring. replace (INR N * phi) with ((INR N + 1) * phi - phi) by ring.
        rewrite cos_plus, cos_minus. ring. }
      replace (cos phi * (2 * A (S N) * cos (INR (S N) * phi))) with (A (S N) * (2 * cos phi * cos (INR (S N) * phi))) by ring. rewrite E. field.
  Qed.
  Definition asum (N k : nat) : R := rsum (S N) (fun m => ec m * am m k * cos (INR m * phi)).
  Lemma asum_more N k : (k <= N)%nat -> asum N k = asum k k.
  Proof.
    induction 1 as [|N H IH]; [reflexivity|]. unfold asum in *. rewrite rsum_S, IH, am_high by lia. ring.
  Qed.

  Lemma asum_rec n : (INR (S n) + 1) * asum (S (S n)) (S (S n)) = (2 * INR (S n) + 1) * (x * y + s * s' * cos phi) * asum (S n) (S n) - INR (S n) * asum n n.
  Proof.
    set (N := S (S n)). rewrite <- (asum_more N n), <- (asum_more N (S n)) by (unfold N; lia).
    pose proof (cos_shift (fun m => am m (S n)) N) as E. cbn zeta beta in E. rewrite (am_high N (S n)), (am_high (S N) (S n)) in E by (unfold N; lia).
    change (rsum (S N) (fun m => ec m * am m (S n) * cos (INR m * phi))) with (asum N (S n)) in E.
    replace ((2 * INR (S n) + 1) * (x * y + s * s' * cos phi) * asum N (S n)) with ((2 * INR (S n) + 1) * (x * y * asum N (S n) + s * s' * (cos phi * asum N (S n)))) by ring.
    rewrite E, !Rmult_0_l, Rplus_0_r, Rminus_0_r.
    cut ((INR (S n) + 1) * asum N N + INR (S n) * asum N n = (2 * INR (S n) + 1) * (x * y * asum N (S n) + s * s' * rsum (S N) (fun m => ec m * bm m (S n) * cos (INR m * phi)))).
    { intros H. unfold bm in H. lra. }
    unfold asum. rewrite <- !rsum_scal, <- !rsum_plus, <- rsum_scal. apply rsum_ext. intros m Hm.
    pose proof (am_rec m n) as Er. fold N in Er. 
    transitivity (ec m * cos (INR m * phi) * ((INR (S n) + 1) * am m N + INR (S n) * am m n)); [ring|]. rewrite Er. ring.
  Qed.

  Theorem legendre_addition k : legendre k (x * y + s * s' * cos phi) = asum k k.
  Proof.
    cut (legendre k (x * y + s * s' * cos phi) = asum k k /\ legendre (S k) (x * y + s * s' * cos phi) = asum (S k) (S k)); [tauto|].
    induction k as [|k [IH1 IH2]].
    - split.
      + rewrite legendre_0. unfold asum, ec, am. cbn [rsum Nat.eqb Nat.leb INR]. rewrite !lpmv_0, !legendre_0, poch_0, Rmult_0_l, cos_0. ring.
      + rewrite legendre_1. unfold asum. cbn [rsum]. rewrite !am_eq. unfold ec, pc. cbn [rsum Nat.eqb Nat.leb INR pow]. rewrite poch_0, !dl_0, !legendre_1, Rmult_0_l, cos_0. replace (1 * phi) with phi by ring.
        unfold poch_term, dl. cbn. field.
    - split; [exact IH2|]. pose proof (pos_INR k) as Hk. apply (Rmult_eq_reg_l (INR (S k) + 1)); [|rewrite S_INR; lra]. rewrite asum_rec, legendre_rec, IH1, IH2, S_INR. field. lra.
  Qed.
End Two.
