(** * When no layer boundary is too deep, the correction is finite. *)
From Coq Require Import ZArith Reals List Bool Lia Lra Psatz.
From Flocq Require Import Core Relative Plus_error IEEE754.BinarySingleNaN.
From Verif Require Import Base M_Float Spec_Float P_Float P_Float2 P_Float3.
Import ListNotations.
Open Scope R_scope.

(** Sizes. *)
Definition sz (e : Z) (x : f64) : Prop := ffin x = true /\ Rabs (fval x) <= two e.

Lemma sz_weaken e f x : (e <= f)%Z -> sz e x -> sz f x.
Proof. intros H [F B]. split; [exact F|]. eapply Rle_trans; [exact B|]. apply two_le, H. Qed.

Lemma rn_abs_le x b : fmt b -> Rabs x <= b -> Rabs (rn x) <= b.
Proof.
  intros Hb H. apply Rabs_le_inv in H. apply Rabs_le. split.
  - apply rn_ge_fmt; [apply fmt_opp, Hb | lra].
  - apply rn_le_fmt; [exact Hb | lra].
Qed.

Lemma two_lt_1024 e : (e <= 1023)%Z -> two e < two 1024.
Proof. intros. apply bpow_lt. lia. Qed.

Lemma sz_add e x y : (-1074 <= e)%Z -> (e <= 1022)%Z -> sz e x -> sz e y ->
  sz (e + 1) (fadd x y) /\ fval (fadd x y) = rn (fval x + fval y).
Proof.
  intros H1 H2 [Fx Bx] [Fy By].
  assert (B : Rabs (rn (fval x + fval y)) <= two (e + 1)).
  { apply rn_abs_le; [apply fmt_two; lia|]. rewrite two_add, two_1.
    eapply Rle_trans; [apply Rabs_triang|]. lra. }
  destruct (fadd_ok x y Fx Fy) as [F V].
  { eapply Rle_lt_trans; [exact B|]. apply two_lt_1024. lia. }
  split; [|exact V]. split; [exact F|]. rewrite V. exact B.
Qed.

Lemma sz_sub e x y : (-1074 <= e)%Z -> (e <= 1022)%Z -> sz e x -> sz e y ->
  sz (e + 1) (fsub x y) /\ fval (fsub x y) = rn (fval x - fval y).
Proof.
  intros H1 H2 [Fx Bx] [Fy By].
  assert (B : Rabs (rn (fval x - fval y)) <= two (e + 1)).
  { apply rn_abs_le; [apply fmt_two; lia|]. rewrite two_add, two_1.
    apply Rabs_le_inv in Bx. apply Rabs_le_inv in By. apply Rabs_le. lra. }
  destruct (fsub_ok x y Fx Fy) as [F V].
  { eapply Rle_lt_trans; [exact B|]. apply two_lt_1024. lia. }
  split; [|exact V]. split; [exact F|]. rewrite V. exact B.
Qed.

Lemma sz_mul e f x y : (-1074 <= e + f)%Z -> (e + f <= 1023)%Z -> sz e x -> sz f y ->
  sz (e + f) (fmul x y) /\ fval (fmul x y) = rn (fval x * fval y).
Proof.
  intros H1 H2 [Fx Bx] [Fy By].
  assert (B : Rabs (rn (fval x * fval y)) <= two (e + f)).
  { apply rn_abs_le; [apply fmt_two; lia|]. rewrite two_add, Rabs_mult.
    apply Rmult_le_compat; try apply Rabs_pos; assumption. }
  destruct (fmul_ok x y Fx Fy) as [F V].
  { eapply Rle_lt_trans; [exact B|]. apply two_lt_1024. lia. }
  split; [|exact V]. split; [exact F|]. rewrite V. exact B.
Qed.

Lemma sz_opp e x : sz e x -> sz e (fopp x).
Proof. intros [F B]. split; [rewrite fopp_fin; exact F|]. rewrite fopp_val, Rabs_Ropp. exact B. Qed.

Lemma sz_abs e x : sz e x -> sz e (fabs x).
Proof. intros [F B]. split; [rewrite fabs_fin; exact F|]. rewrite fabs_val, Rabs_Rabsolu. exact B. Qed.

Lemma sz_div_cos e x mu : (-1074 <= e)%Z -> (e + 40 <= 1023)%Z -> sz e x -> cosine_ok mu ->
  sz (e + 40) (fdiv x mu) /\ fval (fdiv x mu) = rn (fval x / fval mu).
Proof.
  intros H1 H2 [Fx Bx] (Fm & L & U). pose proof (two_pos (-40)) as P.
  assert (B : Rabs (rn (fval x / fval mu)) <= two (e + 40)).
  { apply rn_abs_le; [apply fmt_two; lia|]. unfold Rdiv. rewrite Rabs_mult, two_add.
    apply Rmult_le_compat; try apply Rabs_pos; [exact Bx|].
    rewrite Rabs_pos_eq by (apply Rlt_le, Rinv_0_lt_compat; lra).
    replace (two 40) with (/ two (-40)) by (unfold two; rewrite <- bpow_opp; reflexivity).
    apply Rinv_le_contravar; lra. }
  destruct (fdiv_ok x mu Fx ltac:(lra)) as [F V].
  { eapply Rle_lt_trans; [exact B|]. apply two_lt_1024. lia. }
  split; [|exact V]. split; [exact F|]. rewrite V. exact B.
Qed.

(** Numbers in [0, 1]. *)
Definition u01 (x : f64) : Prop := ffin x = true /\ 0 <= fval x <= 1.

Lemma u01_sz x : u01 x -> sz 0 x.
Proof. intros [F B]. split; [exact F|]. rewrite two_0. apply Rabs_le. lra. Qed.

Lemma u01_mul x y : u01 x -> u01 y -> u01 (fmul x y) /\ fval (fmul x y) <= fval y.
Proof.
  intros Hx Hy. destruct (sz_mul 0 0 x y ltac:(lia) ltac:(lia) (u01_sz x Hx) (u01_sz y Hy)) as [[F _] V].
  destruct Hx as [_ Hx]. destruct Hy as [_ Hy]. rewrite V.
  assert (0 <= rn (fval x * fval y)) by (apply rn_ge_fmt; [apply fmt_0|nra]).
  assert (rn (fval x * fval y) <= fval y) by (apply rn_le_fmt; [apply fmt_val|nra]).
  split; [split; [exact F|rewrite V; lra]|assumption].
Qed.

Lemma u01_one : u01 fone.
Proof. split; [apply fone_fin|rewrite fone_val; lra]. Qed.

(** Rounded sums of real numbers. *)
Fixpoint ksum (b : nat -> R) (k : nat) : R :=
  match k with O => b 0%nat | S k' => rn (ksum b k' + b k) end.

Lemma ksum_nonneg b k : (forall i, (i <= k)%nat -> 0 <= b i) -> 0 <= ksum b k.
Proof.
  induction k as [|k IH]; intros H; cbn [ksum]; [apply H; lia|].
  apply rn_ge_fmt; [apply fmt_0|]. pose proof (H (S k) ltac:(lia)).
  pose proof (IH ltac:(intros; apply H; lia)). lra.
Qed.

Lemma ksum_mono b c k : (forall i, (i <= k)%nat -> b i <= c i) -> ksum b k <= ksum c k.
Proof.
  induction k as [|k IH]; intros H; cbn [ksum]; [apply H; lia|].
  apply rn_le. pose proof (H (S k) ltac:(lia)).
  pose proof (IH ltac:(intros; apply H; lia)). lra.
Qed.

Lemma ksum_upper b k : (forall i, (i <= k)%nat -> 0 <= b i) -> INR k * two (-53) <= / 4 ->
  ksum b k <= (1 + 2 * INR k * two (-53)) * rsum (S k) b + 2 * INR k * two (-1075).
Proof.
  induction k as [|k IH]; intros H Hk.
  - cbn [ksum rsum INR]. lra.
  - rewrite S_INR in *. pose proof (two_pos (-53)) as UP.
    specialize (IH ltac:(intros; apply H; lia) ltac:(lra)). cbn [ksum].
    pose proof (ksum_nonneg b k ltac:(intros; apply H; lia)) as P1. pose proof (H (S k) ltac:(lia)) as P2.
    pose proof (rn_upper (ksum b k + b (S k)) ltac:(lra)) as L.
    change (rsum (S (S k)) b) with (rsum (S k) b + b (S k)).
    assert (P3 : 0 <= rsum (S k) b).
    { assert (G : forall j, (j <= S k)%nat -> 0 <= rsum j b).
      { induction j as [|j IHj]; intros Hj; cbn [rsum]; [lra|].
        pose proof (H j ltac:(lia)). specialize (IHj ltac:(lia)). lra. }
      apply G. lia. }
    set (u := two (-53)) in *. set (e := two (-1075)) in *. set (s := rsum (S k) b) in *.
    assert (EP : 0 < e) by apply two_pos. assert (KP : 0 <= INR k) by apply pos_INR.
    set (n := INR k) in *. set (q := b (S k)) in *.
    apply Rle_trans with ((1 + u) * ((1 + 2 * n * u) * s + 2 * n * e + q) + e).
    { eapply Rle_trans; [exact L|]. apply Rplus_le_compat_r. apply Rmult_le_compat_l; lra. }
    assert (N : n * u <= / 4) by lra. assert (N0 : 0 <= n * u) by nra.
    assert (A1 : u * (2 * n * u) * s <= u * s).
    { apply Rmult_le_compat_r; [exact P3|]. nra. }
    assert (A2 : u * (2 * n * e) <= e) by nra.
    assert (A3 : 0 <= n * u * q) by (apply Rmult_le_pos; lra).
    nra.
Qed.

Lemma ksum_const b c k : 0 <= c -> (forall i, (i <= k)%nat -> 0 <= b i <= c) ->
  INR (S k) <= two 20 -> ksum b k <= 9 / 8 * (INR (S k) * c) + two (-1053).
Proof.
  intros Hc H Hk. assert (K0 : 0 <= INR k) by apply pos_INR. rewrite S_INR in Hk.
  assert (U : INR k * two (-53) <= / 1024).
  { apply Rle_trans with (two 20 * two (-53)); [apply Rmult_le_compat_r; [apply Rlt_le, two_pos|lra]|].
    rewrite <- two_add. change (/ 1024) with (two (-10)). apply two_le. lia. }
  pose proof (ksum_upper b k ltac:(intros; apply H; lia) ltac:(lra)) as L.
  assert (S1 : rsum (S k) b <= INR (S k) * c).
  { assert (G : forall j, (j <= S k)%nat -> rsum j b <= INR j * c).
    { induction j as [|j IHj]; intros Hj; cbn [rsum]; [simpl; lra|].
      pose proof (H j ltac:(lia)). specialize (IHj ltac:(lia)). rewrite S_INR. lra. }
    apply G. lia. }
  assert (S0 : 0 <= rsum (S k) b).
  { assert (G : forall j, (j <= S k)%nat -> 0 <= rsum j b).
    { induction j as [|j IHj]; intros Hj; cbn [rsum]; [lra|].
      pose proof (H j ltac:(lia)). specialize (IHj ltac:(lia)). lra. }
    apply G. lia. }
  assert (E : 2 * INR k * two (-1075) <= two (-1053)).
  { apply Rle_trans with (2 * two 20 * two (-1075)).
    - apply Rmult_le_compat_r; [apply Rlt_le, two_pos|lra].
    - rewrite <- two_1. rewrite <- !two_add. apply two_le. lia. }
  pose proof (two_pos (-53)). nra.
Qed.

Lemma csum_abs (x : nat -> f64) b k :
  (forall i, (i <= k)%nat -> ffin (x i) = true /\ Rabs (fval (x i)) <= b i) ->
  (forall j, (j <= k)%nat -> ksum b j < two 1024) ->
  ffin (csum x k) = true /\ Rabs (fval (csum x k)) <= ksum b k.
Proof.
  induction k as [|k IH]; intros H Hb; cbn [csum ksum] in *; [apply H; lia|].
  destruct (IH ltac:(intros; apply H; lia) ltac:(intros; apply Hb; lia)) as [F B].
  destruct (H (S k) ltac:(lia)) as [F2 B2].
  assert (G : Rabs (rn (fval (csum x k) + fval (x (S k)))) <= rn (ksum b k + b (S k))).
  { apply Rabs_le_inv in B. apply Rabs_le_inv in B2. apply Rabs_le. rewrite <- rn_opp.
    split; apply rn_le; lra. }
  destruct (fadd_ok _ _ F F2) as [F3 V3].
  { eapply Rle_lt_trans; [exact G|]. apply (Hb (S k)). lia. }
  split; [exact F3|]. rewrite V3. exact G.
Qed.

Lemma csum_val (x : nat -> f64) k :
  (forall i, (i <= k)%nat -> ffin (x i) = true) ->
  (forall j, (j <= k)%nat -> Rabs (ksum (fun i => fval (x i)) j) < two 1024) ->
  ffin (csum x k) = true /\ fval (csum x k) = ksum (fun i => fval (x i)) k.
Proof.
  induction k as [|k IH]; intros H Hb; cbn [csum ksum] in *; [split; [apply H; lia|reflexivity]|].
  destruct (IH ltac:(intros; apply H; lia) ltac:(intros; apply Hb; lia)) as [F B].
  destruct (fadd_ok _ _ F (H (S k) (le_n _))) as [F3 V3].
  { rewrite B. apply (Hb (S k)). lia. }
  split; [exact F3|]. rewrite V3, B. reflexivity.
Qed.

Lemma ksum_opp b k : ksum (fun i => - b i) k = - ksum b k.
Proof.
  induction k as [|k IH]; cbn [ksum]; [reflexivity|]. rewrite IH, <- rn_opp. f_equal. ring.
Qed.

Lemma ksum_ext b c k : (forall i, (i <= k)%nat -> b i = c i) -> ksum b k = ksum c k.
Proof.
  induction k as [|k IH]; intros H; cbn [ksum]; [apply H; lia|].
  rewrite IH by (intros; apply H; lia). rewrite (H (S k)) by lia. reflexivity.
Qed.

(** exp(691) < 2^998. *)
Lemma ratio_pow_le p q n c d : (0 < q)%Z -> (0 < d)%Z ->
  (p ^ Z.of_nat n * d <= c * q ^ Z.of_nat n)%Z -> (IZR p / IZR q) ^ n <= IZR c / IZR d.
Proof.
  intros Hq Hd H. rewrite pow_ratio by exact Hq. apply IZR_le in H. rewrite !mult_IZR in H.
  assert (Q : 0 < IZR (q ^ Z.of_nat n)) by (apply IZR_lt, Z.pow_pos_nonneg; lia).
  assert (D : 0 < IZR d) by (apply IZR_lt, Hd).
  revert H Q D. generalize (IZR (q ^ Z.of_nat n)), (IZR (p ^ Z.of_nat n)), (IZR c), (IZR d).
  intros Q P C D H HQ HD. apply Rmult_le_reg_r with (Q * D); [nra|].
  replace (P / Q * (Q * D)) with (P * D) by (field; lra).
  replace (C / D * (Q * D)) with (C * Q) by (field; lra). exact H.
Qed.

Lemma exp_up_Z : (1000 ^ 1000 * 10000 <= 27197 * 999 ^ 1000)%Z.
Proof. apply Zle_bool_imp_le. vm_compute. reflexivity. Qed.

Lemma exp_691_Z : (27197 ^ 691 * 1 <= 2 ^ 998 * 10000 ^ 691)%Z.
Proof. apply Zle_bool_imp_le. vm_compute. reflexivity. Qed.

Lemma exp_1_up : exp 1 <= 27197 / 10000.
Proof.
  assert (H : exp 1 = exp (/ 1000) ^ Z.to_nat 1000).
  { rewrite <- exp_nat. f_equal. rewrite INR_IZR_INZ, Z2Nat.id by lia. field. }
  rewrite H. apply Rle_trans with ((1000 / 999) ^ Z.to_nat 1000).
  - apply pow_incr. split; [apply Rlt_le, exp_pos|].
    pose proof (exp_ineq1_le (- / 1000)) as E. rewrite exp_Ropp in E.
    pose proof (exp_pos (/ 1000)) as P.
    apply Rmult_le_reg_r with (/ exp (/ 1000)); [apply Rinv_0_lt_compat, P|].
    rewrite Rinv_r by lra. lra.
  - apply ratio_pow_le; [lia|lia|]. rewrite Z2Nat.id by lia. exact exp_up_Z.
Qed.

Lemma two_IZR e : (0 <= e)%Z -> two e = IZR (2 ^ e).
Proof. intros He. unfold two. rewrite <- (IZR_Zpower radix2) by exact He. reflexivity. Qed.

Lemma exp_691 : exp 691 <= two 998.
Proof.
  replace 691 with (INR (Z.to_nat 691) * 1)
    by (rewrite INR_IZR_INZ, Z2Nat.id by lia; ring).
  rewrite exp_nat. apply Rle_trans with ((27197 / 10000) ^ Z.to_nat 691).
  - apply pow_incr. split; [apply Rlt_le, exp_pos|apply exp_1_up].
  - rewrite two_IZR by lia.
    apply Rle_trans with (IZR (2 ^ 998) / IZR 1).
    + apply ratio_pow_le; [lia|lia|]. rewrite Z2Nat.id by lia. exact exp_691_Z.
    + generalize (IZR (2 ^ 998)). intros z. lra.
Qed.

Lemma exp_m691 x : -691 <= x -> two (-998) <= exp x.
Proof.
  intros Hx. apply Rle_trans with (exp (-691)).
  - replace (-691) with (- (691)) by lra. rewrite (exp_Ropp 691).
    replace (two (-998)) with (/ two 998) by (unfold two; rewrite <- bpow_opp; reflexivity).
    apply Rinv_le_contravar; [apply exp_pos | apply exp_691].
  - destruct Hx as [Hx|Hx]; [left; apply exp_increasing; lra | rewrite Hx; lra].
Qed.

Section Dir.
Variables (lm : libm) (a : fatm) (mu mu0 : f64).
Hypothesis Hlm : libm_ok lm.
Hypothesis Ha : atm_ok a.
Hypothesis Hmu : cosine_ok mu.
Hypothesis Hmu0 : cosine_ok mu0.
Hypothesis Hn : INR (fa_n a) <= two 20.
Hypothesis Hd : scaled_depth a (two (-50)) (fa_n a) <= 690 * fval mu.
Let n := fa_n a.

Lemma osum_ksum k : osum a mu k = ksum (opt a mu) k.
Proof. induction k as [|k IH]; cbn [osum ksum]; [reflexivity|]. rewrite IH. reflexivity. Qed.

Lemma mu_pos : 0 < fval mu <= 1.
Proof. destruct Hmu as (_ & L & U). pose proof (two_pos (-40)). lra. Qed.

Lemma rsum_opt_up k : (k <= fa_n a)%nat ->
  rsum k (opt a mu) <=
  (1 + 4 * two (-53)) / fval mu * rsum k (fun r => fval (fa_sthick a r)) + INR k * two (-1075).
Proof.
  induction k as [|k IH]; intros Hk; cbn [rsum]; [simpl; lra|].
  specialize (IH ltac:(lia)). rewrite S_INR.
  destruct (sthick_ok a Ha k ltac:(lia)) as (_ & S & _). destruct (minv_ok mu Hmu) as (_ & M & _ & B).
  pose proof (rn_upper (fval (fa_sthick a k) * fval (d_minv mu)) ltac:(nra)) as L.
  fold (opt a mu k) in L. rewrite two_m52 in B. pose proof mu_pos as MP0.
  assert (MP : 0 < / fval mu) by (apply Rinv_0_lt_compat; lra).
  unfold Rdiv in *. pose proof u_small. pose proof (two_pos (-53)).
  set (st := fval (fa_sthick a k)) in *. set (q := / fval mu) in *. set (u := two (-53)) in *.
  assert (E : (1 + u) * (st * fval (d_minv mu)) <= (1 + 4 * u) * q * st).
  { apply Rle_trans with ((1 + u) * (st * ((1 + 2 * u) * q))).
    - apply Rmult_le_compat_l; [lra|]. apply Rmult_le_compat_l; lra.
    - assert (0 <= st * q) by nra. assert (u * u * (st * q) <= / 1024 * u * (st * q)).
      { apply Rmult_le_compat_r; [assumption|]. nra. }
      nra. }
  lra.
Qed.

Lemma sd_mono j k : (j <= k)%nat -> (k <= fa_n a)%nat ->
  scaled_depth a (two (-50)) j <= scaled_depth a (two (-50)) k.
Proof.
  unfold scaled_depth. intros Hj. induction k as [|k IH]; intros Hk.
  - replace j with 0%nat by lia. lra.
  - destruct (Nat.eq_dec j (S k)) as [->|Hne]; [lra|]. cbn [rsum].
    specialize (IH ltac:(lia) ltac:(lia)).
    pose proof (thickness_pos a Ha k ltac:(lia)). pose proof (scaling_range a Ha k ltac:(lia)).
    pose proof (two_pos (-50)). nra.
Qed.

Lemma osum_le k : (k < fa_n a)%nat -> osum a mu k <= 691.
Proof.
  intros Hk. rewrite osum_ksum.
  assert (K1 : INR (S k) <= two 20) by (eapply Rle_trans; [apply le_INR; exact Hk|exact Hn]).
  assert (K0 : 0 <= INR k) by apply pos_INR.
  assert (U33 : INR k * two (-53) <= / 1048576).
  { apply Rle_trans with (two 20 * two (-53)).
    - apply Rmult_le_compat_r; [apply Rlt_le, two_pos|]. rewrite S_INR in K1. lra.
    - rewrite <- two_add. change (/ 1048576) with (two (-20)). apply two_le. lia. }
  pose proof (ksum_upper (opt a mu) k ltac:(intros; apply opt_nonneg; auto; lia) ltac:(lra)) as L1.
  pose proof (rsum_opt_up (S k) ltac:(lia)) as L2.
  pose proof (rsum_upper a Ha (S k) ltac:(lia)) as L3.
  pose proof (sd_mono (S k) (fa_n a) ltac:(lia) ltac:(lia)) as L4.
  pose proof mu_pos as MP. destruct Hmu as (_ & M1 & M2).
  set (ss := rsum (S k) (fun r => fval (fa_sthick a r))) in *.
  assert (T1 : INR (S k) * two (-1073) <= fval mu * / 1024).
  { apply Rle_trans with (two 20 * two (-1073)).
    - apply Rmult_le_compat_r; [apply Rlt_le, two_pos|exact K1].
    - rewrite <- two_add. apply Rle_trans with (two (-40) * two (-10)).
      + rewrite <- two_add. apply two_le. lia.
      + change (two (-10)) with (/ 1024). apply Rmult_le_compat_r; lra. }
  assert (T2 : INR (S k) * two (-1075) <= / 1024).
  { apply Rle_trans with (two 20 * two (-1075)).
    - apply Rmult_le_compat_r; [apply Rlt_le, two_pos|exact K1].
    - rewrite <- two_add. change (/ 1024) with (two (-10)). apply two_le. lia. }
  assert (A1 : ss <= (690 + / 1024) * fval mu) by lra.
  pose proof u_small as US. pose proof (two_pos (-53)) as UP.
  assert (A2 : (1 + 4 * two (-53)) / fval mu * ss <= (1 + 4 * two (-53)) * (690 + / 1024)).
  { unfold Rdiv. rewrite Rmult_assoc. apply Rmult_le_compat_l; [lra|].
    apply Rmult_le_reg_l with (fval mu); [lra|].
    replace (fval mu * (/ fval mu * ss)) with ss by (field; lra). lra. }
  assert (U20 : two (-53) <= / 1048576).
  { change (/ 1048576) with (two (-20)). apply two_le. lia. }
  assert (A3 : rsum (S k) (opt a mu) <= 690 + / 10) by nra.
  assert (T3 : INR k * two (-1075) <= / 1024).
  { eapply Rle_trans; [|exact T2]. apply Rmult_le_compat_r; [apply Rlt_le, two_pos|].
    rewrite S_INR. lra. }
  assert (A4 : (1 + 2 * INR k * two (-53)) * rsum (S k) (opt a mu) <= (1 + 2 * / 1048576) * (690 + / 10)).
  { apply Rle_trans with ((1 + 2 * INR k * two (-53)) * (690 + / 10)).
    - apply Rmult_le_compat_l; nra.
    - apply Rmult_le_compat_r; nra. }
  lra.
Qed.

Lemma opt_le_osum k : (k < fa_n a)%nat -> opt a mu k <= osum a mu k.
Proof.
  intros Hk. destruct k as [|k]; cbn [osum]; [lra|].
  unfold opt at 1. rewrite <- (rn_fmt (rn _) (fmt_rn _)). apply rn_le.
  fold (opt a mu (S k)). pose proof (osum_nonneg a mu Ha Hmu k ltac:(lia)). lra.
Qed.

Lemma sthick_le_opt r : (r < fa_n a)%nat -> fval (fa_sthick a r) <= opt a mu r.
Proof.
  intros Hr. destruct (sthick_ok a Ha r Hr) as (_ & S & _). destruct (minv_ok mu Hmu) as (_ & M & _).
  unfold opt. apply rn_ge_fmt; [apply fmt_val|nra].
Qed.

Lemma two_10 : two 10 = 1024.
Proof. reflexivity. Qed.

Lemma sthick_sz r : (r < fa_n a)%nat -> sz 10 (fa_sthick a r).
Proof.
  intros Hr. destruct (sthick_ok a Ha r Hr) as (F & S & _).
  pose proof (sthick_le_opt r Hr). pose proof (opt_le_osum r Hr). pose proof (osum_le r Hr).
  split; [exact F|]. rewrite two_10, Rabs_pos_eq by lra. lra.
Qed.

Lemma big_1024 : 1024 < two 1024.
Proof. rewrite <- two_10. apply two_lt_1024. lia. Qed.

Lemma log_decay_val r : (r < fa_n a)%nat ->
  ffin (d_log_decay a mu r) = true /\ fval (d_log_decay a mu r) = - opt a mu r.
Proof.
  intros Hr. destruct (sthick_ok a Ha r Hr) as (F & S & _). destruct (minv_ok mu Hmu) as (FM & M & _).
  unfold d_log_decay.
  assert (E : rn (fval (fopp (fa_sthick a r)) * fval (d_minv mu)) = - opt a mu r).
  { rewrite fopp_val. unfold opt. rewrite <- rn_opp. f_equal. ring. }
  destruct (fmul_ok (fopp (fa_sthick a r)) (d_minv mu)) as [X1 X2].
  - rewrite fopp_fin. exact F.
  - exact FM.
  - rewrite E, Rabs_Ropp. pose proof (opt_le_osum r Hr). pose proof (osum_le r Hr).
    pose proof (opt_nonneg a mu Ha Hmu r Hr). rewrite Rabs_pos_eq by lra.
    pose proof big_1024. lra.
  - split; [exact X1|]. rewrite X2. exact E.
Qed.

Lemma csum_log k : (k < fa_n a)%nat ->
  ffin (csum (d_log_decay a mu) k) = true /\ fval (csum (d_log_decay a mu) k) = - osum a mu k.
Proof.
  intros Hk.
  assert (E : forall j, (j <= k)%nat ->
    ksum (fun i => fval (d_log_decay a mu i)) j = - osum a mu j).
  { intros j Hj. rewrite osum_ksum, <- ksum_opp. apply ksum_ext. intros i Hi.
    apply log_decay_val. lia. }
  destruct (csum_val (d_log_decay a mu) k) as [X1 X2].
  - intros i Hi. apply log_decay_val. lia.
  - intros j Hj. rewrite E by exact Hj. rewrite Rabs_Ropp.
    pose proof (osum_nonneg a mu Ha Hmu j ltac:(lia)). pose proof (osum_le j ltac:(lia)).
    rewrite Rabs_pos_eq by lra. pose proof big_1024. lra.
  - split; [exact X1|]. rewrite X2. apply E. lia.
Qed.

(** The products of the attenuations. *)
Definition att (k : nat) : R := match k with O => 1 | S k' => exp (- osum a mu k') end.

Lemma att_low k : (k <= fa_n a)%nat -> two (-998) <= att k.
Proof.
  intros Hk. destruct k as [|k]; unfold att.
  - rewrite <- two_0. apply two_le. lia.
  - apply exp_m691. pose proof (osum_le k ltac:(lia)). lra.
Qed.

Lemma exp_le x y : x <= y -> exp x <= exp y.
Proof. intros [H|H]; [left; apply exp_increasing, H | rewrite H; lra]. Qed.

Lemma att_mono j k : (j <= k)%nat -> (k <= fa_n a)%nat -> att k <= att j.
Proof.
  intros Hj Hk. destruct j as [|j].
  - destruct k as [|k]; unfold att; [lra|]. rewrite <- exp_0. apply exp_le.
    pose proof (osum_nonneg a mu Ha Hmu k ltac:(lia)). lra.
  - destruct k as [|k]; [lia|]. unfold att. apply exp_le.
    pose proof (osum_mono a mu Ha Hmu j k ltac:(lia) ltac:(lia)). lra.
Qed.

Lemma decay_att k : (k <= fa_n a)%nat ->
  u01 (d_decay_prod lm a mu k) /\
  7 / 8 * att k <= fval (d_decay_prod lm a mu k) <= 9 / 8 * att k.
Proof.
  intros Hk. pose proof (att_low k Hk) as AL. pose proof (two_pos (-998)) as P998.
  destruct k as [|k]; unfold d_decay_prod, att in *.
  - split; [apply u01_one|]. rewrite fone_val. lra.
  - destruct (csum_log k ltac:(lia)) as [F V]. pose proof (osum_nonneg a mu Ha Hmu k ltac:(lia)) as P.
    destruct (lo_exp lm Hlm _ F ltac:(lra)) as (F2 & R2 & E2).
    split; [split; assumption|]. rewrite V in E2. apply Rabs_le_inv in E2.
    assert (T : two (-1074) <= / 1024 * two (-998)).
    { change (/ 1024) with (two (-10)). rewrite <- two_add. apply two_le. lia. }
    pose proof u_small. pose proof two_m52. pose proof (two_pos (-52)). nra.
Qed.

(** Depths in the scaled atmosphere. *)
Lemma stau0_ok k : (k <= fa_n a)%nat ->
  sz 10 (fa_stau0 a k) /\ 0 <= fval (fa_stau0 a k) <= 691.
Proof.
  intros Hk. destruct k as [|k]; unfold fa_stau0.
  - split; [|rewrite fzero_val; lra]. split; [reflexivity|].
    rewrite fzero_val, Rabs_R0. apply Rlt_le, two_pos.
  - assert (E : forall j, (j <= k)%nat -> 0 <= ksum (fun i => fval (fa_sthick a i)) j <= osum a mu j).
    { intros j Hj. split.
      - apply ksum_nonneg. intros i Hi. apply (sthick_ok a Ha). lia.
      - rewrite osum_ksum. apply ksum_mono. intros i Hi. apply sthick_le_opt. lia. }
    destruct (csum_val (fa_sthick a) k) as [X1 X2].
    + intros i Hi. apply (sthick_ok a Ha). lia.
    + intros j Hj. pose proof (E j Hj). rewrite Rabs_pos_eq by lra.
      pose proof (osum_le j ltac:(lia)). pose proof big_1024. lra.
    + pose proof (E k (le_n _)) as Ek. pose proof (osum_le k ltac:(lia)).
      rewrite <- X2 in Ek. split; [|lra]. split; [exact X1|].
      rewrite two_10, Rabs_pos_eq by lra. lra.
Qed.

Lemma stau0_step k : (k < fa_n a)%nat ->
  fval (fa_stau0 a (S k)) = rn (fval (fa_stau0 a k) + fval (fa_sthick a k)).
Proof.
  intros Hk. destruct k as [|k].
  - unfold fa_stau0. cbn [csum]. rewrite fzero_val, Rplus_0_l, rn_fmt; [reflexivity|apply fmt_val].
  - destruct (stau0_ok (S k) ltac:(lia)) as [S1 _]. pose proof (sthick_sz (S k) Hk) as S2.
    destruct (sz_add 10 _ _ ltac:(lia) ltac:(lia) S1 S2) as [_ V]. exact V.
Qed.

Lemma mu0inv_ok : sz 40 (d_mu0inv mu0) /\ 1 <= fval (d_mu0inv mu0).
Proof.
  destruct (cosine_inv mu0 Hmu0) as (F & R & _). split; [|apply R]. split; [exact F|].
  unfold d_mu0inv. rewrite Rabs_pos_eq; lra.
Qed.
Lemma minv_sz : sz 40 (d_minv mu) /\ 1 <= fval (d_minv mu).
Proof.
  destruct (cosine_inv mu Hmu) as (F & R & _). split; [|apply R]. split; [exact F|].
  unfold d_minv. rewrite Rabs_pos_eq; lra.
Qed.

Lemma exp_u01 x : ffin x = true -> fval x <= 0 -> u01 (l_exp lm x).
Proof. intros F V. destruct (lo_exp lm Hlm x F V) as (A & B & _). split; assumption. Qed.

Lemma exp_tau0 k : (k <= fa_n a)%nat ->
  u01 (l_exp lm (fmul (fopp (fa_stau0 a k)) (d_mu0inv mu0))).
Proof.
  intros Hk. destruct (stau0_ok k Hk) as [S1 R1]. destruct mu0inv_ok as [S2 R2].
  destruct (sz_mul 10 40 _ _ ltac:(lia) ltac:(lia) (sz_opp _ _ S1) S2) as [[F _] V].
  apply exp_u01; [exact F|]. rewrite V, fopp_val. apply rn_le_fmt; [apply fmt_0|nra].
Qed.

Lemma exp_front_ok r : (r < fa_n a)%nat -> u01 (d_exp_front lm a mu0 r).
Proof.
  intros Hr. unfold d_exp_front. destruct r as [|r]; [apply u01_one|]. apply exp_tau0. lia.
Qed.

Lemma em1_u01 x : ffin x = true -> fval x <= 0 -> u01 (fopp (l_expm1 lm x)).
Proof.
  intros F V. destruct (lo_expm1 lm Hlm x F V) as (A & B & _).
  split; [rewrite fopp_fin; exact A|]. rewrite fopp_val. lra.
Qed.

(** The antiderivative divides by the scaling factor of the layer. *)
Variable anti : bool.
Hypothesis Hanti : anti = true -> forall r, (r < fa_n a)%nat -> fval (w_ a r) * fval (f_ a r) <= / 2.

Lemma scale_half r : anti = true -> (r < fa_n a)%nat -> sz 0 (fa_scale a r) /\ / 2 <= fval (fa_scale a r) <= 1.
Proof.
  intros E Hr. pose proof (Hanti E r Hr) as Hh. destruct (scale_ok a Ha r Hr) as (F & R1 & V & _).
  split; [split; [exact F|rewrite two_0; apply Rabs_le; lra]|]. split; [|lra].
  destruct (peak_ok a Ha r Hr) as (_ & VP & _).
  assert (fh : fmt (/ 2)) by (change (/ 2) with (two (-1)); apply fmt_two; lia).
  assert (X : fval (fmul (w_ a r) (f_ a r)) <= / 2) by (rewrite VP; apply rn_le_fmt; [exact fh|exact Hh]).
  rewrite V. apply rn_ge_fmt; [exact fh|lra].
Qed.

Lemma sz_div_half e x y : (-1074 <= e + 1)%Z -> (e + 1 <= 1023)%Z -> sz e x -> / 2 <= Rabs (fval y) ->
  sz (e + 1) (fdiv x y) /\ fval (fdiv x y) = rn (fval x / fval y).
Proof.
  intros H1 H2 [Fx Bx] Hy.
  assert (N0 : fval y <> 0) by (intros E; rewrite E, Rabs_R0 in Hy; lra).
  assert (B : Rabs (rn (fval x / fval y)) <= two (e + 1)).
  { apply rn_abs_le; [apply fmt_two; lia|]. unfold Rdiv. rewrite Rabs_mult, Rabs_inv, two_add, two_1.
    apply Rmult_le_compat; [apply Rabs_pos|apply Rlt_le, Rinv_0_lt_compat; lra|exact Bx|].
    rewrite <- (Rinv_inv 2). apply Rinv_le_contravar; lra. }
  destruct (fdiv_ok x y Fx N0) as [F V].
  { eapply Rle_lt_trans; [exact B|]. apply two_lt_1024. lia. }
  split; [|exact V]. split; [exact F|]. rewrite V. exact B.
Qed.

Lemma ifac_ok r : anti = true -> (r < fa_n a)%nat -> ffin (d_ifac a mu r) = true /\ 0 <= fval (d_ifac a mu r) <= 2.
Proof.
  intros E Hr. destruct (scale_half r E Hr) as [S1 R1]. pose proof mu_pos as M. unfold d_ifac.
  assert (S2 : sz 0 mu) by (split; [apply Hmu|rewrite two_0; apply Rabs_le; lra]).
  destruct (sz_div_half 0 mu (fa_scale a r) ltac:(lia) ltac:(lia) S2) as [[F B] V]; [rewrite Rabs_pos_eq; lra|].
  split; [exact F|]. change (two (0 + 1)) with 2 in B. apply Rabs_le_inv in B. split; [|lra].
  rewrite V. apply rn_ge_fmt; [apply fmt_0|]. unfold Rdiv. apply Rmult_le_pos; [lra|apply Rlt_le, Rinv_0_lt_compat; lra].
Qed.

(** Numbers in [0, 2]. *)
Definition u02 (x : f64) : Prop := ffin x = true /\ 0 <= fval x <= 2.
Lemma u01_u02 x : u01 x -> u02 x.
Proof. intros [F B]. split; [exact F|lra]. Qed.
Lemma u02_mul x y : u02 x -> u01 y -> u02 (fmul x y) /\ fval (fmul x y) = rn (fval x * fval y).
Proof.
  intros [F B] Hy. assert (Sx : sz 1 x) by (split; [exact F|rewrite two_1; apply Rabs_le; lra]).
  destruct (sz_mul 1 0 x y ltac:(lia) ltac:(lia) Sx (u01_sz y Hy)) as [[F2 B2] V]. destruct Hy as [_ Hy].
  split; [|exact V]. split; [exact F2|]. change (two (1 + 0)) with 2 in B2. apply Rabs_le_inv in B2. split; [|lra].
  rewrite V. apply rn_ge_fmt; [apply fmt_0|nra].
Qed.

Lemma layer_pos_ok r : (r < fa_n a)%nat -> u02 (d_layer_pos lm a mu mu0 anti r).
Proof.
  intros Hr. unfold d_layer_pos. apply u02_mul; [|apply exp_front_ok, Hr].
  unfold d_em1_pos. cbv zeta.
  assert (U : u01 (fopp (l_expm1 lm (fopp (fmul (fa_sthick a r) (fadd (d_minv mu) (d_mu0inv mu0)))))));
    [|pose proof (ifac_ok r) as I; destruct anti; [apply u02_mul; [exact (I eq_refl Hr)|exact U]|apply u01_u02, U]].
  destruct minv_sz as [S1 R1]. destruct mu0inv_ok as [S2 R2].
  destruct (sz_add 40 _ _ ltac:(lia) ltac:(lia) S1 S2) as [S3 V3].
  destruct (sz_mul 10 41 _ _ ltac:(lia) ltac:(lia) (sthick_sz r Hr) S3) as [[F4 _] V4].
  apply em1_u01; [rewrite fopp_fin; exact F4|]. rewrite fopp_val, V4, V3.
  destruct (sthick_ok a Ha r Hr) as (_ & S & _).
  assert (0 <= rn (fval (d_minv mu) + fval (d_mu0inv mu0))) by (apply rn_ge_fmt; [apply fmt_0|lra]).
  assert (0 <= rn (fval (fa_sthick a r) * rn (fval (d_minv mu) + fval (d_mu0inv mu0))))
    by (apply rn_ge_fmt; [apply fmt_0|nra]).
  lra.
Qed.

Lemma rpos_ok l : (l < fa_n a)%nat -> sz 22 (d_rpos lm a mu mu0 anti l).
Proof.
  intros Hl. unfold d_rpos. destruct (Nat.ltb_spec (S l) (fa_n a)) as [H|H].
  2:{ split; [reflexivity|]. rewrite fzero_val, Rabs_R0. apply Rlt_le, two_pos. }
  set (m := (fa_n a - 1 - S l)%nat).
  set (c := 3 * att (S l)).
  pose proof (att_low (S l) ltac:(lia)) as AL. pose proof (two_pos (-998)) as P998.
  assert (A1 : att (S l) <= 1) by (apply (att_mono 0); lia).
  assert (N1 : INR (S m) <= two 20).
  { eapply Rle_trans; [|exact Hn]. apply le_INR. unfold m. lia. }
  assert (W : forall i, (i <= m)%nat ->
    ffin (d_weighted_pos lm a mu mu0 anti (fa_n a - 1 - i)) = true /\
    Rabs (fval (d_weighted_pos lm a mu mu0 anti (fa_n a - 1 - i))) <= c).
  { intros i Hi. set (r := (fa_n a - 1 - i)%nat). assert (Hr : (S l <= r < fa_n a)%nat) by (unfold r, m in *; lia).
    unfold d_weighted_pos.
    destruct (decay_att r ltac:(lia)) as [D1 D2].
    pose proof (layer_pos_ok r ltac:(lia)) as LP.
    destruct (u02_mul _ _ LP D1) as [[F B] L].
    split; [exact F|]. rewrite Rabs_pos_eq by lra. rewrite L. destruct LP as [_ LP].
    pose proof (att_mono (S l) r ltac:(lia) ltac:(lia)). unfold c.
    set (z := fval (d_layer_pos lm a mu mu0 anti r) * fval (d_decay_prod lm a mu r)).
    assert (Z : 0 <= z <= 9 / 4 * att (S l)).
    { destruct D1 as [_ D1]. unfold z. split; [apply Rmult_le_pos; lra|].
      apply Rle_trans with (2 * fval (d_decay_prod lm a mu r)); [apply Rmult_le_compat_r; lra|lra]. }
    pose proof (rn_err z) as E. rewrite (Rabs_pos_eq z) in E by lra. apply Rabs_le_inv in E.
    pose proof u_small as US. pose proof (two_pos (-53)) as UP.
    assert (TE : two (-1075) <= / 1024 * two (-998)).
    { change (/ 1024) with (two (-10)). rewrite <- two_add. apply two_le. lia. }
    nra. }
  assert (KB : forall j, (j <= m)%nat -> ksum (fun _ => c) j <= 9 / 8 * (two 20 * c) + two (-1053)).
  { intros j Hj. eapply Rle_trans; [apply (ksum_const _ c)|].
    - unfold c. lra.
    - intros. unfold c. lra.
    - eapply Rle_trans; [|exact N1]. apply le_INR. lia.
    - apply Rplus_le_compat_r, Rmult_le_compat_l; [lra|].
      apply Rmult_le_compat_r; [unfold c; lra|]. eapply Rle_trans; [|exact N1]. apply le_INR. lia. }
  assert (T20 : two 20 = 1048576) by reflexivity.
  assert (T1053 : two (-1053) <= / 1024 * two (-998)).
  { change (/ 1024) with (two (-10)). rewrite <- two_add. apply two_le. lia. }
  assert (BIG : 4194304 < two 1024).
  { change 4194304 with (two 22). apply two_lt_1024. lia. }
  destruct (csum_abs (fun i => d_weighted_pos lm a mu mu0 anti (fa_n a - 1 - i)) (fun _ => c) m W)
    as [F B].
  { intros j Hj. eapply Rle_lt_trans; [apply KB, Hj|]. rewrite T20. unfold c. lra. }
  fold (rcsum (d_weighted_pos lm a mu mu0 anti) (fa_n a) (S l)) in F, B.
  destruct (decay_att (S l) ltac:(lia)) as [[F2 _] D2].
  assert (DP : 0 < fval (d_decay_prod lm a mu (S l))) by lra.
  assert (Q : Rabs (fval (rcsum (d_weighted_pos lm a mu mu0 anti) (fa_n a) (S l)) /
                    fval (d_decay_prod lm a mu (S l))) <= two 22).
  { unfold Rdiv. rewrite Rabs_mult, Rabs_inv, (Rabs_pos_eq (fval (d_decay_prod lm a mu (S l)))) by lra.
    apply Rmult_le_reg_r with (fval (d_decay_prod lm a mu (S l))); [exact DP|].
    rewrite Rmult_assoc, Rinv_l, Rmult_1_r by lra.
    eapply Rle_trans; [exact B|]. eapply Rle_trans; [apply KB; lia|].
    change (two 22) with 4194304. rewrite T20. unfold c. lra. }
  assert (QR : Rabs (rn (fval (rcsum (d_weighted_pos lm a mu mu0 anti) (fa_n a) (S l)) /
                    fval (d_decay_prod lm a mu (S l)))) <= two 22).
  { apply rn_abs_le; [apply fmt_two; lia|exact Q]. }
  destruct (fdiv_ok _ (d_decay_prod lm a mu (S l)) F ltac:(lra)) as [F3 V3].
  { eapply Rle_lt_trans; [exact QR|]. apply two_lt_1024. lia. }
  split; [exact F3|]. eapply Rle_trans; [|exact QR]. right. f_equal. exact V3.
Qed.

(** Contributions from above. *)
Lemma thick_neg_sz r : (r < fa_n a)%nat -> sz 51 (d_thick_neg a mu mu0 r).
Proof.
  intros Hr. destruct minv_sz as [S1 _]. destruct mu0inv_ok as [S2 _].
  destruct (sz_sub 40 _ _ ltac:(lia) ltac:(lia) S1 S2) as [S3 _].
  destruct (sz_mul 10 41 _ _ ltac:(lia) ltac:(lia) (sthick_sz r Hr) S3) as [S4 _]. exact S4.
Qed.

Lemma layer_neg_ok r : (r < fa_n a)%nat -> sz 1 (d_layer_neg lm a mu mu0 anti r).
Proof.
  intros Hr. unfold d_layer_neg. cbv zeta.
  destruct (sz_abs _ _ (thick_neg_sz r Hr)) as [FA _].
  assert (EM : ffin (d_em1_neg lm a mu mu0 r) = true /\ -1 <= fval (d_em1_neg lm a mu mu0 r) <= 0).
  { unfold d_em1_neg. destruct (lo_expm1 lm Hlm (fopp (fabs (d_thick_neg a mu mu0 r)))) as (E1 & E2 & _);
      [rewrite fopp_fin; exact FA| |split; assumption].
    rewrite fopp_val, fabs_val. pose proof (Rabs_pos (fval (d_thick_neg a mu mu0 r))). lra. }
  destruct EM as [FE RE].
  assert (X0 : u01 (d_exp_x0 lm a mu mu0 r)).
  { unfold d_exp_x0. apply u01_mul; [|apply exp_front_ok, Hr]. unfold d_decay.
    destruct (log_decay_val r Hr) as [F V]. apply exp_u01; [exact F|]. rewrite V.
    pose proof (opt_nonneg a mu Ha Hmu r Hr). lra. }
  assert (X1 : u01 (d_exp_x1 lm a mu0 r)) by (apply exp_tau0; lia).
  assert (EU : u01 (fopp (d_em1_neg lm a mu mu0 r))).
  { split; [rewrite fopp_fin; exact FE|]. rewrite fopp_val. lra. }
  assert (ES : sz 0 (d_em1_neg lm a mu mu0 r)).
  { split; [exact FE|]. rewrite two_0. apply Rabs_le. lra. }
  destruct (u01_mul _ _ EU X1) as [PT _].
  destruct (sz_mul 0 0 _ _ ltac:(lia) ltac:(lia) ES (u01_sz _ X0)) as [NT _].
  pose proof (u01_sz _ PT) as PS. change (0 + 0)%Z with 0%Z in NT.
  set (p := fmul (fopp (d_em1_neg lm a mu mu0 r)) (d_exp_x1 lm a mu0 r)) in *.
  set (q := fmul (d_em1_neg lm a mu mu0 r) (d_exp_x0 lm a mu mu0 r)) in *.
  assert (FB : forall b, sz 0 (f_of_bool b)).
  { intros []; apply u01_sz; [apply u01_one|]. split; [reflexivity|]. unfold f_of_bool. rewrite fzero_val. lra. }
  assert (BV : forall b, fval (f_of_bool b) = if b then 1 else 0).
  { intros []; [apply fone_val|apply fzero_val]. }
  set (m := d_mask a mu mu0 r).
  destruct (sz_mul 0 0 _ _ ltac:(lia) ltac:(lia) PS (FB m)) as [S1 V1].
  destruct (sz_mul 0 0 _ _ ltac:(lia) ltac:(lia) NT (FB (negb m))) as [S2 V2].
  destruct (sz_add 0 _ _ ltac:(lia) ltac:(lia) S1 S2) as [[F3 _] V3].
  assert (SS : sz 0 (fadd (fmul p (f_of_bool m)) (fmul q (f_of_bool (negb m)))));
    [|pose proof (ifac_ok r) as I; destruct anti; [|apply (sz_weaken 0); [lia|exact SS]];
      destruct (I eq_refl Hr) as [FI RI];
      apply (sz_mul 1 0 _ _ ltac:(lia) ltac:(lia)); [apply sz_opp; split; [exact FI|rewrite two_1; apply Rabs_le; lra]|exact SS]].
  split; [exact F3|]. rewrite V3, V1, V2, !BV. destruct PS as [_ PB]. destruct NT as [_ NB].
  assert (Fp : forall x : f64, rn (fval x) = fval x) by (intros; apply rn_fmt, fmt_val).
  destruct m; cbn [negb]; rewrite ?Rmult_0_r, ?Rmult_1_r, ?rn_0, ?Fp, ?Rplus_0_l, ?Rplus_0_r, ?Fp;
    assumption.
Qed.

Lemma rneg_ok l : (l < fa_n a)%nat -> sz 22 (d_rneg lm a mu mu0 anti l).
Proof.
  intros Hl. destruct l as [|l]; unfold d_rneg.
  { split; [reflexivity|]. rewrite fzero_val, Rabs_R0. apply Rlt_le, two_pos. }
  pose proof (att_low (S l) ltac:(lia)) as AL. pose proof (two_pos (-998)) as P998.
  assert (A1 : att (S l) <= 1) by (apply (att_mono 0); lia).
  set (c := 5 / 2 * / att (S l)).
  assert (IP : 1 <= / att (S l)).
  { rewrite <- Rinv_1 at 1. apply Rinv_le_contravar; lra. }
  assert (IB : / att (S l) <= two 998).
  { replace (two 998) with (/ two (-998)) by (unfold two; rewrite <- bpow_opp; reflexivity).
    apply Rinv_le_contravar; lra. }
  assert (W : forall i, (i <= l)%nat ->
    ffin (d_weighted_neg lm a mu mu0 anti i) = true /\
    Rabs (fval (d_weighted_neg lm a mu mu0 anti i)) <= c).
  { intros i Hi. unfold d_weighted_neg.
    destruct (layer_neg_ok i ltac:(lia)) as [FL BL]. rewrite two_1 in BL.
    destruct (decay_att (S i) ltac:(lia)) as [[F2 _] D2].
    pose proof (att_mono (S i) (S l) ltac:(lia) ltac:(lia)) as AM.
    set (dp := fval (d_decay_prod lm a mu (S i))) in *.
    assert (DP : 0 < dp) by lra.
    assert (Q : Rabs (fval (d_layer_neg lm a mu mu0 anti i) / dp) <= 16 / 7 * / att (S l)).
    { unfold Rdiv at 1. rewrite Rabs_mult, Rabs_inv, (Rabs_pos_eq dp) by lra.
      apply Rle_trans with (2 * / (7 / 8 * att (S l))).
      - apply Rmult_le_compat; [apply Rabs_pos|apply Rlt_le, Rinv_0_lt_compat, DP|exact BL|].
        apply Rinv_le_contravar; lra.
      - right. field. lra. }
    pose proof (rn_err (fval (d_layer_neg lm a mu mu0 anti i) / dp)) as E.
    pose proof u_small as US. pose proof eta_u as EU. pose proof (two_pos (-53)) as UP.
    assert (QR : Rabs (rn (fval (d_layer_neg lm a mu mu0 anti i) / dp)) <= c).
    { unfold c. set (z := fval (d_layer_neg lm a mu mu0 anti i) / dp) in *.
      replace (rn z) with ((rn z - z) + z) by ring.
      eapply Rle_trans; [apply Rabs_triang|]. pose proof (Rabs_pos z). nra. }
    destruct (fdiv_ok _ (d_decay_prod lm a mu (S i)) FL) as [F3 V3].
    - fold dp. lra.
    - fold dp. eapply Rle_lt_trans; [exact QR|]. unfold c.
      apply Rle_lt_trans with (two 2 * two 998); [change (two 2) with 4; nra|].
      rewrite <- two_add. apply two_lt_1024. lia.
    - split; [exact F3|]. rewrite V3. exact QR. }
  assert (N1 : INR (S l) <= two 20).
  { eapply Rle_trans; [|exact Hn]. apply le_INR. lia. }
  assert (C0 : 1 <= c) by (unfold c; lra).
  assert (T1053 : two (-1053) <= / 1024).
  { change (/ 1024) with (two (-10)). apply two_le. lia. }
  assert (KB : forall j, (j <= l)%nat -> ksum (fun _ => c) j <= 10 / 8 * (two 20 * c)).
  { intros j Hj.
    assert (NJ : INR (S j) <= two 20) by (eapply Rle_trans; [|exact N1]; apply le_INR; lia).
    eapply Rle_trans; [apply (ksum_const _ c); [lra|intros; lra|exact NJ]|].
    assert (INR (S j) * c <= two 20 * c) by (apply Rmult_le_compat_r; lra).
    assert (1 <= two 20 * c).
    { rewrite <- (Rmult_1_l 1). apply Rmult_le_compat; try lra. rewrite <- two_0. apply two_le. lia. }
    lra. }
  destruct (csum_abs (d_weighted_neg lm a mu mu0 anti) (fun _ => c) l W) as [F B].
  { intros j Hj. eapply Rle_lt_trans; [apply KB, Hj|].
    apply Rle_lt_trans with (two 2 * (two 20 * two 998)).
    - change (two 2) with 4. pose proof (two_pos 20). unfold c.
      assert (two 20 * / att (S l) <= two 20 * two 998) by (apply Rmult_le_compat_l; lra).
      assert (0 < two 20 * two 998) by (apply Rmult_lt_0_compat; apply two_pos). lra.
    - rewrite <- !two_add. apply two_lt_1024. lia. }
  destruct (decay_att (S l) ltac:(lia)) as [[F2 R2] D2].
  set (dp := d_decay_prod lm a mu (S l)) in *. set (s := csum (d_weighted_neg lm a mu mu0 anti) l) in *.
  assert (Q : Rabs (fval dp * fval s) <= two 22).
  { rewrite Rabs_mult, (Rabs_pos_eq (fval dp)) by lra.
    apply Rle_trans with (9 / 8 * att (S l) * (10 / 8 * (two 20 * c))).
    - apply Rmult_le_compat; [lra|apply Rabs_pos|lra|].
      eapply Rle_trans; [exact B|]. apply KB. lia.
    - unfold c. replace (two 22) with (4 * two 20)
        by (change 22%Z with (2 + 20)%Z; rewrite two_add; reflexivity).
      replace (9 / 8 * att (S l) * (10 / 8 * (two 20 * (5 / 2 * / att (S l)))))
        with (9 / 8 * (10 / 8) * (5 / 2) * two 20) by (field; lra).
      pose proof (two_pos 20). lra. }
  assert (QR : Rabs (rn (fval dp * fval s)) <= two 22) by (apply rn_abs_le; [apply fmt_two; lia|exact Q]).
  destruct (fmul_ok dp s F2 F) as [F3 V3].
  { eapply Rle_lt_trans; [exact QR|]. apply two_lt_1024. lia. }
  split; [exact F3|]. rewrite V3. exact QR.
Qed.

(** Depths of the caller. *)
Lemma tau_bound r : (r < fa_n a)%nat -> fval (t_ a r) <= two 60.
Proof.
  intros Hr.
  assert (E : forall k, (k < fa_n a)%nat -> rsum (S k) (thickness a) = fval (t_ a k)).
  { induction k as [|k IH]; intros Hk; [cbn [rsum thickness]; ring|].
    change (rsum (S (S k)) (thickness a)) with (rsum (S k) (thickness a) + thickness a (S k)).
    rewrite IH by lia. unfold thickness. ring. }
  assert (L : forall k, (k <= fa_n a)%nat -> two (-50) * rsum k (thickness a) <= scaled_depth a (two (-50)) k).
  { unfold scaled_depth. induction k as [|k IH]; intros Hk; cbn [rsum]; [lra|].
    specialize (IH ltac:(lia)). pose proof (thickness_pos a Ha k ltac:(lia)).
    pose proof (scaling_range a Ha k ltac:(lia)). nra. }
  pose proof (L (S r) ltac:(lia)) as L1. rewrite E in L1 by exact Hr.
  pose proof (sd_mono (S r) (fa_n a) ltac:(lia) ltac:(lia)) as L2. pose proof mu_pos as M.
  apply Rmult_le_reg_l with (two (-50)); [apply two_pos|]. rewrite <- two_add.
  change (two (-50 + 60)) with 1024. nra.
Qed.

Lemma t_sz r : (r < fa_n a)%nat -> sz 60 (t_ a r).
Proof.
  intros Hr. split; [apply (ao_fin a Ha), Hr|]. pose proof (ao_tau a Ha r Hr).
  rewrite Rabs_pos_eq by lra. apply tau_bound, Hr.
Qed.

Section Tau.
Variables (l : nat) (tau : f64).
Hypothesis Ht : in_layer a l tau.

Lemma l_lt : (l < fa_n a)%nat.
Proof. apply Ht. Qed.

Lemma tau_sz : sz 60 tau.
Proof.
  destruct Ht as (Hl & F & R & _). split; [exact F|]. rewrite Rabs_pos_eq by lra.
  pose proof (tau_bound l Hl). lra.
Qed.

(** The offset from the lower boundary of the layer. *)
Definition off : f64 := fmul (fsub (t_ a l) tau) (fa_scale a l).

Lemma off_ok : sz 61 off /\ 0 <= fval off <= fval (fa_sthick a l).
Proof.
  pose proof l_lt as Hl. destruct Ht as (_ & F & R & Hr).
  destruct (sz_sub 60 _ _ ltac:(lia) ltac:(lia) (t_sz l Hl) tau_sz) as [S1 V1].
  destruct (scale_ok a Ha l Hl) as (F2 & R2 & _).
  assert (S2 : sz 0 (fa_scale a l)) by (split; [exact F2|]; rewrite two_0; apply Rabs_le; lra).
  destruct (sz_mul 61 0 _ _ ltac:(lia) ltac:(lia) S1 S2) as [S3 V3].
  split; [exact S3|]. unfold off. rewrite V3, V1.
  assert (D : 0 <= rn (fval (t_ a l) - fval tau)) by (apply rn_ge_fmt; [apply fmt_0|lra]).
  split; [apply rn_ge_fmt; [apply fmt_0|nra]|].
  destruct (sthick_ok a Ha l Hl) as (_ & _ & E & _). rewrite E.
  destruct (thick_ok a Ha l Hl) as (_ & E2 & _). rewrite E2.
  apply rn_le. rewrite Rmult_comm. apply Rmult_le_compat_l; [lra|]. apply rn_le.
  destruct l as [|k]; unfold thickness; [lra|]. pose proof (Hr k ltac:(lia)). lra.
Qed.

Lemma stau_ok : sz 62 (d_stau a tau) /\
  fval (d_stau a tau) = rn (fval (fa_stau0 a (S l)) - fval off) /\
  0 <= fval (d_stau a tau) <= fval (fa_stau0 a (S l)) /\
  fval (fa_stau0 a l) - fval (d_stau a tau) <= two (-41).
Proof.
  pose proof l_lt as Hl. destruct off_ok as [S1 R1]. destruct (stau0_ok (S l) ltac:(lia)) as [S2 R2].
  destruct (stau0_ok l ltac:(lia)) as [_ R3]. destruct (sthick_ok a Ha l Hl) as (_ & ST & _).
  destruct (sz_sub 61 (fa_stau0 a (S l)) off ltac:(lia) ltac:(lia)
             (sz_weaken 10 61 _ ltac:(lia) S2) S1) as [S3 V3].
  assert (Eq : d_stau a tau = fsub (fa_stau0 a (S l)) off).
  { unfold d_stau, off. rewrite (layer_ok a Ha l tau Ht). reflexivity. }
  rewrite Eq. split; [exact S3|]. split; [exact V3|]. rewrite V3.
  pose proof (stau0_step l Hl) as St.
  assert (G : fval (fa_sthick a l) <= fval (fa_stau0 a (S l))).
  { rewrite St. apply rn_ge_fmt; [apply fmt_val|lra]. }
  split.
  - split; [apply rn_ge_fmt; [apply fmt_0|lra]|apply rn_le_fmt; [apply fmt_val|lra]].
  - pose proof (rn_err (fval (fa_stau0 a l) + fval (fa_sthick a l))) as E1. rewrite <- St in E1.
    pose proof (rn_err (fval (fa_stau0 a (S l)) - fval off)) as E2.
    assert (SL : fval (fa_sthick a l) <= 691).
    { pose proof (sthick_le_opt l Hl). pose proof (opt_le_osum l Hl). pose proof (osum_le l Hl). lra. }
    apply Rabs_le_inv in E1. apply Rabs_le_inv in E2.
    rewrite (Rabs_pos_eq (fval (fa_stau0 a l) + fval (fa_sthick a l))) in E1 by lra.
    rewrite (Rabs_pos_eq (fval (fa_stau0 a (S l)) - fval off)) in E2 by lra.
    assert (T : two (-41) = 4096 * two (-53)).
    { change (-41)%Z with (12 + -53)%Z. rewrite two_add. reflexivity. }
    rewrite T. pose proof eta_u. pose proof (two_pos (-53)).
    nra.
Qed.

Variables (B ustar rescale ims : f64).
Hypothesis HB : sz 400 B.
Hypothesis Hustar : sz 1000 ustar.
Hypothesis Hrescale : sz 400 rescale.
Hypothesis Hims : sz 400 ims.

Lemma sz_exp_one x : ffin x = true -> fval x <= 1 -> sz 2 (l_exp lm x).
Proof.
  intros F V. destruct (lo_exp_one lm Hlm x F V) as (G & R & _). split; [exact G|].
  change (two 2) with 4. rewrite Rabs_pos_eq; lra.
Qed.

Lemma e1_ok : sz 2 (l_exp lm (fdiv (fopp (d_stau a tau)) mu0)).
Proof.
  destruct stau_ok as (S1 & _ & R1 & _).
  destruct (sz_div_cos 62 _ mu0 ltac:(lia) ltac:(lia) (sz_opp _ _ S1) Hmu0) as [[F _] V].
  apply sz_exp_one; [exact F|]. rewrite V, fopp_val. destruct Hmu0 as (_ & M & _).
  pose proof (two_pos (-40)). apply rn_le_fmt; [apply fmt_1|].
  apply Rle_trans with 0; [|lra]. unfold Rdiv.
  assert (0 < / fval mu0) by (apply Rinv_0_lt_compat; lra). nra.
Qed.

Lemma own_divisors k : anti = true -> (k < fa_n a)%nat ->
  / 2 <= Rabs (fval (fdiv (fopp (fa_scale a k)) mu0)) /\ / 2 <= Rabs (fval (fdiv (fa_scale a k) mu)).
Proof.
  intros E Hk. destruct (scale_half k E Hk) as [S1 R1].
  assert (fh : fmt (/ 2)) by (change (/ 2) with (two (-1)); apply fmt_two; lia).
  assert (Q : forall m, cosine_ok m -> / 2 <= fval (fa_scale a k) / fval m).
  { intros m (_ & M1 & M2). pose proof (two_pos (-40)). apply Rmult_le_reg_r with (fval m); [lra|].
    unfold Rdiv. rewrite Rmult_assoc, Rinv_l, Rmult_1_r by lra. nra. }
  destruct (sz_div_cos 0 _ mu0 ltac:(lia) ltac:(lia) (sz_opp _ _ S1) Hmu0) as [_ V1].
  destruct (sz_div_cos 0 _ mu ltac:(lia) ltac:(lia) S1 Hmu) as [_ V2]. rewrite V1, V2, fopp_val.
  pose proof (Q mu0 Hmu0) as Q0. pose proof (Q mu Hmu) as Q1. split.
  - replace (- fval (fa_scale a k) / fval mu0) with (- (fval (fa_scale a k) / fval mu0)) by (unfold Rdiv; ring).
    apply Rle_trans with (- rn (- (fval (fa_scale a k) / fval mu0))).
    + assert (rn (- (fval (fa_scale a k) / fval mu0)) <= - / 2); [|lra].
      apply rn_le_fmt; [apply fmt_opp, fh|lra].
    + rewrite <- Rabs_Ropp. apply Rle_abs.
  - eapply Rle_trans; [|apply Rle_abs]. apply rn_ge_fmt; [exact fh|exact Q1].
Qed.

Lemma own_up_ok : sz 4 (d_own_up lm a mu mu0 anti tau).
Proof.
  unfold d_own_up. cbv zeta. rewrite (layer_ok a Ha l tau Ht). pose proof l_lt as Hl.
  destruct stau_ok as (S1 & _ & R1 & _). destruct (stau0_ok (S l) ltac:(lia)) as [S2 R2].
  pose proof (sz_weaken 10 62 _ ltac:(lia) S2) as S2'.
  destruct (sz_sub 62 _ _ ltac:(lia) ltac:(lia) S1 S2') as [S3 V3].
  destruct (sz_div_cos 63 _ mu ltac:(lia) ltac:(lia) S3 Hmu) as [S4 V4].
  destruct (sz_div_cos 63 _ mu0 ltac:(lia) ltac:(lia) (sz_weaken 10 63 _ ltac:(lia) S2) Hmu0) as [S5 V5].
  destruct (sz_sub 103 _ _ ltac:(lia) ltac:(lia) S4 S5) as [[F6 _] V6].
  match goal with |- context [l_exp lm ?z] => match z with context [fsub (fdiv _ _) _] => assert (E2 : sz 2 (l_exp lm z)) end end;
    [|pose proof e1_ok as E1; pose proof (own_divisors l) as OD; destruct anti;
      [destruct (OD eq_refl Hl) as [OD1 OD2]; apply (sz_sub 3); [lia|lia| |]; apply (sz_div_half 2); first [lia|assumption]
      |apply (sz_weaken 3); [lia|]; apply (sz_sub 2); [lia|lia|exact E1|exact E2]]].
  apply sz_exp_one; [exact F6|].
  rewrite V6, V4, V5, V3. pose proof mu_pos as M1. destruct Hmu0 as (_ & M2 & _). pose proof (two_pos (-40)).
  assert (I1 : 0 < / fval mu) by (apply Rinv_0_lt_compat; lra).
  assert (I2 : 0 < / fval mu0) by (apply Rinv_0_lt_compat; lra).
  assert (A1 : rn (fval (d_stau a tau) - fval (fa_stau0 a (S l))) <= 0) by (apply rn_le_fmt; [apply fmt_0|lra]).
  assert (A2 : rn (rn (fval (d_stau a tau) - fval (fa_stau0 a (S l))) / fval mu) <= 0)
    by (apply rn_le_fmt; [apply fmt_0|unfold Rdiv; nra]).
  assert (A3 : 0 <= rn (fval (fa_stau0 a (S l)) / fval mu0))
    by (apply rn_ge_fmt; [apply fmt_0|unfold Rdiv; nra]).
  apply rn_le_fmt; [apply fmt_1|lra].
Qed.

Lemma drop_small : rn (fval (fa_stau0 a l) - fval (d_stau a tau)) <= two (-41).
Proof. apply rn_le_fmt; [apply fmt_two; lia|apply stau_ok]. Qed.

Lemma own_down_ok : sz 4 (d_own_down lm a mu mu0 anti tau).
Proof.
  unfold d_own_down. cbv zeta. rewrite (layer_ok a Ha l tau Ht). pose proof l_lt as Hl.
  destruct stau_ok as (S1 & _ & R1 & _). destruct (stau0_ok l ltac:(lia)) as [S2 R2].
  pose proof (sz_weaken 10 62 _ ltac:(lia) S2) as S2'.
  destruct (sz_sub 62 _ _ ltac:(lia) ltac:(lia) S2' S1) as [S3 V3].
  destruct (sz_div_cos 63 _ mu ltac:(lia) ltac:(lia) S3 Hmu) as [S4 V4].
  destruct (sz_div_cos 63 _ mu0 ltac:(lia) ltac:(lia) (sz_weaken 10 63 _ ltac:(lia) S2) Hmu0) as [S5 V5].
  destruct (sz_sub 103 _ _ ltac:(lia) ltac:(lia) S4 S5) as [[F6 _] V6].
  match goal with |- context [l_exp lm ?z] => match z with context [fsub (fdiv _ _) _] => assert (E2 : sz 2 (l_exp lm z)) end end;
    [|pose proof e1_ok as E1; pose proof (own_divisors l) as OD; destruct anti;
      [destruct (OD eq_refl Hl) as [OD1 OD2]; apply (sz_add 3); [lia|lia| |]; apply (sz_div_half 2); first [lia|assumption]
      |apply (sz_weaken 3); [lia|]; apply (sz_sub 2); [lia|lia|exact E1|exact E2]]].
  apply sz_exp_one; [exact F6|].
  rewrite V6, V4, V5, V3. pose proof mu_pos as M1. destruct Hmu0 as (_ & M2 & _). pose proof (two_pos (-40)).
  assert (I2 : 0 < / fval mu0) by (apply Rinv_0_lt_compat; lra).
  pose proof drop_small as DS.
  set (z := rn (fval (fa_stau0 a l) - fval (d_stau a tau))) in *.
  assert (A2 : rn (z / fval mu) <= 1).
  { apply rn_le_fmt; [apply fmt_1|]. apply Rmult_le_reg_r with (fval mu); [lra|].
    unfold Rdiv. rewrite Rmult_assoc, Rinv_l, Rmult_1_r, Rmult_1_l by lra.
    destruct Hmu as (_ & M3 & _). eapply Rle_trans; [exact DS|].
    eapply Rle_trans; [|exact M3]. apply two_le. lia. }
  assert (A3 : 0 <= rn (fval (fa_stau0 a l) / fval mu0))
    by (apply rn_ge_fmt; [apply fmt_0|unfold Rdiv; nra]).
  apply rn_le_fmt; [apply fmt_1|lra].
Qed.

Lemma other_sz (R e : f64) : sz 22 R -> sz 2 e -> sz 424 (fmul (fmul R e) B).
Proof.
  intros HR He. destruct (sz_mul 22 2 _ _ ltac:(lia) ltac:(lia) HR He) as [S1 _].
  destruct (sz_mul 24 400 _ _ ltac:(lia) ltac:(lia) S1 HB) as [S2 _]. exact S2.
Qed.

Lemma tms_up_ok lmin : sz 430 (d_tms_up lm a mu mu0 anti lmin B tau).
Proof.
  unfold d_tms_up. cbv zeta. rewrite (layer_ok a Ha l tau Ht). pose proof l_lt as Hl.
  destruct (sz_mul 400 4 _ _ ltac:(lia) ltac:(lia) HB own_up_ok) as [S1 _].
  destruct (Nat.ltb 1 (fa_n a) && Nat.ltb lmin (fa_n a - 1));
    [|apply (sz_weaken 404); [lia|exact S1]].
  apply (sz_weaken 425); [lia|]. apply (sz_add 424); [lia|lia|apply (sz_weaken 404); [lia|exact S1]|].
  apply other_sz; [apply rpos_ok, Hl|].
  destruct stau_ok as (S2 & _ & R2 & _). destruct (stau0_ok (S l) ltac:(lia)) as [S3 R3].
  destruct (sz_sub 62 _ _ ltac:(lia) ltac:(lia) S2 (sz_weaken 10 62 _ ltac:(lia) S3)) as [S4 V4].
  destruct minv_sz as [S5 R5].
  destruct (sz_mul 40 63 _ _ ltac:(lia) ltac:(lia) S5 S4) as [[F6 _] V6].
  apply sz_exp_one; [exact F6|]. rewrite V6, V4.
  assert (A1 : rn (fval (d_stau a tau) - fval (fa_stau0 a (S l))) <= 0) by (apply rn_le_fmt; [apply fmt_0|lra]).
  apply rn_le_fmt; [apply fmt_1|nra].
Qed.

Lemma tms_down_ok lmax : sz 430 (d_tms_down lm a mu mu0 anti lmax B tau).
Proof.
  unfold d_tms_down. cbv zeta. rewrite (layer_ok a Ha l tau Ht). pose proof l_lt as Hl.
  destruct (sz_mul 400 4 _ _ ltac:(lia) ltac:(lia) HB own_down_ok) as [S1 _].
  destruct (Nat.ltb 1 (fa_n a) && Nat.ltb 0 lmax);
    [|apply (sz_weaken 404); [lia|exact S1]].
  apply (sz_weaken 425); [lia|]. apply (sz_add 424); [lia|lia|apply (sz_weaken 404); [lia|exact S1]|].
  apply other_sz; [apply rneg_ok, Hl|].
  destruct stau_ok as (S2 & _ & R2 & _). destruct (stau0_ok l ltac:(lia)) as [S3 R3].
  destruct (sz_sub 62 _ _ ltac:(lia) ltac:(lia) (sz_weaken 10 62 _ ltac:(lia) S3) S2) as [S4 V4].
  destruct minv_sz as [S5 R5]. destruct (minv_ok mu Hmu) as (_ & [_ M40] & _).
  destruct (sz_mul 40 63 _ _ ltac:(lia) ltac:(lia) S5 S4) as [[F6 _] V6].
  apply sz_exp_one; [exact F6|]. rewrite V6, V4. pose proof drop_small as DS.
  set (z := rn (fval (fa_stau0 a l) - fval (d_stau a tau))) in *.
  apply rn_le_fmt; [apply fmt_1|].
  apply Rle_trans with (fval (d_minv mu) * two (-41)); [apply Rmult_le_compat_l; lra|].
  apply Rle_trans with (two 40 * two (-41));
    [apply Rmult_le_compat_r; [apply Rlt_le, two_pos|exact M40]|].
  rewrite <- two_add. rewrite <- two_0. apply two_le. lia.
Qed.

Lemma u_up_fin lmin : ffin (d_u_up lm a mu mu0 anti lmin ustar rescale B tau) = true.
Proof.
  unfold d_u_up.
  destruct (sz_mul 400 430 _ _ ltac:(lia) ltac:(lia) Hrescale (tms_up_ok lmin)) as [S1 _].
  destruct (sz_add 1000 _ _ ltac:(lia) ltac:(lia) Hustar (sz_weaken 830 1000 _ ltac:(lia) S1)) as [[F _] _].
  exact F.
Qed.

Lemma u_down_fin lmax : ffin (d_u_down lm a mu mu0 anti lmax ustar rescale B ims tau) = true.
Proof.
  unfold d_u_down.
  destruct (sz_add 430 _ _ ltac:(lia) ltac:(lia) (tms_down_ok lmax) (sz_weaken 400 430 _ ltac:(lia) Hims)) as [S0 _].
  destruct (sz_mul 400 431 _ _ ltac:(lia) ltac:(lia) Hrescale S0) as [S1 _].
  destruct (sz_add 1000 _ _ ltac:(lia) ltac:(lia) Hustar (sz_weaken 831 1000 _ ltac:(lia) S1)) as [[F _] _].
  exact F.
Qed.
End Tau.
End Dir.
