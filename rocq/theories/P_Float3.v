(** * Below a thick layer the correction is not a number. *)
From Coq Require Import ZArith Reals List Bool Lia Lra Psatz.
From Flocq Require Import Core Relative Plus_error IEEE754.BinarySingleNaN.
From Verif Require Import Base M_Float Spec_Float P_Float P_Float2.
Import ListNotations.
Open Scope R_scope.

(** exp(1) > 2.7169, and its powers. *)
Lemma exp_nat x n : exp (INR n * x) = exp x ^ n.
Proof.
  induction n as [|n IH]; [simpl; rewrite Rmult_0_l; apply exp_0|].
  rewrite S_INR. replace ((INR n + 1) * x) with (INR n * x + x) by ring.
  rewrite exp_plus, IH. simpl. ring.
Qed.

Lemma pow_ratio p q n : (0 < q)%Z -> (IZR p / IZR q) ^ n = IZR (p ^ Z.of_nat n) / IZR (q ^ Z.of_nat n).
Proof.
  intros Hq. unfold Rdiv. rewrite Rpow_mult_distr, pow_inv.
  rewrite !pow_IZR. reflexivity.
Qed.

Lemma exp_1_low : 27169 / 10000 <= exp 1.
Proof.
  assert (H : exp 1 = exp (/ 1000) ^ Pos.to_nat 1000).
  { rewrite <- exp_nat. f_equal. rewrite INR_IZR_INZ, positive_nat_Z. field. }
  rewrite H. apply Rle_trans with ((1001 / 1000) ^ Pos.to_nat 1000).
  - rewrite pow_ratio by lia. rewrite positive_nat_Z.
    apply Rmult_le_reg_r with (IZR (1000 ^ 1000)); [apply IZR_lt; vm_compute; reflexivity|].
    unfold Rdiv. rewrite (Rmult_assoc (IZR (1001 ^ 1000))), Rinv_l, Rmult_1_r
      by (apply not_0_IZR; vm_compute; discriminate).
    apply Rmult_le_reg_l with 10000; [lra|].
    replace (10000 * (27169 * / 10000 * IZR (1000 ^ 1000))) with (27169 * IZR (1000 ^ 1000)) by field.
    rewrite <- !mult_IZR. apply IZR_le. vm_compute. discriminate.
  - apply pow_incr. split; [lra|]. pose proof (exp_ineq1_le (/ 1000)). lra.
Qed.

Lemma exp_747 : two 1077 <= exp 747.
Proof.
  replace 747 with (INR (Pos.to_nat 747) * 1)
    by (rewrite INR_IZR_INZ, positive_nat_Z; ring).
  rewrite exp_nat. apply Rle_trans with ((27169 / 10000) ^ Pos.to_nat 747).
  - rewrite pow_ratio by lia. rewrite positive_nat_Z.
    replace (two 1077) with (IZR (2 ^ 1077))
      by (unfold two; rewrite <- (IZR_Zpower radix2); [reflexivity | lia]).
    apply Rmult_le_reg_r with (IZR (10000 ^ 747)); [apply IZR_lt; vm_compute; reflexivity|].
    unfold Rdiv. rewrite (Rmult_assoc (IZR (27169 ^ 747))), Rinv_l, Rmult_1_r
      by (apply not_0_IZR; vm_compute; discriminate).
    rewrite <- !mult_IZR. apply IZR_le. vm_compute. discriminate.
  - apply pow_incr. split; [lra|]. apply exp_1_low.
Qed.

Lemma exp_m747 : exp (-747) <= two (-1077).
Proof.
  replace (-747) with (- (747)) by lra. rewrite (exp_Ropp 747).
  replace (two (-1077)) with (/ two 1077) by (unfold two; rewrite <- bpow_opp; reflexivity).
  apply Rinv_le_contravar; [apply two_pos | apply exp_747].
Qed.

Lemma fin_tiny x : ffin x = true -> 0 <= fval x < two (-1074) -> exists s, x = B754_zero s.
Proof.
  intros Hf H. destruct x as [s|s| |s m e Hb]; try discriminate; eauto.
  exfalso. pose proof (abs_B2R_ge_emin 53 1024 (B754_finite s m e Hb) eq_refl) as G.
  change (SpecFloat.emin 53 1024) with (-1074)%Z in G.
  change (two (-1074) <= Rabs (fval (B754_finite s m e Hb))) in G.
  rewrite Rabs_pos_eq in G by lra. lra.
Qed.

Section Dir.
Variables (lm : libm) (a : fatm) (mu : f64).
Hypothesis Hlm : libm_ok lm.
Hypothesis Ha : atm_ok a.
Hypothesis Hmu : cosine_ok mu.

Lemma exp_deep x : below (-747) x -> exists s, l_exp lm x = B754_zero s.
Proof.
  intros [->|[Hf Hv]].
  - destruct (lo_exp_inf lm Hlm) as [F V]. apply zero_cases; assumption.
  - destruct (lo_exp lm Hlm x Hf ltac:(lra)) as (F & R & E).
    apply fin_tiny; [exact F|]. split; [lra|].
    assert (X : exp (fval x) <= two (-1077)).
    { apply Rle_trans with (exp (-747)); [|apply exp_m747].
      destruct Hv as [Hv|Hv]; [left; apply exp_increasing; lra | rewrite Hv; lra]. }
    apply Rabs_le_inv in E.
    assert (T : two (-1074) = 8 * two (-1077))
      by (change (-1074)%Z with (3 + -1077)%Z; rewrite two_add; reflexivity).
    assert (Y : two (-52) < 1) by (rewrite <- two_0; apply bpow_lt; lia).
    pose proof (exp_pos (fval x)). pose proof (two_pos (-1077)). nra.
Qed.

(** Sums of the exponents. *)
Definition opt (r : nat) : R := rn (fval (fa_sthick a r) * fval (d_minv mu)).
Fixpoint osum (k : nat) : R :=
  match k with O => opt 0 | S k' => rn (osum k' + opt k) end.

Lemma minv_ok : ffin (d_minv mu) = true /\ 1 <= fval (d_minv mu) <= two 40 /\
  (1 - two (-52)) / fval mu <= fval (d_minv mu) <= (1 + two (-52)) / fval mu.
Proof. apply cosine_inv, Hmu. Qed.

Lemma opt_nonneg r : (r < fa_n a)%nat -> 0 <= opt r.
Proof.
  intros Hr. destruct (sthick_ok a Ha r Hr) as (_ & S & _). destruct minv_ok as (_ & M & _).
  apply rn_ge_fmt; [apply fmt_0 | nra].
Qed.

Lemma log_decay_below r : (r < fa_n a)%nat -> below (- opt r) (d_log_decay a mu r).
Proof.
  intros Hr. destruct (sthick_ok a Ha r Hr) as (F & S & _). destruct minv_ok as (FM & M & _).
  unfold d_log_decay, opt. rewrite <- rn_opp.
  replace (- (fval (fa_sthick a r) * fval (d_minv mu)))
    with (fval (fopp (fa_sthick a r)) * fval (d_minv mu)) by (rewrite fopp_val; ring).
  apply below_mul; [rewrite fopp_fin; exact F | exact FM | rewrite fopp_val; lra | lra].
Qed.

Lemma osum_nonneg k : (k < fa_n a)%nat -> 0 <= osum k.
Proof.
  induction k as [|k IH]; intros Hk; cbn [osum]; [apply opt_nonneg, Hk|].
  apply rn_ge_fmt; [apply fmt_0|]. pose proof (opt_nonneg (S k) Hk). pose proof (IH ltac:(lia)). lra.
Qed.

Lemma osum_fmt k : fmt (osum k).
Proof. destruct k; cbn [osum]; [unfold opt|]; apply fmt_rn. Qed.

Lemma csum_below k : (k < fa_n a)%nat -> below (- osum k) (csum (d_log_decay a mu) k).
Proof.
  induction k as [|k IH]; intros Hk; cbn [osum csum]; [apply log_decay_below, Hk|].
  rewrite <- rn_opp. replace (- (osum k + opt (S k))) with (- osum k + - opt (S k)) by ring.
  apply below_add.
  - pose proof (osum_nonneg k ltac:(lia)). lra.
  - pose proof (opt_nonneg (S k) Hk). lra.
  - apply IH. lia.
  - apply log_decay_below, Hk.
Qed.

Lemma osum_mono k j : (k <= j)%nat -> (j < fa_n a)%nat -> osum k <= osum j.
Proof.
  induction j as [|j IH]; intros Hk Hj; [replace k with 0%nat by lia; lra|].
  destruct (Nat.eq_dec k (S j)) as [->|Hne]; [lra|].
  apply Rle_trans with (osum j); [apply IH; lia|]. cbn [osum].
  apply rn_ge_fmt; [apply osum_fmt|]. pose proof (opt_nonneg (S j) Hj). lra.
Qed.

Lemma osum_lower k : (k < fa_n a)%nat -> INR k * two (-53) <= 1 ->
  (1 - INR k * two (-53)) * rsum (S k) opt - INR k * two (-1075) <= osum k.
Proof.
  induction k as [|k IH]; intros Hk Hs.
  - cbn [rsum osum INR]. lra.
  - rewrite S_INR in *. pose proof (two_pos (-53)) as UP. pose proof u_small as US.
    specialize (IH ltac:(lia) ltac:(lra)). cbn [osum].
    pose proof (osum_nonneg k ltac:(lia)) as P1. pose proof (opt_nonneg (S k) Hk) as P2.
    pose proof (rn_lower (osum k + opt (S k)) ltac:(lra)) as L.
    change (rsum (S (S k)) opt) with (rsum (S k) opt + opt (S k)).
    assert (P3 : 0 <= rsum (S k) opt).
    { clear - Ha Hmu Hk. induction (S k) as [|j IH]; cbn [rsum]; [lra|].
      pose proof (opt_nonneg j ltac:(lia)). specialize (IH ltac:(lia)). lra. }
    set (u := two (-53)) in *. set (e := two (-1075)) in *. set (s := rsum (S k) opt) in *.
    assert (EP : 0 < e) by apply two_pos. assert (KP : 0 <= INR k) by apply pos_INR.
    set (n := INR k) in *.
    apply Rle_trans with ((1 - u) * ((1 - n * u) * s - n * e + opt (S k)) - e).
    2:{ eapply Rle_trans; [|exact L]. apply Rplus_le_compat_r. apply Rmult_le_compat_l; lra. }
    assert (0 <= n * u) by nra.
    assert (0 <= u * (n * u * s)) by (apply Rmult_le_pos; [lra|apply Rmult_le_pos; lra]).
    assert (0 <= n * u * opt (S k)) by (apply Rmult_le_pos; lra).
    assert (0 <= u * (n * e)) by (apply Rmult_le_pos; [lra|apply Rmult_le_pos; lra]).
    nra.
Qed.

Lemma rsum_opt k : (k <= fa_n a)%nat ->
  (1 - 4 * two (-53)) / fval mu * rsum k (fun r => fval (fa_sthick a r)) - INR k * two (-1075)
  <= rsum k opt.
Proof.
  induction k as [|k IH]; intros Hk; cbn [rsum]; [simpl; lra|].
  specialize (IH ltac:(lia)). rewrite S_INR.
  destruct (sthick_ok a Ha k ltac:(lia)) as (_ & S & _). destruct minv_ok as (_ & M & B & _).
  pose proof (rn_lower (fval (fa_sthick a k) * fval (d_minv mu)) ltac:(nra)) as L.
  fold (opt k) in L. rewrite two_m52 in B. destruct Hmu as (_ & U1 & _). pose proof (two_pos (-40)).
  assert (MP : 0 < / fval mu) by (apply Rinv_0_lt_compat; lra).
  unfold Rdiv in *. pose proof u_small. pose proof (two_pos (-53)).
  set (st := fval (fa_sthick a k)) in *. set (q := / fval mu) in *. set (u := two (-53)) in *.
  assert (E : (1 - 4 * u) * q * st <= (1 - u) * (st * fval (d_minv mu))).
  { apply Rle_trans with ((1 - u) * (st * ((1 - 2 * u) * q))).
    - assert (0 <= st * q) by nra. assert (0 <= u * u * (st * q)) by (apply Rmult_le_pos; nra). nra.
    - apply Rmult_le_compat_l; [lra|]. apply Rmult_le_compat_l; lra. }
  lra.
Qed.

Definition deep (k : nat) : Prop := 748 * fval mu <= scaled_depth a (- two (-50)) (S k).

Lemma deep_osum k : (k < fa_n a)%nat -> INR (fa_n a) <= two 40 -> deep k -> 747 <= osum k.
Proof.
  intros Hk Hn Hd. unfold deep in Hd.
  assert (K1 : INR (S k) <= two 40) by (eapply Rle_trans; [apply le_INR; exact Hk | exact Hn]).
  assert (K0 : 0 <= INR k) by apply pos_INR.
  assert (U13 : INR k * two (-53) <= / 8192).
  { replace (/ 8192) with (two 40 * two (-53)) by (rewrite <- two_add; reflexivity).
    apply Rmult_le_compat_r; [apply Rlt_le, two_pos|]. rewrite S_INR in K1. lra. }
  pose proof (osum_lower k Hk ltac:(lra)) as L1.
  pose proof (rsum_opt (S k) ltac:(lia)) as L2.
  pose proof (rsum_lower a Ha (S k) ltac:(lia)) as L3.
  destruct Hmu as (_ & M1 & M2). pose proof (two_pos (-40)) as P60.
  set (sd := scaled_depth a (- two (-50)) (S k)) in *.
  set (ss := rsum (S k) (fun r => fval (fa_sthick a r))) in *.
  assert (T1 : INR (S k) * two (-1073) <= fval mu * / 1024).
  { apply Rle_trans with (two 40 * two (-1073)).
    - apply Rmult_le_compat_r; [apply Rlt_le, two_pos|exact K1].
    - rewrite <- two_add. apply Rle_trans with (two (-40) * two (-10)).
      + rewrite <- two_add. apply two_le. lia.
      + change (two (-10)) with (/ 1024). apply Rmult_le_compat_r; lra. }
  assert (T2 : INR (S k) * two (-1075) <= / 1024).
  { apply Rle_trans with (two 40 * two (-1075)).
    - apply Rmult_le_compat_r; [apply Rlt_le, two_pos|exact K1].
    - rewrite <- two_add. change (/ 1024) with (two (-10)). apply two_le. lia. }
  assert (MP : 0 < fval mu) by lra.
  assert (A1 : (748 - / 1024) * fval mu <= ss) by lra.
  pose proof u_small as US. pose proof (two_pos (-53)) as UP.
  assert (A2 : (1 - 4 * two (-53)) * (748 - / 1024) <= (1 - 4 * two (-53)) / fval mu * ss).
  { unfold Rdiv. rewrite Rmult_assoc. apply Rmult_le_compat_l; [lra|].
    apply Rmult_le_reg_l with (fval mu); [exact MP|].
    replace (fval mu * (/ fval mu * ss)) with ss by (field; lra). lra. }
  assert (U20 : two (-53) <= / 1048576).
  { change (/ 1048576) with (two (-20)). apply two_le. lia. }
  assert (A3 : 748 - / 100 <= rsum (S k) opt) by nra.
  assert (T3 : INR k * two (-1075) <= / 1024).
  { eapply Rle_trans; [|exact T2]. apply Rmult_le_compat_r; [apply Rlt_le, two_pos|].
    rewrite S_INR. lra. }
  assert (A4 : (1 - / 8192) * (748 - / 100) <= (1 - INR k * two (-53)) * rsum (S k) opt).
  { apply Rmult_le_compat; lra. }
  lra.
Qed.

Lemma decay_zero k j : (k < fa_n a)%nat -> INR (fa_n a) <= two 40 -> deep k ->
  (k <= j)%nat -> (j < fa_n a)%nat -> exists s, d_decay_prod lm a mu (S j) = B754_zero s.
Proof.
  intros Hk Hn Hd Hj Hj2. unfold d_decay_prod. apply exp_deep.
  apply below_mono with (- osum j); [apply csum_below, Hj2|].
  pose proof (deep_osum k Hk Hn Hd). pose proof (osum_mono k j Hj Hj2). lra.
Qed.

Variables (mu0 : f64) (anti : bool).

Lemma rpos_nan k : (S k < fa_n a)%nat -> INR (fa_n a) <= two 40 -> deep k ->
  d_rpos lm a mu mu0 anti k = fnan.
Proof.
  intros Hk Hn Hd. unfold d_rpos. rewrite (proj2 (Nat.ltb_lt _ _) Hk).
  apply zon_div; [|apply (decay_zero k k); auto; lia].
  unfold rcsum.
  assert (G : forall m, (m <= fa_n a - 1 - S k)%nat ->
    zero_or_nan (csum (fun i => d_weighted_pos lm a mu mu0 anti (fa_n a - 1 - i)) m)).
  { assert (W : forall i, (i <= fa_n a - 1 - S k)%nat ->
      zero_or_nan (d_weighted_pos lm a mu mu0 anti (fa_n a - 1 - i))).
    { intros i Hi. unfold d_weighted_pos. apply zon_mul_r.
      replace (fa_n a - 1 - i)%nat with (S (fa_n a - 2 - i)) by lia.
      apply (decay_zero k); auto; lia. }
    induction m as [|m IH]; intros Hm; cbn [csum].
    - apply W. lia.
    - apply zon_add; [apply IH; lia | apply W, Hm]. }
  apply G. lia.
Qed.

Lemma rneg_nan k : (S k < fa_n a)%nat -> INR (fa_n a) <= two 40 -> deep k ->
  d_rneg lm a mu mu0 anti (S k) = fnan.
Proof.
  intros Hk Hn Hd. unfold d_rneg.
  assert (Z : exists s, d_decay_prod lm a mu (S k) = B754_zero s)
    by (apply (decay_zero k); auto; lia).
  apply zero_mul_nonfinite; [exact Z|].
  destruct k as [|k]; cbn [csum].
  - apply div_zero_nonfinite, Z.
  - apply add_nonfinite. apply div_zero_nonfinite, Z.
Qed.

Lemma u_up_nan k lmin ustar rescale B tau : INR (fa_n a) <= two 40 ->
  in_layer a k tau -> (S k < fa_n a)%nat -> (lmin <= k)%nat -> deep k ->
  d_u_up lm a mu mu0 anti lmin ustar rescale B tau = fnan.
Proof.
  intros Hn Ht Hk Hl Hd. unfold d_u_up, d_tms_up.
  rewrite (layer_ok a Ha k tau Ht).
  rewrite (proj2 (Nat.ltb_lt 1 (fa_n a)) ltac:(lia)), (proj2 (Nat.ltb_lt lmin (fa_n a - 1)) ltac:(lia)).
  cbn [andb]. rewrite (rpos_nan k Hk Hn Hd).
  rewrite !nan_mul_l, nan_add_r, nan_mul_r, nan_add_r. reflexivity.
Qed.

Lemma u_down_nan k lmax ustar rescale B ims tau : INR (fa_n a) <= two 40 ->
  in_layer a (S k) tau -> (S k <= lmax)%nat -> deep k ->
  d_u_down lm a mu mu0 anti lmax ustar rescale B ims tau = fnan.
Proof.
  intros Hn Ht Hl Hd. unfold d_u_down, d_tms_down.
  rewrite (layer_ok a Ha (S k) tau Ht). destruct Ht as (Hk & _).
  rewrite (proj2 (Nat.ltb_lt 1 (fa_n a)) ltac:(lia)), (proj2 (Nat.ltb_lt 0 lmax) ltac:(lia)).
  cbn [andb]. rewrite (rneg_nan k Hk Hn Hd).
  rewrite !nan_mul_l, nan_add_r, nan_add_l, nan_mul_r, nan_add_r. reflexivity.
Qed.
End Dir.
