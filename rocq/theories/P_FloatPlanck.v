(** Forward error analysis of the Planck function. *)
From Coq Require Import ZArith Reals List Bool Lia Lra Psatz.
From Flocq Require Import Core IEEE754.BinarySingleNaN.
From Verif Require Import Base M_Float Spec_Float Spec M_FloatPlanck Spec_FloatPlanck P_Float P_Float2 P_Float4 P_Float5 P_FloatSol.
Open Scope R_scope.

Notation U := (two (-52)).
Lemma U_pos : 0 < U. Proof. apply two_pos. Qed.
Lemma U_small : U <= / 1000000000.
Proof. unfold two. change (bpow radix2 (-52)) with (/ IZR (Z.pow_pos 2 52)). apply Rinv_le_contravar; [lra|]. apply IZR_le. vm_compute. discriminate. Qed.

Lemma fconst_ok m e : (Z.abs m < 2 ^ 53)%Z -> (-1074 <= e <= 900)%Z -> ffin (fconst m e) = true /\ fval (fconst m e) = IZR m * two e.
Proof.
  intros Hm He. pose proof (fmt_Z m e Hm ltac:(lia)) as F. pose proof (binary_normalize_correct 53 1024 prec64 emax64 mode_NE m e false) as C. cbv zeta in C.
  change (F2R (Float radix2 m e)) with (IZR m * two e) in C. change (round radix2 (SpecFloat.fexp 53 1024) (round_mode mode_NE) (IZR m * two e)) with (rn (IZR m * two e)) in C.
  rewrite (rn_fmt _ F) in C. rewrite Rlt_bool_true in C; [destruct C as (C1 & C2 & _); split; assumption|].
  rewrite Rabs_mult, (Rabs_pos_eq (two e)) by apply Rlt_le, two_pos. apply Rle_lt_trans with (two 53 * two 900).
  - apply Rmult_le_compat; [apply Rabs_pos|apply Rlt_le, two_pos| |apply two_le; lia]. rewrite <- abs_IZR, two_IZR by lia. apply IZR_le. lia.
  - rewrite <- two_add. apply two_lt_1024. lia.
Qed.

Lemma rn_rel x : two (-1000) <= Rabs x -> Rabs (rn x - x) <= U * Rabs x.
Proof.
  intros H. pose proof (rn_err x) as E. replace (-1075)%Z with (-75 + -1000)%Z in E by reflexivity. rewrite two_add in E. pose proof (two_le (-75) (-53) ltac:(lia)). pose proof (two_pos (-75)). pose proof two_m52. pose proof (Rabs_pos x).
  assert (two (-75) * two (-1000) <= two (-53) * Rabs x) by (apply Rmult_le_compat; try apply Rlt_le, two_pos; auto). rewrite two_m52; lra.
Qed.

(** [x] approximates [v] up to [n] units; [v] lies between two powers of two. *)
Record ap (n : R) (a b : Z) (x : f64) (v : R) : Prop := mkap {
  ap_fin : ffin x = true; ap_err : Rabs (fval x - v) <= n * U * Rabs v; ap_lo : two a <= Rabs v; ap_hi : Rabs v <= two b }.

Lemma rel_ex n X v : v <> 0 -> Rabs (X - v) <= n * U * Rabs v -> exists s, X = v * (1 + s) /\ Rabs s <= n * U.
Proof.
  intros Hv H. exists ((X - v) / v). split; [field; auto|]. unfold Rdiv. rewrite Rabs_mult, Rabs_inv. pose proof (Rabs_pos_lt v Hv). apply (Rmult_le_reg_r (Rabs v)); [auto|]. rewrite Rmult_assoc, Rinv_l by lra. lra.
Qed.
Lemma cross n1 n2 s t : 0 <= n1 <= 100 -> 0 <= n2 <= 100 -> Rabs s <= n1 * U -> Rabs t <= n2 * U -> Rabs (s * t) <= / 100 * U.
Proof.
  intros H1 H2 A B. rewrite Rabs_mult. pose proof U_pos. pose proof U_small. pose proof (Rabs_pos s). pose proof (Rabs_pos t).
  apply Rle_trans with ((100 * U) * (100 * U)); [apply Rmult_le_compat; auto; nra|]. nra.
Qed.
Lemma prod3 n1 n2 s t r : 0 <= n1 <= 100 -> 0 <= n2 <= 100 -> Rabs s <= n1 * U -> Rabs t <= n2 * U -> Rabs r <= U -> Rabs ((1 + s) * (1 + t) * (1 + r) - 1) <= (n1 + n2 + 3 / 2) * U.
Proof.
  intros H1 H2 A B C. pose proof U_pos as P. pose proof U_small as Sm. pose proof (cross n1 n2 s t H1 H2 A B) as X1. assert (C1 : Rabs r <= 1 * U) by lra. pose proof (cross n1 1 s r H1 ltac:(lra) A C1) as X2. pose proof (cross n2 1 t r H2 ltac:(lra) B C1) as X3.
  assert (X4 : Rabs (s * t * r) <= / 100 * U). { rewrite Rabs_mult. pose proof (Rabs_pos (s * t)). pose proof (Rabs_pos r). apply Rle_trans with (/ 100 * U * 1); [apply Rmult_le_compat; lra|lra]. }
  replace ((1 + s) * (1 + t) * (1 + r) - 1) with (s + t + r + s * t + s * r + t * r + s * t * r) by ring.
  apply Rabs_le_inv in A. apply Rabs_le_inv in B. apply Rabs_le_inv in C. apply Rabs_le_inv in X1. apply Rabs_le_inv in X2. apply Rabs_le_inv in X3. apply Rabs_le_inv in X4. apply Rabs_le. lra.
Qed.
Lemma nz a v : two a <= Rabs v -> v <> 0.
Proof. intros H E. rewrite E, Rabs_R0 in H. pose proof (two_pos a). lra. Qed.
Lemma s_half n s : 0 <= n <= 100 -> Rabs s <= n * U -> Rabs s <= / 4.
Proof. intros H A. pose proof U_pos. pose proof U_small. nra. Qed.
Lemma abs1 s : Rabs s <= / 4 -> 3 / 4 <= Rabs (1 + s) <= 5 / 4.
Proof. intros H. apply Rabs_le_inv in H. rewrite Rabs_pos_eq; lra. Qed.

Lemma low_prod p q : two (-990) <= Rabs p -> 9 / 16 <= Rabs q -> two (-1000) <= Rabs (p * q).
Proof.
  intros H1 H2. rewrite Rabs_mult. assert (E : two (-990) = two 10 * two (-1000)) by (rewrite <- two_add; reflexivity). rewrite two_10 in E. pose proof (two_pos (-1000)).
  apply Rle_trans with (two (-990) * (9 / 16)); [lra|]. apply Rmult_le_compat; lra.
Qed.
Lemma high_prod p q : Rabs p <= two 1000 -> Rabs q <= 2 -> Rabs (p * q) <= two 1023.
Proof.
  intros H1 H2. rewrite Rabs_mult. assert (E : two 1001 = two 1 * two 1000) by (rewrite <- two_add; reflexivity). rewrite two_1 in E. pose proof (two_le 1001 1023 ltac:(lia)). pose proof (Rabs_pos p). pose proof (Rabs_pos q).
  apply Rle_trans with (two 1000 * 2); [apply Rmult_le_compat; lra|lra].
Qed.

Lemma ap_mul n1 a1 b1 x v n2 a2 b2 y w : 0 <= n1 <= 100 -> 0 <= n2 <= 100 -> (-990 <= a1 + a2)%Z -> (b1 + b2 <= 1000)%Z -> ap n1 a1 b1 x v -> ap n2 a2 b2 y w -> ap (n1 + n2 + 2) (a1 + a2) (b1 + b2) (fmul x y) (v * w).
Proof.
  intros N1 N2 Ha Hb [Fx Ex Lx Hx] [Fy Ey Ly Hy]. pose proof (nz _ _ Lx) as Zv. pose proof (nz _ _ Ly) as Zw. destruct (rel_ex _ _ _ Zv Ex) as (s & Es & Bs). destruct (rel_ex _ _ _ Zw Ey) as (t & Et & Bt).
  pose proof (two_pos a1). pose proof (two_pos a2). pose proof (two_pos b1). pose proof (two_pos b2).
  assert (L : two (a1 + a2) <= Rabs (v * w)) by (rewrite two_add, Rabs_mult; apply Rmult_le_compat; lra). assert (Hi : Rabs (v * w) <= two (b1 + b2)) by (rewrite two_add, Rabs_mult; apply Rmult_le_compat; auto using Rabs_pos).
  pose proof (abs1 s (s_half _ _ N1 Bs)) as As. pose proof (abs1 t (s_half _ _ N2 Bt)) as At.
  assert (EP : fval x * fval y = (v * w) * ((1 + s) * (1 + t))) by (rewrite Es, Et; ring). assert (AP : 9/16 <= Rabs ((1 + s) * (1 + t)) <= 2) by (rewrite Rabs_mult; split; nra).
  assert (LP : two (-1000) <= Rabs (fval x * fval y)). { rewrite EP. apply low_prod; [|apply AP]. eapply Rle_trans; [apply two_le; exact Ha|exact L]. }
  assert (HP : Rabs (fval x * fval y) <= two 1023). { rewrite EP. apply high_prod; [|apply AP]. eapply Rle_trans; [exact Hi|apply two_le; exact Hb]. }
  destruct (fmul_ok x y Fx Fy (rn_small _ HP)) as [F V]. pose proof (rn_rel _ LP) as R. destruct (rel_ex 1 (rn (fval x * fval y)) (fval x * fval y) (nz _ _ LP) ltac:(lra)) as (r & Er & Br).
  constructor; auto. rewrite V, Er, EP. replace (v * w * ((1 + s) * (1 + t)) * (1 + r) - v * w) with (v * w * ((1 + s) * (1 + t) * (1 + r) - 1)) by ring. rewrite Rabs_mult.
  pose proof (prod3 n1 n2 s t r N1 N2 Bs Bt ltac:(lra)) as P3. pose proof (Rabs_pos (v * w)). pose proof U_pos. rewrite Rmult_comm. apply Rmult_le_compat_r; [auto|]. nra.
Qed.
Lemma inv_rel n t : 0 <= n <= 90 -> Rabs t <= n * U -> exists t', / (1 + t) = 1 + t' /\ Rabs t' <= (n + 1) * U.
Proof.
  intros N B. exists (- t / (1 + t)). pose proof (abs1 t (s_half n t ltac:(lra) B)) as A. pose proof (s_half n t ltac:(lra) B) as A4. assert (1 + t <> 0) by (apply Rabs_le_inv in A4; lra). split; [field; auto|]. unfold Rdiv. rewrite Rabs_mult, Rabs_Ropp, Rabs_inv.
  apply (Rmult_le_reg_r (Rabs (1 + t))); [lra|]. rewrite Rmult_assoc, Rinv_l by lra. rewrite Rmult_1_r. assert (1 - Rabs t <= Rabs (1 + t)). { apply Rabs_le_inv in A4. rewrite (Rabs_pos_eq (1 + t)) by lra. destruct (Rcase_abs t) as [C|C]; [rewrite (Rabs_left t) by lra|rewrite (Rabs_right t) by lra]; lra. }
  pose proof U_pos as Up. pose proof U_small as Us. assert (Q : n * (n + 1) * U <= / 2) by (apply Rle_trans with (90 * 91 * U); [apply Rmult_le_compat_r; nra|lra]).
  assert (Q2 : (n + 1) * U * (n * U) <= / 2 * U) by (replace ((n + 1) * U * (n * U)) with (n * (n + 1) * U * U) by ring; apply Rmult_le_compat_r; lra).
  assert (Q3 : (n + 1) * U * (1 - n * U) <= (n + 1) * U * Rabs (1 + t)) by (apply Rmult_le_compat_l; [nra|lra]). lra.
Qed.
Lemma ap_div n1 a1 b1 x v n2 a2 b2 y w : 0 <= n1 <= 90 -> 0 <= n2 <= 90 -> (-990 <= a1 - b2)%Z -> (b1 - a2 <= 1000)%Z -> ap n1 a1 b1 x v -> ap n2 a2 b2 y w -> ap (n1 + n2 + 3) (a1 - b2) (b1 - a2) (fdiv x y) (v / w).
Proof.
  intros N1 N2 Ha Hb [Fx Ex Lx Hx] [Fy Ey Ly Hy]. pose proof (nz _ _ Lx) as Zv. pose proof (nz _ _ Ly) as Zw. destruct (rel_ex _ _ _ Zv Ex) as (s & Es & Bs). destruct (rel_ex _ _ _ Zw Ey) as (t0 & Et0 & Bt0). destruct (inv_rel n2 t0 N2 Bt0) as (t & Et & Bt).
  pose proof (two_pos a1). pose proof (two_pos a2). pose proof (two_pos b1). pose proof (two_pos b2). pose proof (Rabs_pos_lt w Zw).
  assert (I1 : two (- b2) <= / Rabs w) by (unfold two; rewrite bpow_opp; apply Rinv_le_contravar; auto). assert (I2 : / Rabs w <= two (- a2)) by (unfold two; rewrite bpow_opp; apply Rinv_le_contravar; auto). pose proof (two_pos (- b2)). pose proof (two_pos (- a2)).
  assert (L : two (a1 - b2) <= Rabs (v / w)) by (unfold Zminus, Rdiv; rewrite two_add, Rabs_mult, Rabs_inv; apply Rmult_le_compat; lra). assert (Hi : Rabs (v / w) <= two (b1 - a2)) by (unfold Zminus, Rdiv; rewrite two_add, Rabs_mult, Rabs_inv; apply Rmult_le_compat; auto using Rabs_pos; lra).
  assert (Z1 : 1 + t0 <> 0). { pose proof (abs1 t0 (s_half n2 t0 ltac:(lra) Bt0)) as A. intros E. rewrite E, Rabs_R0 in A. lra. }
  pose proof (abs1 s (s_half n1 s ltac:(lra) Bs)) as As. pose proof (abs1 t (s_half (n2 + 1) t ltac:(lra) Bt)) as At.
  assert (EP : fval x / fval y = (v / w) * ((1 + s) * (1 + t))). { rewrite Es, Et0, <- Et. field. auto. } assert (AP : 9/16 <= Rabs ((1 + s) * (1 + t)) <= 2) by (rewrite Rabs_mult; split; nra).
  assert (LP : two (-1000) <= Rabs (fval x / fval y)). { rewrite EP. apply low_prod; [|apply AP]. eapply Rle_trans; [apply two_le; exact Ha|exact L]. }
  assert (HP : Rabs (fval x / fval y) <= two 1023). { rewrite EP. apply high_prod; [|apply AP]. eapply Rle_trans; [exact Hi|apply two_le; exact Hb]. }
  assert (Zy : fval y <> 0) by (rewrite Et0; apply Rmult_integral_contrapositive_currified; auto).
  destruct (fdiv_ok x y Fx Zy (rn_small _ HP)) as [F V]. pose proof (rn_rel _ LP) as R. destruct (rel_ex 1 (rn (fval x / fval y)) (fval x / fval y) (nz _ _ LP) ltac:(lra)) as (r & Er & Br).
  constructor; auto. rewrite V, Er, EP. replace (v / w * ((1 + s) * (1 + t)) * (1 + r) - v / w) with (v / w * ((1 + s) * (1 + t) * (1 + r) - 1)) by ring. rewrite Rabs_mult.
  pose proof (prod3 n1 (n2 + 1) s t r ltac:(lra) ltac:(lra) Bs Bt ltac:(lra)) as P3. pose proof (Rabs_pos (v / w)). pose proof U_pos. rewrite Rmult_comm. apply Rmult_le_compat_r; [auto|]. nra.
Qed.
Lemma ap_exact m e a b : (Z.abs m < 2 ^ 53)%Z -> (-1074 <= e <= 900)%Z -> two a <= Rabs (IZR m * two e) -> Rabs (IZR m * two e) <= two b -> ap 0 a b (fconst m e) (IZR m * two e).
Proof. intros H1 H2 H3 H4. destruct (fconst_ok m e H1 H2) as [F V]. constructor; auto. rewrite V. unfold Rminus. rewrite Rplus_opp_r, Rabs_R0. lra. Qed.
