(** * Elementary facts about double precision. *)
From Coq Require Import ZArith Reals List Bool Lia Lra Psatz.
From Flocq Require Import Core Relative Plus_error IEEE754.BinarySingleNaN.
From Verif Require Import Base M_Float Spec_Float.
Import ListNotations.
Open Scope R_scope.

Notation fexp64 := (SpecFloat.fexp 53 1024).
Definition rn (x : R) : R := round radix2 fexp64 ZnearestE x.
Definition fmt (x : R) : Prop := generic_format radix2 fexp64 x.

#[export] Existing Instance prec64.
#[export] Existing Instance emax64.
#[export] Instance fexp64_valid : Valid_exp fexp64 := FLT_exp_valid (SpecFloat.emin 53 1024) 53.

Lemma two_pos e : 0 < two e.
Proof. apply bpow_gt_0. Qed.

Lemma two_add a b : two (a + b) = two a * two b.
Proof. apply bpow_plus. Qed.

Lemma two_le a b : (a <= b)%Z -> two a <= two b.
Proof. apply bpow_le. Qed.

Lemma two_0 : two 0 = 1.
Proof. reflexivity. Qed.

Lemma two_1 : two 1 = 2.
Proof. reflexivity. Qed.

Lemma two_nat n : two (Z.of_nat n) = 2 ^ n.
Proof.
  unfold two. rewrite bpow_powerRZ. change (IZR radix2) with 2.
  rewrite <- pow_powerRZ. reflexivity.
Qed.

Lemma fmt_val (x : f64) : fmt (fval x).
Proof. apply generic_format_B2R. Qed.

Lemma fmt_two e : (-1074 <= e)%Z -> fmt (two e).
Proof.
  intros He. apply generic_format_bpow.
  unfold fexp64, SpecFloat.fexp, SpecFloat.emin. lia.
Qed.

Lemma fmt_0 : fmt 0.
Proof. apply generic_format_0. Qed.

Lemma fmt_1 : fmt 1.
Proof. rewrite <- two_0. apply fmt_two. lia. Qed.

Lemma fmt_opp x : fmt x -> fmt (- x).
Proof. apply generic_format_opp. Qed.

Lemma fmt_Z m e : (Z.abs m < 2 ^ 53)%Z -> (-1074 <= e)%Z -> fmt (IZR m * two e).
Proof.
  intros Hm He. apply generic_format_FLT. 
  exists (Float radix2 m e).
  - unfold F2R, two. simpl. reflexivity.
  - simpl. exact Hm.
  - simpl. unfold SpecFloat.emin. lia.
Qed.

Lemma rn_le x y : x <= y -> rn x <= rn y.
Proof. intros H. apply round_le; [apply fexp64_valid | apply valid_rnd_N | exact H]. Qed.

Lemma rn_fmt x : fmt x -> rn x = x.
Proof. intros H. apply round_generic; [apply valid_rnd_N | exact H]. Qed.

Lemma rn_0 : rn 0 = 0.
Proof. apply rn_fmt, fmt_0. Qed.

Lemma rn_le_fmt x b : fmt b -> x <= b -> rn x <= b.
Proof. intros Hb H. rewrite <- (rn_fmt b Hb). apply rn_le, H. Qed.

Lemma rn_ge_fmt x b : fmt b -> b <= x -> b <= rn x.
Proof. intros Hb H. rewrite <- (rn_fmt b Hb). apply rn_le, H. Qed.

Lemma rn_opp x : rn (- x) = - rn x.
Proof. apply round_NE_opp. Qed.

Lemma fmt_rn x : fmt (rn x).
Proof. apply generic_format_round; [apply fexp64_valid | apply valid_rnd_N]. Qed.

Lemma rn_err x : Rabs (rn x - x) <= two (-53) * Rabs x + two (-1075).
Proof.
  destruct (error_N_FLT radix2 (SpecFloat.emin 53 1024) 53 eq_refl
              (fun z => negb (Z.even z)) x) as (eps & eta & He & Ha & _ & Hx).
  change (round radix2 (FLT_exp (SpecFloat.emin 53 1024) 53) (Znearest (fun z => negb (Z.even z))) x)
    with (rn x) in Hx.
  rewrite Hx. replace (x * (1 + eps) + eta - x) with (x * eps + eta) by ring.
  eapply Rle_trans; [apply Rabs_triang|]. rewrite Rabs_mult.
  assert (H1 : two (-53) = / 2 * bpow radix2 (-53 + 1)).
  { change (-53 + 1)%Z with (-52)%Z. unfold two.
    replace (-53)%Z with (-52 + -1)%Z by reflexivity. rewrite bpow_plus.
    change (bpow radix2 (-1)) with (/ 2). ring. }
  assert (H2 : two (-1075) = / 2 * bpow radix2 (SpecFloat.emin 53 1024)).
  { unfold two. change (SpecFloat.emin 53 1024) with (-1074)%Z.
    replace (-1075)%Z with (-1074 + -1)%Z by reflexivity. rewrite bpow_plus.
    change (bpow radix2 (-1)) with (/ 2). ring. }
  rewrite H1, H2. apply Rplus_le_compat; [|exact Ha].
  rewrite Rmult_comm. apply Rmult_le_compat_r; [apply Rabs_pos | exact He].
Qed.

Lemma rn_lower x : 0 <= x -> (1 - two (-53)) * x - two (-1075) <= rn x.
Proof.
  intros Hx. pose proof (rn_err x) as H. rewrite (Rabs_pos_eq x Hx) in H.
  apply Rabs_le_inv in H. lra.
Qed.

Lemma rn_upper x : 0 <= x -> rn x <= (1 + two (-53)) * x + two (-1075).
Proof.
  intros Hx. pose proof (rn_err x) as H. rewrite (Rabs_pos_eq x Hx) in H.
  apply Rabs_le_inv in H. lra.
Qed.

Lemma rn_small x : Rabs x <= two 1023 -> Rabs (rn x) < two 1024.
Proof.
  intros H. apply Rle_lt_trans with (two 1023).
  - apply abs_round_le_generic; [apply fexp64_valid | apply valid_rnd_N | apply fmt_two; lia | exact H].
  - apply bpow_lt. lia.
Qed.

Lemma val_lt x : Rabs (fval x) < two 1024.
Proof. apply abs_B2R_lt_emax. Qed.

(** Operations that do not overflow. *)
Lemma fadd_ok x y : ffin x = true -> ffin y = true -> Rabs (rn (fval x + fval y)) < two 1024 ->
  ffin (fadd x y) = true /\ fval (fadd x y) = rn (fval x + fval y).
Proof.
  intros Hx Hy H.
  pose proof (Bplus_correct 53 1024 prec64 emax64 mode_NE x y Hx Hy) as C.
  rewrite Rlt_bool_true in C; [|exact H]. destruct C as (C1 & C2 & _). split; assumption.
Qed.

Lemma fsub_ok x y : ffin x = true -> ffin y = true -> Rabs (rn (fval x - fval y)) < two 1024 ->
  ffin (fsub x y) = true /\ fval (fsub x y) = rn (fval x - fval y).
Proof.
  intros Hx Hy H.
  pose proof (Bminus_correct 53 1024 prec64 emax64 mode_NE x y Hx Hy) as C.
  rewrite Rlt_bool_true in C; [|exact H]. destruct C as (C1 & C2 & _). split; assumption.
Qed.

Lemma fmul_ok x y : ffin x = true -> ffin y = true -> Rabs (rn (fval x * fval y)) < two 1024 ->
  ffin (fmul x y) = true /\ fval (fmul x y) = rn (fval x * fval y).
Proof.
  intros Hx Hy H.
  pose proof (Bmult_correct 53 1024 prec64 emax64 mode_NE x y) as C.
  rewrite Rlt_bool_true in C; [|exact H]. destruct C as (C1 & C2 & _).
  unfold ffin in *. rewrite Hx, Hy in C2. split; assumption.
Qed.

Lemma fdiv_ok x y : ffin x = true -> fval y <> 0 -> Rabs (rn (fval x / fval y)) < two 1024 ->
  ffin (fdiv x y) = true /\ fval (fdiv x y) = rn (fval x / fval y).
Proof.
  intros Hx Hy H.
  pose proof (Bdiv_correct 53 1024 prec64 emax64 mode_NE x y Hy) as C.
  rewrite Rlt_bool_true in C; [|exact H]. destruct C as (C1 & C2 & _).
  unfold ffin in *. rewrite Hx in C2. split; assumption.
Qed.

Lemma fopp_val x : fval (fopp x) = - fval x.
Proof. apply B2R_Bopp. Qed.
Lemma fopp_fin x : ffin (fopp x) = ffin x.
Proof. apply is_finite_Bopp. Qed.
Lemma fabs_val x : fval (fabs x) = Rabs (fval x).
Proof. apply B2R_Babs. Qed.
Lemma fabs_fin x : ffin (fabs x) = ffin x.
Proof. apply is_finite_Babs. Qed.
Lemma fone_val : fval fone = 1.
Proof. apply Bone_correct. Qed.
Lemma fone_fin : ffin fone = true.
Proof. reflexivity. Qed.
Lemma fzero_val : fval fzero = 0.
Proof. reflexivity. Qed.
Lemma fzero_fin : ffin fzero = true.
Proof. reflexivity. Qed.

Lemma fle_ok x y : ffin x = true -> ffin y = true -> fle x y = Rle_bool (fval x) (fval y).
Proof. intros Hx Hy. apply Bleb_correct; assumption. Qed.
Lemma flt_ok x y : ffin x = true -> ffin y = true -> flt x y = Rlt_bool (fval x) (fval y).
Proof. intros Hx Hy. apply Bltb_correct; assumption. Qed.

Lemma fle_iff x y : ffin x = true -> ffin y = true -> fle x y = true <-> fval x <= fval y.
Proof.
  intros Hx Hy. rewrite fle_ok by assumption.
  destruct (Rle_bool_spec (fval x) (fval y)); split; intros; try lra; try discriminate; auto.
Qed.
Lemma flt_iff x y : ffin x = true -> ffin y = true -> flt x y = true <-> fval x < fval y.
Proof.
  intros Hx Hy. rewrite flt_ok by assumption.
  destruct (Rlt_bool_spec (fval x) (fval y)); split; intros; try lra; try discriminate; auto.
Qed.

(** Products and quotients of finite numbers of modest size. *)
Lemma abs_range x b : - b <= x <= b -> Rabs x <= b.
Proof. intros H. apply Rabs_le. exact H. Qed.

(** Zero and NaN. *)
Lemma zero_cases x : ffin x = true -> fval x = 0 -> exists s, x = B754_zero s.
Proof.
  destruct x as [s|s| |s m e H]; simpl; intros Hf Hv; try discriminate; eauto.
  exfalso. unfold fval in Hv. simpl in Hv. destruct s; simpl in Hv.
  - pose proof (F2R_lt_0 radix2 (Float radix2 (Zneg m) e) eq_refl). lra.
  - pose proof (F2R_gt_0 radix2 (Float radix2 (Zpos m) e) eq_refl). lra.
Qed.

Definition zero_or_nan (x : f64) : Prop := x = fnan \/ exists s, x = B754_zero s.
Definition nonfinite (x : f64) : Prop := ffin x = false.

Lemma zon_mul_r x y : (exists s, y = B754_zero s) -> zero_or_nan (fmul x y).
Proof.
  intros [s ->]. unfold zero_or_nan. destruct x; simpl; eauto.
Qed.

Lemma zon_add x y : zero_or_nan x -> zero_or_nan y -> zero_or_nan (fadd x y).
Proof.
  intros [->|[s ->]] [->|[t ->]]; unfold zero_or_nan; simpl; auto.
  destruct s, t; simpl; eauto.
Qed.

Lemma zon_div x y : zero_or_nan x -> (exists s, y = B754_zero s) -> fdiv x y = fnan.
Proof. intros [->|[s ->]] [t ->]; reflexivity. Qed.

Lemma div_zero_nonfinite x y : (exists s, y = B754_zero s) -> nonfinite (fdiv x y).
Proof. intros [s ->]. destruct x; reflexivity. Qed.

Lemma add_nonfinite x y : nonfinite y -> nonfinite (fadd x y).
Proof.
  unfold nonfinite, ffin. destruct y; simpl; try discriminate; intros _; destruct x; simpl; auto.
  match goal with |- context [Bool.eqb ?a ?b] => destruct (Bool.eqb a b) end; reflexivity.
Qed.

Lemma zero_mul_nonfinite x y : (exists s, x = B754_zero s) -> nonfinite y -> fmul x y = fnan.
Proof. intros [s ->]. destruct y; simpl; try discriminate; reflexivity. Qed.

Lemma nan_mul_l y : fmul fnan y = fnan.
Proof. reflexivity. Qed.
Lemma nan_mul_r x : fmul x fnan = fnan.
Proof. destruct x; reflexivity. Qed.
Lemma nan_add_l y : fadd fnan y = fnan.
Proof. reflexivity. Qed.
Lemma nan_add_r x : fadd x fnan = fnan.
Proof. destruct x; reflexivity. Qed.

(** Numbers at most [b], minus infinity included. *)
Definition below (b : R) (x : f64) : Prop :=
  x = B754_infinity true \/ (ffin x = true /\ fval x <= b).

Lemma below_mono b c x : below b x -> b <= c -> below c x.
Proof. intros [H|[H1 H2]] Hc; [left; exact H | right; split; [exact H1 | lra]]. Qed.

Lemma sign_val x : ffin x = true -> Bsign x = false -> 0 <= fval x.
Proof.
  destruct x as [s|s| |s m e H]; simpl; intros Hf Hs; try discriminate; unfold fval; simpl; try lra.
  subst s. simpl. apply F2R_ge_0. simpl. lia.
Qed.
Lemma sign_val' x : ffin x = true -> Bsign x = true -> fval x <= 0.
Proof.
  destruct x as [s|s| |s m e H]; simpl; intros Hf Hs; try discriminate; unfold fval; simpl; try lra.
  subst s. simpl. apply F2R_le_0. simpl. lia.
Qed.

Lemma B2SF_inf s x : B2SF x = SpecFloat.S754_infinity s -> x = (B754_infinity s : f64).
Proof. destruct x; simpl; intros H; try discriminate. congruence. Qed.

Lemma below_add b c x y : b <= 0 -> c <= 0 -> below b x -> below c y ->
  below (rn (b + c)) (fadd x y).
Proof.
  intros Hb Hc [->|[Hx Hx2]] [->|[Hy Hy2]].
  - left. reflexivity.
  - left. unfold ffin in Hy. destruct y; try discriminate; reflexivity.
  - left. unfold ffin in Hx. destruct x; try discriminate; reflexivity.
  - pose proof (Bplus_correct 53 1024 prec64 emax64 mode_NE x y Hx Hy) as C.
    destruct (Rlt_bool_spec
      (Rabs (round radix2 fexp64 (round_mode mode_NE) (B2R x + B2R y))) (bpow radix2 1024)) as [H|H].
    + destruct C as (C1 & C2 & _). right. split; [exact C2|].
      unfold fval, fadd. rewrite C1. change (rn (fval x + fval y) <= rn (b + c)).
      apply rn_le. lra.
    + destruct C as (C1 & C2). left.
      destruct (Bsign x) eqn:Es.
      * apply B2SF_inf. exact C1.
      * exfalso. pose proof (sign_val x Hx Es). pose proof (sign_val y Hy (eq_sym C2)).
        assert (E : B2R x + B2R y = 0) by (unfold fval in *; lra).
        rewrite E in H. change (round radix2 fexp64 (round_mode mode_NE) 0) with (rn 0) in H.
        rewrite rn_0, Rabs_R0 in H. pose proof (bpow_gt_0 radix2 1024). lra.
Qed.

(** A product of a number that is at most 0 and a positive one. *)
Lemma below_mul x y : ffin x = true -> ffin y = true -> fval x <= 0 -> 0 < fval y ->
  below (rn (fval x * fval y)) (fmul x y).
Proof.
  intros Hx Hy Hx0 Hy0.
  pose proof (Bmult_correct 53 1024 prec64 emax64 mode_NE x y) as C.
  destruct (Rlt_bool_spec
    (Rabs (round radix2 fexp64 (round_mode mode_NE) (B2R x * B2R y))) (bpow radix2 1024)) as [H|H].
  - destruct C as (C1 & C2 & _). right. unfold ffin in *. rewrite Hx, Hy in C2.
    split; [exact C2|]. unfold fval, fmul. rewrite C1. apply Rle_refl.
  - left. apply B2SF_inf.
    assert (Sy : Bsign y = false).
    { destruct (Bsign y) eqn:E; auto. pose proof (sign_val' y Hy E). lra. }
    assert (Sx : Bsign x = true).
    { destruct (Bsign x) eqn:E; auto. exfalso. pose proof (sign_val x Hx E).
      assert (E2 : B2R x * B2R y = 0) by (unfold fval in *; replace (B2R x) with 0 by lra; ring).
      rewrite E2 in H. change (round radix2 fexp64 (round_mode mode_NE) 0) with (rn 0) in H.
      rewrite rn_0, Rabs_R0 in H. pose proof (bpow_gt_0 radix2 1024). lra. }
    rewrite Sx, Sy in C. exact C.
Qed.
