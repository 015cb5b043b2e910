(** Accuracy and range of the Planck function in double precision. *)
From Coq Require Import ZArith Reals List Bool Lia Lra Psatz.
From Flocq Require Import Core IEEE754.BinarySingleNaN.
From Verif Require Import Base M_Float Spec_Float Spec M_FloatPlanck Spec_FloatPlanck P_Float P_Float2 P_Float4 P_Float5 P_FloatSol P_FloatPlanck.
Open Scope R_scope.

Lemma ap_const n a b m e v : (Z.abs m < 2 ^ 53)%Z -> (-1074 <= e <= 900)%Z -> Rabs (IZR m * two e - v) <= n * U * Rabs v -> two a <= Rabs v -> Rabs v <= two b -> ap n a b (fconst m e) v.
Proof. intros H1 H2 H3 H4 H5. destruct (fconst_ok m e H1 H2) as [F V]. constructor; auto. rewrite V. exact H3. Qed.
Lemma pow10_42 : 10 ^ 42 = 1000000000000000000000000000000000000000000. Proof. cbn; lra. Qed.
Lemma pow10_29 : 10 ^ 29 = 100000000000000000000000000000. Proof. cbn; lra. Qed.
Lemma two_neg n : two (- Z.of_nat n) = / 2 ^ n.
Proof. unfold two. rewrite bpow_opp. f_equal. exact (two_nat n). Qed.
Ltac twov := repeat match goal with
  | |- context [two (Zneg ?p)] => let n := eval vm_compute in (Pos.to_nat p) in let k := eval vm_compute in (2 ^ Zpos p)%Z in
      replace (two (Zneg p)) with (/ IZR k) by (unfold two; cbn [bpow radix2 radix_val]; reflexivity)
  | |- context [two (Zpos ?p)] => let k := eval vm_compute in (2 ^ Zpos p)%Z in
      replace (two (Zpos p)) with (IZR k) by (unfold two; cbn [bpow radix2 radix_val]; reflexivity) end.
Lemma h_ap : ap 1 (-111) (-110) f_h SI_h.
Proof.
  assert (P : 0 < SI_h) by (unfold SI_h; rewrite pow10_42; lra). apply ap_const; [reflexivity|lia| | |]; rewrite ?(Rabs_pos_eq SI_h) by lra; unfold SI_h; rewrite pow10_42; twov; [apply Rabs_le; lra|lra|lra].
Qed.
Lemma k_ap : ap 1 (-76) (-75) f_k SI_k.
Proof.
  assert (P : 0 < SI_k) by (unfold SI_k; rewrite pow10_29; lra). apply ap_const; [reflexivity|lia| | |]; rewrite ?(Rabs_pos_eq SI_k) by lra; unfold SI_k; rewrite pow10_29; twov; [apply Rabs_le; lra|lra|lra].
Qed.
Lemma c_ap : ap 0 28 29 f_c SI_c.
Proof.
  assert (P : 0 < SI_c) by (unfold SI_c; lra). apply ap_const; [reflexivity|lia| | |]; rewrite ?(Rabs_pos_eq SI_c) by lra; unfold SI_c; rewrite ?two_0; twov; [apply Rabs_le; lra|lra|lra].
Qed.
Lemma c2_ap : ap 1 56 57 f_c2 (SI_c ^ 2).
Proof.
  assert (P : 0 < SI_c ^ 2) by (unfold SI_c; lra). apply ap_const; [reflexivity|lia| | |]; rewrite ?(Rabs_pos_eq (SI_c ^ 2)) by lra; unfold SI_c; rewrite ?two_0; twov; [apply Rabs_le; lra|lra|lra].
Qed.
Lemma m100_ap : ap 0 6 7 f_m100 (-100).
Proof. apply ap_const; [reflexivity|lia| | |]; rewrite ?(Rabs_left (-100)) by lra; rewrite ?two_0; twov; [apply Rabs_le; lra|lra|lra]. Qed.
Lemma e8_ap : ap 0 27 28 f_2e8 200000000.
Proof. apply ap_const; [reflexivity|lia| | |]; rewrite ?(Rabs_pos_eq 200000000) by lra; rewrite ?two_0; twov; [apply Rabs_le; lra|lra|lra]. Qed.

Lemma ap_mul' n1 a1 b1 x v n2 a2 b2 y w : ap n1 a1 b1 x v -> ap n2 a2 b2 y w -> 0 <= n1 <= 100 -> 0 <= n2 <= 100 -> (-990 <= a1 + a2)%Z -> (b1 + b2 <= 1000)%Z -> ap (n1 + n2 + 2) (a1 + a2) (b1 + b2) (fmul x y) (v * w).
Proof. intros. apply ap_mul; auto. Qed.
Lemma ap_div' n1 a1 b1 x v n2 a2 b2 y w : ap n1 a1 b1 x v -> ap n2 a2 b2 y w -> 0 <= n1 <= 90 -> 0 <= n2 <= 90 -> (-990 <= a1 - b2)%Z -> (b1 - a2 <= 1000)%Z -> ap (n1 + n2 + 3) (a1 - b2) (b1 - a2) (fdiv x y) (v / w).
Proof. intros. apply ap_div; auto. Qed.
Lemma ord_ap x : ordinary x -> ap 0 (-100) 100 x (fval x).
Proof. intros [F [H1 H2]]. pose proof (two_pos (-100)). constructor; auto; rewrite ?Rminus_diag_eq by reflexivity; rewrite ?Rabs_R0, ?(Rabs_pos_eq (fval x)) by lra; lra. Qed.

(** The error analysis on real numbers: [q] stands for [exp (-x)], [E], [nv], [dv] and [rv] for the computed
    exponential, numerator, denominator and quotient. *)
Section Core.
  Variable x A q Af E nv dv rv : R.
  Notation et := (two (-1074)).
  Hypothesis (Hx : two (-40) <= x <= two 40) (Hq : 0 < q < 1) (HA : 0 < A <= two 275) (Hxq : x * q <= 1 - q) (Hr : two (-41) <= 1 - q) (HE : 0 <= E <= 1).
  Hypothesis (HAf : Rabs (Af - A) <= 11 * U * A) (HEq : Rabs (E - q) <= U * (2 + 26 * x) * q + et).
  Hypothesis (Hn : Rabs (nv - Af * E) <= U * (Af * E) + et) (Hd : Rabs (dv - (1 - E)) <= U * (1 - E) + et).
  Hypothesis (Hv : 0 < dv -> Rabs (rv - nv / dv) <= U * Rabs (nv / dv) + et).
  Let B := A * q / (1 - q).
  Let S := 1 + x + / x.
  Let e1 := U * (2 + 26 * x).
  Lemma x_pos : 0 < x. Proof. pose proof (two_pos (-40)). lra. Qed.
  Lemma e1_small : 0 <= e1 <= / 100.
  Proof. pose proof U_pos. pose proof x_pos. unfold e1. split; [nra|]. apply Rle_trans with (U * (2 + 26 * two 40)); [apply Rmult_le_compat_l; lra|]. twov. lra. Qed.
  Lemma Uv : 0 < U <= / 1000000000. Proof. split; [apply U_pos|apply U_small]. Qed.
  Lemma et_pos : 0 < et. Proof. apply two_pos. Qed.
  Lemma core_num : Rabs (nv - A * q) <= A * ((14 * U + 2 * e1) * q + 3 * et) + et.
  Proof.
    pose proof Uv as [U0 U1]. pose proof e1_small as [E0 E1]. pose proof et_pos as T0. fold e1 in HEq. assert (UE : U * e1 <= / 100 * U) by nra.
    assert (H1 : Rabs (Af * E - A * q) <= A * ((12 * U + e1) * q + 2 * et)).
    { replace (Af * E - A * q) with ((Af - A) * E + A * (E - q)) by ring. eapply Rle_trans; [apply Rabs_triang|]. rewrite !Rabs_mult, (Rabs_pos_eq E), (Rabs_pos_eq A) by lra.
      assert (E2 : E <= q * (1 + e1) + et) by (apply Rabs_le_inv in HEq; lra).
      apply Rle_trans with (11 * U * A * (q * (1 + e1) + et) + A * (e1 * q + et)).
      - apply Rplus_le_compat; [apply Rmult_le_compat; try apply Rabs_pos; try lra; auto|apply Rmult_le_compat_l; lra].
      - replace (11 * U * A * (q * (1 + e1) + et) + A * (e1 * q + et)) with (A * ((11 * U * (1 + e1) + e1) * q + (1 + 11 * U) * et)) by ring. apply Rmult_le_compat_l; [lra|]. apply Rplus_le_compat; apply Rmult_le_compat_r; lra. }
    assert (H2 : Af * E <= A * q + A * ((12 * U + e1) * q + 2 * et)) by (apply Rabs_le_inv in H1; lra).
    replace (nv - A * q) with ((nv - Af * E) + (Af * E - A * q)) by ring. eapply Rle_trans; [apply Rabs_triang|].
    assert (H3 : U * (Af * E) <= U * (A * q + A * ((12 * U + e1) * q + 2 * et))) by (apply Rmult_le_compat_l; lra).
    apply Rle_trans with (U * (A * q + A * ((12 * U + e1) * q + 2 * et)) + et + A * ((12 * U + e1) * q + 2 * et)); [lra|].
    replace (U * (A * q + A * ((12 * U + e1) * q + 2 * et)) + et + A * ((12 * U + e1) * q + 2 * et)) with (A * ((U + (1 + U) * (12 * U + e1)) * q + 2 * (1 + U) * et) + et) by ring.
    apply Rplus_le_compat_r, Rmult_le_compat_l; [lra|]. assert (UU : U * U <= / 100 * U) by nra. apply Rplus_le_compat; apply Rmult_le_compat_r; lra.
  Qed.
  Let kap := U * (54 + 4 / x).
  Lemma kap_small : 0 <= kap <= / 100.
  Proof.
    pose proof Uv as [U0 U1]. pose proof x_pos as X. assert (I : / x <= two 40). { pose proof (two_pos (-40)). replace (two 40) with (/ two (-40)) by (unfold two; rewrite <- bpow_opp; reflexivity). apply Rinv_le_contravar; lra. }
    assert (0 < / x) by (apply Rinv_0_lt_compat; lra). unfold kap, Rdiv. split; [apply Rmult_le_pos; lra|]. apply Rle_trans with (U * (54 + 4 * two 40)); [apply Rmult_le_compat_l; lra|]. twov. lra.
  Qed.
  Lemma et_r : et <= / 4 * U * (1 - q).
  Proof. apply Rle_trans with (/ 4 * U * two (-41)); [|apply Rmult_le_compat_l; [pose proof U_pos; lra|lra]]. replace (/ 4) with (two (-2)) by (twov; lra). rewrite <- !two_add. apply two_le. lia. Qed.
  Lemma core_den : Rabs (dv - (1 - q)) <= kap * (1 - q).
  Proof.
    pose proof Uv as [U0 U1]. pose proof e1_small as [E0 E1]. pose proof et_pos as T0. fold e1 in HEq. pose proof et_r as ER. pose proof x_pos as X.
    assert (qx : q <= (1 - q) * / x). { apply (Rmult_le_reg_r x); [lra|]. rewrite Rmult_assoc, Rinv_l by lra. lra. }
    assert (H1 : Rabs (dv - (1 - q)) <= U * (1 - q) + (1 + U) * (e1 * q + et) + et).
    { replace (dv - (1 - q)) with ((dv - (1 - E)) + (q - E)) by ring. eapply Rle_trans; [apply Rabs_triang|]. rewrite (Rabs_minus_sym q E). assert (H2 : 1 - E <= 1 - q + (e1 * q + et)) by (apply Rabs_le_inv in HEq; lra).
      assert (U * (1 - E) <= U * (1 - q + (e1 * q + et))) by (apply Rmult_le_compat_l; lra). lra. }
    eapply Rle_trans; [exact H1|]. assert (H2 : e1 * q <= e1 * ((1 - q) * / x)) by (apply Rmult_le_compat_l; lra).
    assert (H3 : e1 * ((1 - q) * / x) = U * (26 + 2 * / x) * (1 - q)) by (unfold e1; field; lra). assert (I : 0 < / x) by (apply Rinv_0_lt_compat; lra).
    assert (H4 : 0 <= U * (26 + 2 * / x) * (1 - q)) by (apply Rmult_le_pos; [apply Rmult_le_pos|]; lra).
    unfold kap, Rdiv. replace (U * (54 + 4 * / x) * (1 - q)) with (2 * (U * (26 + 2 * / x) * (1 - q)) + 2 * U * (1 - q)) by ring.
    assert (Hs : (1 + U) * (e1 * q + et) <= 2 * (e1 * q) + 2 * et) by (assert (0 <= e1 * q) by (apply Rmult_le_pos; lra); nra). assert (0 <= U * (1 - q)) by (apply Rmult_le_pos; lra). lra.
  Qed.
  Lemma dv_pos : (1 - q) / 2 <= dv.
  Proof. pose proof core_den as D. pose proof kap_small as K. apply Rabs_le_inv in D. nra. Qed.
  Lemma core : Rabs (rv - B) <= 150 * U * S * B + two (-700).
  Proof.
    pose proof Uv as [U0 U1]. pose proof e1_small as [E0 E1]. pose proof et_pos as T0. pose proof x_pos as X. pose proof dv_pos as DV. pose proof core_num as CN. pose proof core_den as CD. pose proof kap_small as [K0 K1]. assert (I : 0 < / x) by (apply Rinv_0_lt_compat; lra). assert (D0 : 0 < dv) by lra. assert (Q1 : 0 < 1 - q) by lra. assert (I2 : 0 < / (1 - q)) by (apply Rinv_0_lt_compat; lra).
    assert (B0 : 0 < B) by (unfold B, Rdiv; apply Rmult_lt_0_compat; [apply Rmult_lt_0_compat; lra|lra]).
    assert (Iv : / dv <= 2 * / (1 - q)). { replace (2 * / (1 - q)) with (/ ((1 - q) / 2)) by (field; lra). apply Rinv_le_contravar; lra. } assert (Iv0 : 0 < / dv) by (apply Rinv_0_lt_compat; lra).
    assert (Ir : / (1 - q) <= two 41). { replace (two 41) with (/ two (-41)) by (unfold two; rewrite <- bpow_opp; reflexivity). apply Rinv_le_contravar; [apply two_pos|lra]. }
    set (tiny := (6 * A + 2) * et * / (1 - q)). assert (HT : 0 <= tiny <= two (-710)).
    { unfold tiny. split; [repeat apply Rmult_le_pos; lra|]. apply Rle_trans with ((6 * two 275 + 2) * et * two 41); [apply Rmult_le_compat; try lra; [apply Rmult_le_pos; lra|apply Rmult_le_compat_r; lra]|].
      apply Rle_trans with (two 3 * two 275 * et * two 41). { apply Rmult_le_compat_r; [apply Rlt_le, two_pos|]. apply Rmult_le_compat_r; [lra|]. pose proof (two_le 1 275 ltac:(lia)). rewrite two_1 in *. replace (two 3) with 8 by (twov; lra). lra. } rewrite <- !two_add. apply two_le. lia. }
    assert (M : Rabs (nv / dv - B) <= 144 * U * S * B + tiny).
    { replace (nv / dv - B) with ((nv - A * q) * / dv - B * ((dv - (1 - q)) * / dv)) by (unfold B; field; lra). unfold Rminus at 1. eapply Rle_trans; [apply Rabs_triang|]. rewrite Rabs_Ropp, !Rabs_mult, (Rabs_pos_eq B), (Rabs_pos_eq (/ dv)) by lra.
      apply Rle_trans with ((A * ((14 * U + 2 * e1) * q + 3 * et) + et) * (2 * / (1 - q)) + B * (kap * (1 - q) * (2 * / (1 - q)))).
      - apply Rplus_le_compat; [apply Rmult_le_compat; try lra; apply Rabs_pos|]. apply Rmult_le_compat_l; [lra|]. apply Rmult_le_compat; try lra; apply Rabs_pos.
      - replace ((A * ((14 * U + 2 * e1) * q + 3 * et) + et) * (2 * / (1 - q)) + B * (kap * (1 - q) * (2 * / (1 - q)))) with (2 * (14 * U + 2 * e1 + kap) * B + tiny) by (unfold tiny, B; field; lra).
        apply Rplus_le_compat_r, Rmult_le_compat_r; [lra|]. unfold e1, kap, S, Rdiv. nra. }
    assert (S1 : 1 <= S) by (unfold S; lra). assert (SB : B <= S * B) by nra.
    assert (ND : Rabs (nv / dv) <= B + (144 * U * S * B + tiny)). { replace (nv / dv) with (B + (nv / dv - B)) by ring. eapply Rle_trans; [apply Rabs_triang|]. rewrite (Rabs_pos_eq B) by lra. lra. }
    specialize (Hv D0). replace (rv - B) with ((rv - nv / dv) + (nv / dv - B)) by ring. eapply Rle_trans; [apply Rabs_triang|].
    assert (UN : U * Rabs (nv / dv) <= U * (B + (144 * U * S * B + tiny))) by (apply Rmult_le_compat_l; lra).
    assert (UU : U * (144 * U * S * B) <= U * (S * B)). { replace (U * (144 * U * S * B)) with ((144 * U) * (U * (S * B))) by ring. assert (0 <= U * (S * B)) by (apply Rmult_le_pos; [lra|apply Rmult_le_pos; lra]). nra. }
    assert (UB : U * B <= U * (S * B)) by (apply Rmult_le_compat_l; lra). assert (UT : U * tiny <= tiny) by nra.
    assert (E7 : 2 * two (-710) + et <= two (-700)). { assert (EE : two (-700) = two 10 * two (-710)) by (rewrite <- two_add; reflexivity). rewrite two_10 in EE. pose proof (two_le (-1074) (-710) ltac:(lia)). pose proof (two_pos (-710)). lra. }
    replace (150 * U * S * B) with (150 * (U * (S * B))) by ring. replace (144 * U * S * B) with (144 * (U * (S * B))) in * by ring. assert (0 <= U * (S * B)) by (apply Rmult_le_pos; [lra|apply Rmult_le_pos; lra]). lra.
  Qed.
End Core.

Section P.
Variable (lm : libm) (cube : f64 -> f64) (T W : f64).
Hypothesis (Hlm : libm_ok lm) (Hc : cube_ok cube) (HT : ordinary T) (HW : ordinary W).

Definition argf := fdiv (fmul (fmul (fmul f_m100 f_h) f_c) W) (fmul f_k T).
Definition numf := fmul (fmul (fmul f_2e8 f_h) f_c2) (cube W).
Definition x := photon (fval T) (fval W).
Definition A := 200000000 * SI_h * SI_c ^ 2 * fval W ^ 3.
Lemma T_pos : 0 < fval T. Proof. pose proof (two_pos (-100)). destruct HT as [_ HH]. lra. Qed.
Lemma W_pos : 0 < fval W. Proof. pose proof (two_pos (-100)). destruct HW as [_ HH]. lra. Qed.
Lemma k_pos : 0 < SI_k. Proof. unfold SI_k. rewrite pow10_29. lra. Qed.
Lemma h_pos : 0 < SI_h. Proof. unfold SI_h. rewrite pow10_42. lra. Qed.
Lemma c_pos : 0 < SI_c. Proof. unfold SI_c. lra. Qed.

Lemma arg_ap : ap 13 (-202) 202 argf (- x).
Proof.
  pose proof (ap_mul' _ _ _ _ _ _ _ _ _ _ m100_ap h_ap ltac:(lra) ltac:(lra) ltac:(lia) ltac:(lia)) as A1.
  pose proof (ap_mul' _ _ _ _ _ _ _ _ _ _ A1 c_ap ltac:(lra) ltac:(lra) ltac:(lia) ltac:(lia)) as A2.
  pose proof (ap_mul' _ _ _ _ _ _ _ _ _ _ A2 (ord_ap W HW) ltac:(lra) ltac:(lra) ltac:(lia) ltac:(lia)) as A3.
  pose proof (ap_mul' _ _ _ _ _ _ _ _ _ _ k_ap (ord_ap T HT) ltac:(lra) ltac:(lra) ltac:(lia) ltac:(lia)) as A4.
  pose proof (ap_div' _ _ _ _ _ _ _ _ _ _ A3 A4 ltac:(lra) ltac:(lra) ltac:(lia) ltac:(lia)) as A5.
  assert (E : -100 * SI_h * SI_c * fval W / (SI_k * fval T) = - x) by (unfold x, photon, Rdiv; ring). rewrite E in A5. destruct A5 as [B1 B2 B3 B4]. constructor; auto.
  - eapply Rle_trans; [exact B2|]. apply Rmult_le_compat_r; [apply Rabs_pos|]. apply Rmult_le_compat_r; [apply Rlt_le, U_pos|lra].
Qed.
Lemma num_ap : ap 11 (-328) 275 numf A.
Proof.
  destruct HW as [FW RW]. pose proof W_pos as Wp. assert (W3 : 0 < fval W ^ 3) by (apply pow_lt; auto).
  assert (C3 : ap 1 (-300) 300 (cube W) (fval W ^ 3)).
  { destruct (Hc W HW) as [F E]. assert (L : two (-300) <= fval W ^ 3) by (replace (two (-300)) with (two (-100) ^ 3) by (cbn [pow]; rewrite Rmult_1_r, <- !two_add; reflexivity); apply pow_incr; pose proof (two_pos (-100)); lra).
    assert (H : fval W ^ 3 <= two 300) by (replace (two 300) with (two 100 ^ 3) by (cbn [pow]; rewrite Rmult_1_r, <- !two_add; reflexivity); apply pow_incr; lra).
    constructor; auto; rewrite ?(Rabs_pos_eq (fval W ^ 3)) by lra; lra. }
  pose proof (ap_mul' _ _ _ _ _ _ _ _ _ _ e8_ap h_ap ltac:(lra) ltac:(lra) ltac:(lia) ltac:(lia)) as A1.
  pose proof (ap_mul' _ _ _ _ _ _ _ _ _ _ A1 c2_ap ltac:(lra) ltac:(lra) ltac:(lia) ltac:(lia)) as A2.
  pose proof (ap_mul' _ _ _ _ _ _ _ _ _ _ A2 C3 ltac:(lra) ltac:(lra) ltac:(lia) ltac:(lia)) as A3. destruct A3 as [B1 B2 B3 B4]. constructor; auto.
  - eapply Rle_trans; [exact B2|]. apply Rmult_le_compat_r; [apply Rabs_pos|]. apply Rmult_le_compat_r; [apply Rlt_le, U_pos|lra].
Qed.

Lemma photon_pos : 0 < x.
Proof. pose proof T_pos. pose proof W_pos. pose proof k_pos. pose proof h_pos. pose proof c_pos. unfold x, photon. apply Rdiv_lt_0_compat; repeat apply Rmult_lt_0_compat; lra. Qed.
Lemma A_pos : 0 < A.
Proof. pose proof W_pos. pose proof h_pos. pose proof c_pos. unfold A. repeat apply Rmult_lt_0_compat; try apply pow_lt; lra. Qed.
Notation q := (exp (- x)).
Lemma q_range : 0 < q < 1.
Proof. pose proof photon_pos. split; [apply exp_pos|]. rewrite <- exp_0. apply exp_increasing. lra. Qed.
Lemma q_x : q * (1 + x) <= 1.
Proof. pose proof photon_pos as P. pose proof (exp_ineq1 x ltac:(lra)) as H. rewrite exp_Ropp. pose proof (exp_pos x). apply (Rmult_le_reg_l (exp x)); [auto|]. rewrite <- Rmult_assoc, Rinv_r by lra. lra. Qed.
Lemma spec_eq : planck_spec (fval T) (fval W) = A * q / (1 - q).
Proof.
  unfold planck_spec. destruct (Req_EM_T (fval T) 0) as [E|_]; [pose proof T_pos; lra|]. change (100 * SI_h * SI_c * fval W / (SI_k * fval T)) with x. fold A. pose proof photon_pos as P. rewrite exp_Ropp. assert (1 < exp x) by (rewrite <- exp_0; apply exp_increasing; auto). field. split; [|lra]. lra.
Qed.
Lemma argf_ok : ffin argf = true /\ Rabs (fval argf + x) <= 13 * U * x /\ fval argf <= - x / 2.
Proof.
  destruct arg_ap as [F E _ _]. pose proof photon_pos as P. rewrite Rabs_Ropp, (Rabs_pos_eq x) in E by lra. replace (fval argf - - x) with (fval argf + x) in E by ring. split; [auto|]. split; [auto|]. apply Rabs_le_inv in E. pose proof U_pos. pose proof U_small. nra.
Qed.
Lemma expterm_ok : let E := d_expterm lm T W in ffin E = true /\ 0 <= fval E <= 1 /\ Rabs (fval E - exp (fval argf)) <= U * exp (fval argf) + 3 / 4 * two (-1074).
Proof. destruct argf_ok as (F & _ & N). pose proof photon_pos. apply (lo_exp lm Hlm argf F). lra. Qed.
Lemma numf_ok : ffin numf = true /\ Rabs (fval numf - A) <= 11 * U * A /\ 0 < A <= two 275 /\ 0 <= fval numf <= two 276.
Proof.
  destruct num_ap as [F E _ H]. pose proof A_pos as P. rewrite (Rabs_pos_eq A) in * by lra. split; [auto|]. split; [auto|]. split; [lra|]. assert (D : two 276 = two 1 * two 275) by (rewrite <- two_add; reflexivity). rewrite two_1 in D. rewrite D. apply Rabs_le_inv in E. pose proof U_pos. pose proof U_small. nra.
Qed.
Notation E := (d_expterm lm T W).
Notation nv := (fmul numf E).
Notation dv := (fsub fone E).
Lemma nv_ok : ffin nv = true /\ fval nv = rn (fval numf * fval E) /\ 0 <= fval nv <= two 276.
Proof.
  destruct numf_ok as (F & _ & _ & R). destruct expterm_ok as (FE & RE & _). assert (P : 0 <= fval numf * fval E <= two 276) by (split; [apply Rmult_le_pos; lra|]; rewrite <- (Rmult_1_r (two 276)); apply Rmult_le_compat; lra).
  assert (S : Rabs (rn (fval numf * fval E)) < two 1024) by (apply rn_small; rewrite Rabs_pos_eq by lra; eapply Rle_trans; [apply P|apply two_le; lia]). destruct (fmul_ok _ _ F FE S) as [A1 A2]. split; [auto|]. split; [auto|]. rewrite A2. split; [apply rn_ge_fmt; [apply fmt_0|apply P]|apply rn_le_fmt; [apply fmt_two; lia|apply P]].
Qed.
Lemma dv_ok : ffin dv = true /\ fval dv = rn (1 - fval E).
Proof.
  destruct expterm_ok as (FE & RE & _). rewrite <- fone_val. apply fsub_ok; [apply fone_fin|auto|]. rewrite fone_val. apply rn_small. rewrite Rabs_pos_eq by lra. pose proof (two_le 0 1023 ltac:(lia)). rewrite two_0 in *. lra.
Qed.
Lemma planck_eq : d_Planck lm cube T W = fdiv nv dv.
Proof.
  unfold d_Planck. destruct (Beqb T fzero) eqn:Q; [|reflexivity]. exfalso. destruct HT as [F _]. unfold ffin in F. rewrite Beqb_correct in Q; auto. apply Req_bool_true_iff in Q || (revert Q; case Req_bool_spec; [|discriminate]; intros Q _). change (fval T = fval fzero) in Q. rewrite fzero_val in Q. pose proof T_pos. lra.
Qed.
Lemma quot_ok : two (-42) <= fval dv -> ffin (fdiv nv dv) = true /\ fval (fdiv nv dv) = rn (fval nv / fval dv) /\ 0 <= fval (fdiv nv dv).
Proof.
  intros H. destruct nv_ok as (F & _ & R). pose proof (two_pos (-42)) as P. assert (I0 : 0 < / fval dv) by (apply Rinv_0_lt_compat; lra). assert (I : / fval dv <= two 42) by (replace (two 42) with (/ two (-42)) by (unfold two; rewrite <- bpow_opp; reflexivity); apply Rinv_le_contravar; lra).
  assert (D : 0 <= fval nv / fval dv <= two 318). { unfold Rdiv. split; [apply Rmult_le_pos; lra|]. replace 318%Z with (276 + 42)%Z by reflexivity. rewrite two_add. apply Rmult_le_compat; lra. }
  destruct (fdiv_ok nv dv F ltac:(lra)) as [A1 A2]. { apply rn_small. rewrite Rabs_pos_eq by lra. eapply Rle_trans; [apply D|apply two_le; lia]. } split; [auto|]. split; [auto|]. rewrite A2. apply rn_ge_fmt; [apply fmt_0|apply D].
Qed.
Lemma rn_err' z : Rabs (rn z - z) <= U * Rabs z + two (-1074).
Proof. pose proof (rn_err z) as H. pose proof (two_le (-1075) (-1074) ltac:(lia)). pose proof (Rabs_pos z). rewrite two_m52. pose proof (two_pos (-53)). nra. Qed.
Lemma exp_pow n : exp (- INR n) <= two (- Z.of_nat n).
Proof.
  assert (E1 : exp (-1) <= / 2). { replace (exp (-1)) with (/ exp 1) by (rewrite <- exp_Ropp; f_equal; lra). apply Rinv_le_contravar; [lra|]. pose proof (exp_ineq1 1 ltac:(lra)). lra. }
  rewrite two_neg, <- pow_inv. induction n as [|n IH]; [cbn; rewrite Ropp_0, exp_0; lra|]. rewrite S_INR. replace (- (INR n + 1)) with (-1 + - INR n) by ring. rewrite exp_plus. cbn [pow]. apply Rmult_le_compat; auto using Rlt_le, exp_pos.
Qed.

Theorem planck_ok : two (-40) <= x ->
  ffin (d_Planck lm cube T W) = true /\ 0 <= fval (d_Planck lm cube T W) /\
  Rabs (fval (d_Planck lm cube T W) - planck_spec (fval T) (fval W)) <= two (-44) * (1 + x + / x) * planck_spec (fval T) (fval W) + two (-700).
Proof.
  intros Hx. rewrite planck_eq, spec_eq. pose proof photon_pos as Px. pose proof q_range as Q. pose proof q_x as Qx. destruct argf_ok as (Fa & Ea & Na). destruct expterm_ok as (FE & RE & EE). destruct numf_ok as (Fn & En & RA & Rn). destruct nv_ok as (Fv & Ev & Rv). destruct dv_ok as (Fd & Ed). pose proof U_pos as Up. pose proof U_small as Us.
  assert (B0 : 0 < A * q / (1 - q)) by (apply Rdiv_lt_0_compat; [apply Rmult_lt_0_compat|]; lra).
  assert (S0 : 0 < 1 + x + / x) by (pose proof (Rinv_0_lt_compat x Px); lra).
  destruct (Rle_dec x (two 40)) as [X|X].
  - assert (Hd : 13 * U * x <= / 4). { apply Rle_trans with (13 * U * two 40); [apply Rmult_le_compat_l; lra|]. twov. lra. }
    pose proof (exp_diff (fval argf) (- x) (13 * U * x)) as D. replace (fval argf - - x) with (fval argf + x) in D by ring. specialize (D Ea Hd).
    assert (E2 : exp (fval argf) <= 2 * q) by (apply Rabs_le_inv in D; nra).
    assert (HEq : Rabs (fval E - q) <= U * (2 + 26 * x) * q + two (-1074)). { replace (fval E - q) with ((fval E - exp (fval argf)) + (exp (fval argf) - q)) by ring. eapply Rle_trans; [apply Rabs_triang|]. pose proof (two_pos (-1074)). assert (U * exp (fval argf) <= U * (2 * q)) by (apply Rmult_le_compat_l; lra). lra. }
    assert (Hr : two (-41) <= 1 - q). { assert (E41 : two (-41) * 2 = two (-40)) by (replace 2 with (two 1) by apply two_1; rewrite <- two_add; reflexivity). assert (S1 : two (-40) <= 1) by (twov; lra). nra. }
    assert (Hn : Rabs (fval nv - fval numf * fval E) <= U * (fval numf * fval E) + two (-1074)). { rewrite Ev. pose proof (rn_err' (fval numf * fval E)) as R. rewrite (Rabs_pos_eq (fval numf * fval E)) in R by (apply Rmult_le_pos; lra). exact R. }
    assert (Hdd : Rabs (fval dv - (1 - fval E)) <= U * (1 - fval E) + two (-1074)). { rewrite Ed. pose proof (rn_err' (1 - fval E)) as R. rewrite (Rabs_pos_eq (1 - fval E)) in R by lra. exact R. }
    assert (DV : (1 - q) / 2 <= fval dv) by (eapply (dv_pos x q (fval E)); eauto; lra). assert (DV2 : two (-42) <= fval dv) by (assert (E42 : two (-42) * 2 = two (-41)) by (replace 2 with (two 1) by apply two_1; rewrite <- two_add; reflexivity); lra).
    destruct (quot_ok DV2) as (F1 & F2 & F3). split; [auto|]. split; [auto|].
    assert (C : Rabs (fval (fdiv nv dv) - A * q / (1 - q)) <= 150 * U * (1 + x + / x) * (A * q / (1 - q)) + two (-700)).
    { eapply (core x A q (fval numf) (fval E) (fval nv) (fval dv)); eauto; try lra. intros _. rewrite F2. apply rn_err'. }
    eapply Rle_trans; [exact C|]. apply Rplus_le_compat_r, Rmult_le_compat_r; [lra|]. apply Rmult_le_compat_r; [lra|]. twov. lra.
  - assert (X' : two 40 < x) by lra. clear X. pose proof (exp_pow 1100) as EP. change (- Z.of_nat 1100)%Z with (-1100)%Z in EP. assert (I11 : INR 1100 = 1100) by (rewrite INR_IZR_INZ; reflexivity). rewrite I11 in EP.
    assert (T40 : 4000 <= two 40) by (twov; lra). assert (X1 : exp (fval argf) <= two (-1100)) by (eapply Rle_trans; [|exact EP]; apply exp_le; lra). assert (X2 : q <= two (-1100)) by (eapply Rle_trans; [|exact EP]; apply exp_le; lra).
    assert (X3 : two (-1100) <= / 4 * two (-1074)) by (replace (/ 4) with (two (-2)) by (twov; lra); rewrite <- two_add; apply two_le; lia).
    assert (HE2 : fval E <= two (-1073)). { assert (E73 : two (-1073) = two (-1074) * 2) by (replace 2 with (two 1) by apply two_1; rewrite <- two_add; reflexivity). apply Rabs_le_inv in EE. pose proof (exp_pos (fval argf)). pose proof (two_pos (-1074)). assert (U * exp (fval argf) <= exp (fval argf)) by nra. lra. }
    assert (T1073 : two (-1073) <= / 2) by (replace (/ 2) with (two (-1)) by (twov; lra); apply two_le; lia).
    assert (DV : two (-1) <= fval dv) by (rewrite Ed; apply rn_ge_fmt; [apply fmt_two; lia|]; replace (two (-1)) with (/ 2) by (twov; lra); lra).
    assert (NV : fval nv <= two (-797)). { rewrite Ev. apply rn_le_fmt; [apply fmt_two; lia|]. replace (-797)%Z with (276 + -1073)%Z by reflexivity. rewrite two_add. apply Rmult_le_compat; lra. }
    destruct (quot_ok) as (F1 & F2 & F3); [eapply Rle_trans; [apply two_le|exact DV]; lia|]. split; [auto|]. split; [auto|].
    assert (H1 : fval (fdiv nv dv) <= two (-796)). { rewrite F2. apply rn_le_fmt; [apply fmt_two; lia|]. pose proof (two_pos (-1)). assert (I : / fval dv <= 2) by (replace 2 with (/ two (-1)) by (twov; lra); apply Rinv_le_contravar; lra). assert (0 < / fval dv) by (apply Rinv_0_lt_compat; lra). replace (-796)%Z with (-797 + 1)%Z by reflexivity. rewrite two_add, two_1. unfold Rdiv. apply Rmult_le_compat; lra. }
    assert (H2 : A * q / (1 - q) <= two (-800)). { assert (q1 : / 2 <= 1 - q) by (assert (two (-1100) <= / 2) by (replace (/ 2) with (two (-1)) by (twov; lra); apply two_le; lia); lra). assert (I : / (1 - q) <= 2) by (replace 2 with (/ / 2) by lra; apply Rinv_le_contravar; lra). assert (0 < / (1 - q)) by (apply Rinv_0_lt_compat; lra).
      apply Rle_trans with (two 275 * two (-1100) * two 1). { rewrite two_1. unfold Rdiv. apply Rmult_le_compat; try lra; [apply Rmult_le_pos; lra|apply Rmult_le_compat; lra]. } rewrite <- !two_add. apply two_le. lia. }
    assert (H3 : 0 <= two (-44) * (1 + x + / x) * (A * q / (1 - q))) by (apply Rmult_le_pos; [apply Rmult_le_pos; [apply Rlt_le, two_pos|lra]|lra]).
    assert (H4 : two (-796) <= two (-700)) by (apply two_le; lia). assert (H5 : two (-800) <= two (-700)) by (apply two_le; lia). apply Rabs_le. lra.
Qed.
End P.
