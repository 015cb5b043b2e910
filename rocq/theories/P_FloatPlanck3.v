(** Counterexamples and examples for the Planck function. *)
From Coq Require Import ZArith Reals List Bool Lia Lra Psatz.
From Flocq Require Import Core IEEE754.BinarySingleNaN.
From Verif Require Import Base Tensor M_Float Spec_Float Spec M_Subroutines M_FloatPlanck Spec_FloatPlanck P_Float P_Float2 P_Float4 P_Float5 P_FloatSol P_FloatPlanck P_FloatPlanck2.
Import ListNotations.
Open Scope R_scope.

(** A cube that rounds correctly. *)
Definition cube0 (w : f64) : f64 := fl (fval w ^ 3).
Lemma cube0_ok : cube_ok cube0.
Proof.
  intros w [F [L H]]. pose proof (two_pos (-100)) as P. assert (W3 : 0 < fval w ^ 3) by (apply pow_lt; lra).
  assert (L3 : two (-300) <= fval w ^ 3) by (replace (two (-300)) with (two (-100) ^ 3) by (cbn [pow]; rewrite Rmult_1_r, <- !two_add; reflexivity); apply pow_incr; lra).
  assert (H3 : fval w ^ 3 <= two 300) by (replace (two 300) with (two 100 ^ 3) by (cbn [pow]; rewrite Rmult_1_r, <- !two_add; reflexivity); apply pow_incr; lra).
  unfold cube0. destruct (fl_ok (fval w ^ 3)) as [A B]. { apply rn_small. rewrite Rabs_pos_eq by lra. eapply Rle_trans; [exact H3|apply two_le; lia]. }
  split; [exact A|]. rewrite B. pose proof (rn_rel (fval w ^ 3)) as R. rewrite (Rabs_pos_eq (fval w ^ 3)) in R by lra. apply R. eapply Rle_trans; [apply two_le|exact L3]; lia.
Qed.

Lemma rn_one z : 1 - two (-54) < z <= 1 -> rn z = 1.
Proof.
  intros [H1 H2]. apply Rle_antisym; [apply rn_le_fmt; [apply fmt_1|auto]|]. unfold rn.
  assert (Pr : pred radix2 fexp64 1 = 1 - two (-53)). { change 1 with (bpow radix2 0) at 1. rewrite pred_bpow by apply fexp64_valid. reflexivity. }
  refine (round_N_ge_midp radix2 fexp64 _ 1 z fmt_1 _). rewrite Pr. assert (E : two (-53) = 2 * two (-54)) by (replace 2 with (two 1) by apply two_1; rewrite <- two_add; reflexivity). lra.
Qed.

Lemma T300 : ordinary (lit 300 0) /\ fval (lit 300 0) = 300.
Proof. destruct (lit_int 300 ltac:(reflexivity)) as [F V]. split; [split; [auto|]; rewrite V; split; [apply Rle_trans with 1; [replace 1 with (two 0) by apply two_0; apply two_le; lia|lra]|apply Rle_trans with (two 10); [rewrite two_10; lra|apply two_le; lia]]|auto]. Qed.
Lemma W1000 : ordinary (lit 1000 0) /\ fval (lit 1000 0) = 1000.
Proof. destruct (lit_int 1000 ltac:(reflexivity)) as [F V]. split; [split; [auto|]; rewrite V; split; [apply Rle_trans with 1; [replace 1 with (two 0) by apply two_0; apply two_le; lia|lra]|apply Rle_trans with (two 10); [rewrite two_10; lra|apply two_le; lia]]|auto]. Qed.
Lemma Wtiny : ordinary (lit 1 (-50)) /\ fval (lit 1 (-50)) = two (-50).
Proof. destruct (lit_ok 1 (-50) ltac:(reflexivity) ltac:(lia)) as [F V]. rewrite Rmult_1_l in V. split; [split; [auto|]; rewrite V; split; apply two_le; lia|auto]. Qed.

Lemma planck_infinite : nonfinite (d_Planck libm0 cube0 (lit 300 0) (lit 1 (-50))).
Proof.
  destruct T300 as [HT VT]. destruct Wtiny as [HW VW]. rewrite (planck_eq libm0 cube0 _ _ HT). apply div_zero_nonfinite. destruct (argf_ok (lit 300 0) (lit 1 (-50)) HT HW) as (Fa & Ea & Na).
  assert (Px : 0 < x (lit 300 0) (lit 1 (-50)) <= two (-56)). { split; [apply photon_pos; auto|]. unfold x, photon. rewrite VT, VW. unfold SI_h, SI_c, SI_k. rewrite pow10_42, pow10_29. twov. lra. }
  assert (E : d_expterm libm0 (lit 300 0) (lit 1 (-50)) = fl (exp (fval (argf (lit 300 0) (lit 1 (-50)))))) by (apply libm0_exp; exact Fa).
  set (X := fval (argf (lit 300 0) (lit 1 (-50)))) in *. set (xx := x (lit 300 0) (lit 1 (-50))) in *.
  assert (R1 : rn (exp X) = 1).
  { apply rn_one. pose proof U_pos. pose proof U_small. assert (X1 : - (2 * two (-56)) <= X) by (apply Rabs_le_inv in Ea; nra). assert (X2 : X < 0) by lra. split; [|rewrite <- exp_0; apply Rlt_le, exp_increasing; auto].
    pose proof (exp_ineq1 X ltac:(lra)). assert (E54 : two (-54) = 4 * two (-56)) by (replace 4 with (two 2) by (twov; lra); rewrite <- two_add; reflexivity). pose proof (two_pos (-56)). lra. }
  destruct (fl_ok (exp X)) as [F V]. { rewrite R1, Rabs_R1, <- two_0. apply bpow_lt. lia. } rewrite R1 in V.
  destruct (fsub_ok fone (fl (exp X)) fone_fin F) as [G H]. { rewrite fone_val, V. replace (1 - 1) with 0 by ring. rewrite rn_0, Rabs_R0. apply two_pos. }
  rewrite fone_val, V in H. replace (1 - 1) with 0 in H by ring. rewrite rn_0 in H. rewrite E. apply zero_cases; auto.
Qed.
Lemma photon_300 : two (-40) <= photon 300 1000 <= 5.
Proof. unfold photon, SI_h, SI_c, SI_k. rewrite pow10_42, pow10_29. twov. lra. Qed.

(** Units. *)
Lemma planck_cm T W : 0 < T -> 0 < W -> Planck [T] W = Ok [100 * planck_per_metre T (100 * W)].
Proof.
  intros HT HW. pose proof k_pos. pose proof h_pos. pose proof c_pos.
  assert (P : 0 < 100 * SI_h * SI_c * W / (SI_k * T)) by (apply Rdiv_lt_0_compat; repeat apply Rmult_lt_0_compat; lra).
  unfold Planck. cbn [rmap]. destruct (Req_EM_T T 0) as [E|_]; [lra|]. cbv zeta. assert (EQ : planck_expterm T W = / exp (100 * SI_h * SI_c * W / (SI_k * T))).
  { unfold planck_expterm. rewrite <- exp_Ropp. f_equal. change const_h with SI_h. change const_c with SI_c. change const_k with SI_k. unfold Rdiv. ring. }
  assert (G : 1 < exp (100 * SI_h * SI_c * W / (SI_k * T))) by (rewrite <- exp_0; apply exp_increasing; auto). rewrite EQ. unfold cdiv. destruct (Req_EM_T (1 - / exp (100 * SI_h * SI_c * W / (SI_k * T))) 0) as [Z|_].
  { exfalso. assert (/ exp (100 * SI_h * SI_c * W / (SI_k * T)) < 1) by (rewrite <- Rinv_1; apply Rinv_lt_contravar; lra). lra. }
  cbn. f_equal. f_equal. unfold planck_per_metre. replace (SI_h * SI_c * (100 * W) / (SI_k * T)) with (100 * SI_h * SI_c * W / (SI_k * T)) by (unfold Rdiv; ring).
  change const_h with SI_h. change const_c with SI_c. field. lra.
Qed.
Lemma units_wrong : exists T W, 0 < T /\ 0 < W /\ Planck [T] W <> Ok [planck_per_metre T W].
Proof.
  pose proof k_pos. pose proof h_pos. pose proof c_pos. exists (100 * SI_h * SI_c / SI_k), 1. assert (PT : 0 < 100 * SI_h * SI_c / SI_k) by (apply Rdiv_lt_0_compat; repeat apply Rmult_lt_0_compat; lra). split; [auto|]. split; [lra|].
  rewrite planck_cm by lra. intros E. injection E as E. unfold planck_per_metre in E.
  replace (SI_h * SI_c * (100 * 1) / (SI_k * (100 * SI_h * SI_c / SI_k))) with 1 in E by (field; lra). replace (SI_h * SI_c * 1 / (SI_k * (100 * SI_h * SI_c / SI_k))) with (/ 100) in E by (field; lra).
  pose proof exp_1_up as E1. pose proof (exp_ineq1 1 ltac:(lra)) as E2. pose proof (exp_ineq1 (/ 100) ltac:(lra)) as E3. set (a := exp 1) in *. set (b := exp (/ 100)) in *. set (K := 2 * SI_h * SI_c ^ 2) in *. assert (HK : 0 < K) by (unfold K; repeat apply Rmult_lt_0_compat; try apply pow_lt; lra).
  assert (E4 : 100000000 * (b - 1) = a - 1). { apply (Rmult_eq_reg_l (K / ((a - 1) * (b - 1)))); [|apply Rgt_not_eq, Rdiv_lt_0_compat; [auto|apply Rmult_lt_0_compat; lra]]. transitivity (100 * (K * (100 * 1) ^ 3 / (a - 1))); [field; lra|]. rewrite E. field. lra. }
  lra.
Qed.
