(** The generating function of the Legendre polynomials and the Henyey-Greenstein phase function. *)
From Coq Require Import Reals Lra Lia List Arith.
From Coquelicot Require Import Coquelicot.
From Verif Require Import Base Spec M_LinAlg P_Special P_Depend.
Import ListNotations.
Local Open Scope R_scope.

Section Gen.
  Variable x : R.
  Hypothesis Hx : -1 <= x <= 1.
  Let a (k : nat) : R := legendre k x.
  Let S := PSeries a.
  Let q (g : R) := 1 - 2 * x * g + g ^ 2.

  Lemma q_pos g : -1 < g < 1 -> 0 < q g.
  Proof. 
    intros Hg. replace (q g) with ((1 + x) / 2 * (1 - g) ^ 2 + (1 - x) / 2 * (1 + g) ^ 2) by (unfold q; field).
    assert (0 < (1 - g) ^ 2) by (apply pow_lt; lra). assert (0 < (1 + g) ^ 2) by (apply pow_lt; lra).
    destruct (Rle_lt_dec x 0).
    - assert (0 <= (1 + x) / 2 * (1 - g) ^ 2) by (apply Rmult_le_pos; lra). assert (0 < (1 - x) / 2 * (1 + g) ^ 2) by (apply Rmult_lt_0_compat; lra). lra.
    - assert (0 < (1 + x) / 2 * (1 - g) ^ 2) by (apply Rmult_lt_0_compat; lra). assert (0 <= (1 - x) / 2 * (1 + g) ^ 2) by (apply Rmult_le_pos; lra). lra.
  Qed.
  Lemma a_radius g : -1 < g < 1 -> Rbar_lt (Rabs g) (CV_radius a).
  Proof.
    intros Hg. apply Rbar_lt_le_trans with (Finite 1); [cbn; apply Rabs_def1; lra|].
    apply (proj1 (CV_radius_bounded a)). exists 1. intros n. rewrite pow1, Rmult_1_r. apply legendre_abs. exact Hx.
  Qed.
  Lemma a_ser g : -1 < g < 1 -> is_pseries a g (S g).
  Proof. intros Hg. apply PSeries_correct. apply CV_radius_inside. apply a_radius. exact Hg. Qed.
  Lemma a_dser g : -1 < g < 1 -> is_pseries (PS_derive a) g (PSeries (PS_derive a) g).
  Proof. intros Hg. apply PSeries_correct. apply CV_radius_inside. rewrite CV_radius_derive. apply a_radius. exact Hg. Qed.
  Lemma S_der g : -1 < g < 1 -> is_derive S g (PSeries (PS_derive a) g).
  Proof. intros Hg. apply is_derive_PSeries. apply a_radius. exact Hg. Qed.

  Lemma rec_a n : (INR n + 2) * a (Datatypes.S (Datatypes.S n)) = (2 * INR n + 3) * x * a (Datatypes.S n) - (INR n + 1) * a n.
  Proof. unfold a. rewrite legendre_rec. pose proof (pos_INR n). field. lra. Qed.

  Lemma ode g : -1 < g < 1 -> q g * PSeries (PS_derive a) g = (x - g) * S g.
  Proof.
    intros Hg. set (D := PSeries (PS_derive a) g). pose proof (a_ser g Hg) as HS. pose proof (a_dser g Hg) as HD. fold D in HD.
    pose proof (is_pseries_incr_1 _ _ _ HD) as H1. pose proof (is_pseries_incr_1 _ _ _ H1) as H2. pose proof (is_pseries_incr_1 _ _ _ HS) as H3.
    pose proof (is_pseries_scal (- 2 * x) _ _ _ (Rmult_comm _ _) H1) as H1'. pose proof (is_pseries_scal x _ _ _ (Rmult_comm _ _) HS) as HS'.
    pose proof (is_pseries_plus _ _ _ _ _ (is_pseries_plus _ _ _ _ _ HD H1') H2) as L.
    pose proof (is_pseries_minus _ _ _ _ _ HS' H3) as U.
    assert (E : forall n, PS_plus (PS_plus (PS_derive a) (PS_scal (- 2 * x) (PS_incr_1 (PS_derive a)))) (PS_incr_1 (PS_incr_1 (PS_derive a))) n = PS_minus (PS_scal x a) (PS_incr_1 a) n).
    { intros n. unfold PS_plus, PS_minus, PS_scal, PS_opp, PS_derive, plus, opp, scal; cbn -[INR]; unfold mult; cbn -[INR]. 
      destruct n as [|[|n]]; cbn -[INR].
      - unfold zero; cbn. change (a 1%nat) with (legendre 1 x). change (a 0%nat) with (legendre 0 x). cbn. field.
      - pose proof (rec_a 0) as R. cbn in R. unfold zero; cbn. change (a 0%nat) with (legendre 0 x) in *. cbn in R |- *. lra.
      - pose proof (rec_a (Datatypes.S n)) as R. rewrite !S_INR in *. lra. }
    pose proof (is_pseries_ext _ _ g _ E L) as L'. 
    pose proof (is_series_unique _ _ L') as E1. pose proof (is_series_unique _ _ U) as E2. rewrite E1 in E2.
    unfold plus, minus, opp, scal, mult in E2; cbn in E2; unfold mult in E2; cbn in E2. unfold minus, plus, opp in E2; cbn in E2. unfold q. nra.
  Qed.

  Lemma S_val g : -1 < g < 1 -> S g = / sqrt (q g).
  Proof.
    intros Hg. assert (S0 : S 0 = 1).
    { unfold S. rewrite PSeries_0. unfold a, legendre. cbn. ring. }
    assert (HD : forall t, -1 < t < 1 -> is_derive (fun t => S t * sqrt (q t)) t 0).
    { intros t Ht. pose proof (q_pos t Ht) as Hq. pose proof (S_der t Ht) as D1.
      assert (D2 : is_derive (fun t => sqrt (q t)) t ((- 2 * x + 2 * t) / (2 * sqrt (q t)))).
      { unfold q in *. auto_derive; [lra|]. replace (1 + - (2 * x * t) + t * (t * 1)) with (1 - 2 * x * t + t ^ 2) by ring. field. apply Rgt_not_eq, sqrt_lt_R0. exact Hq. }
      evar_last; [exact (is_derive_mult _ _ _ _ _ D1 D2 (fun n m => Rmult_comm n m))|].
      unfold plus, mult; cbn. pose proof (ode t Ht) as O. pose proof (sqrt_sqrt (q t) ltac:(lra)) as Q. pose proof (sqrt_lt_R0 _ Hq) as Qp.
      set (s := sqrt (q t)) in *. set (d := PSeries (PS_derive a) t) in *. apply (Rmult_eq_reg_r s); [|lra]. field_simplify; [|lra]. rewrite <- Q in O. nra. }
    assert (E : S g * sqrt (q g) = 1).
    { transitivity (S 0 * sqrt (q 0)); [|rewrite S0; unfold q; replace (1 - 2 * x * 0 + 0 ^ 2) with 1 by ring; rewrite sqrt_1; ring].
      destruct (MVT_gen (fun t => S t * sqrt (q t)) 0 g (fun _ => 0)) as (c & _ & Hc).
      - intros t Ht. apply HD. revert Ht. unfold Rmin, Rmax. destruct (Rle_dec 0 g); lra.
      - intros t Ht. apply continuity_pt_filterlim. apply (ex_derive_continuous (fun t => S t * sqrt (q t))). eexists. apply HD. revert Ht. unfold Rmin, Rmax. destruct (Rle_dec 0 g); lra.
      - lra. }
    pose proof (sqrt_lt_R0 _ (q_pos g Hg)) as Qp. apply (Rmult_eq_reg_r (sqrt (q g))); [|lra]. rewrite E. field. lra.
  Qed.

  Theorem hg_series g : -1 < g < 1 -> is_series (fun k => (2 * INR k + 1) * g ^ k * legendre k x) ((1 - g ^ 2) / sqrt (1 + g ^ 2 - 2 * g * x) ^ 3).
  Proof.
    intros Hg. pose proof (a_ser g Hg) as HS. pose proof (a_dser g Hg) as HD. set (D := PSeries (PS_derive a) g) in *.
    pose proof (is_pseries_plus _ _ _ _ _ HS (is_pseries_scal 2 _ _ _ (Rmult_comm _ _) (is_pseries_incr_1 _ _ _ HD))) as L.
    assert (E : plus (S g) (scal 2 (scal g D)) = (1 - g ^ 2) / sqrt (1 + g ^ 2 - 2 * g * x) ^ 3).
    { unfold plus, scal; cbn; unfold mult; cbn. replace (1 + g * (g * 1) - 2 * g * x) with (q g) by (unfold q; ring).
      pose proof (q_pos g Hg) as Hq. pose proof (ode g Hg) as O. fold D in O. rewrite (S_val g Hg) in *. pose proof (sqrt_sqrt (q g) ltac:(lra)) as Q. pose proof (sqrt_lt_R0 _ Hq) as Qp.
      set (s := sqrt (q g)) in *. assert (D = (x - g) / s ^ 3). { apply (Rmult_eq_reg_l (q g)); [|lra]. rewrite O, <- Q. field. lra. }
      rewrite H. replace (1 - g * (g * 1)) with (s * s + 2 * g * (x - g)) by (rewrite Q; unfold q; ring). field. lra. }
    change (is_pseries (PS_plus a (PS_scal 2 (PS_incr_1 (PS_derive a)))) g (plus (S g) (scal 2 (scal g D)))) in L. rewrite E in L. refine (is_series_ext _ _ _ _ L). intros n. unfold PS_plus, PS_scal, PS_derive, plus, scal; cbn -[INR]; unfold mult; cbn -[INR]. rewrite pow_n_pow. fold (a n).
    destruct n as [|n]; cbn -[INR]; [unfold zero; cbn; ring|]. rewrite !S_INR. unfold a. ring.
  Qed.
  Lemma hg_pos g : -1 < g < 1 -> 0 < (1 - g ^ 2) / sqrt (1 + g ^ 2 - 2 * g * x) ^ 3.
  Proof.
    intros Hg. apply Rdiv_lt_0_compat; [nra|]. apply pow_lt, sqrt_lt_R0. pose proof (q_pos g Hg) as H. unfold q in H. lra.
  Qed.
End Gen.
