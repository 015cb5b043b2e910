(** * The checks and the scaling in double precision; correctly rounded functions; examples. *)
From Coq Require Import ZArith Reals List Bool Lia Lra Psatz.
From Flocq Require Import Core Relative Plus_error IEEE754.BinarySingleNaN.
From Verif Require Import Base M_Float Spec_Float P_Float P_Float2 P_Float3 P_Float4.
Import ListNotations.
Open Scope R_scope.

Lemma forall_nth {A} (P : A -> Prop) l d :
  Forall P l <-> (forall r, (r < length l)%nat -> P (nth r l d)).
Proof.
  rewrite Forall_forall. split; intros H.
  - intros r Hr. apply H, nth_In, Hr.
  - intros x Hx. apply (In_nth l x d) in Hx. destruct Hx as (r & Hr & <-). apply H, Hr.
Qed.

Lemma forallb_nth {A} (P : A -> bool) l d :
  forallb P l = true <-> (forall r, (r < length l)%nat -> P (nth r l d) = true).
Proof.
  rewrite forallb_forall. split; intros H.
  - intros r Hr. apply H, nth_In, Hr.
  - intros x Hx. apply (In_nth l x d) in Hx. destruct Hx as (r & Hr & <-). apply H, Hr.
Qed.

Lemma forallb_seq (P : nat -> bool) n :
  forallb P (seq 0 n) = true <-> (forall r, (r < n)%nat -> P r = true).
Proof.
  rewrite forallb_forall. split; intros H.
  - intros r Hr. apply H, in_seq. lia.
  - intros x Hx. apply in_seq in Hx. apply H. lia.
Qed.

Lemma diff_fin x y : ffin x = true -> ffin y = true -> 0 < fval x -> 0 < fval y ->
  ffin (fsub x y) = true /\ fval (fsub x y) = rn (fval x - fval y).
Proof.
  intros Fx Fy Px Py. apply fsub_ok; auto.
  destruct (Rle_or_lt (fval y) (fval x)) as [H|H].
  - rewrite Rabs_pos_eq by (apply rn_ge_fmt; [apply fmt_0|lra]).
    eapply Rle_lt_trans; [apply rn_le_fmt; [apply (fmt_val x)|lra]|].
    eapply Rle_lt_trans; [apply Rle_abs|apply val_lt].
  - rewrite <- Rabs_Ropp, <- rn_opp.
    rewrite Rabs_pos_eq by (apply rn_ge_fmt; [apply fmt_0|lra]).
    eapply Rle_lt_trans; [apply rn_le_fmt; [apply (fmt_val y)|lra]|].
    eapply Rle_lt_trans; [apply Rle_abs|apply val_lt].
Qed.

Lemma checks_iff a : all_finite a -> (fa_checks a = true <-> atm_ok a).
Proof.
  intros (FT & FW & FF).
  rewrite (forall_nth _ _ fnan) in FT. rewrite (forall_nth _ _ fnan) in FW. rewrite (forall_nth _ _ fnan) in FF.
  unfold fa_checks. rewrite !andb_true_iff, !Nat.eqb_eq.
  rewrite !(forallb_nth _ _ fnan), forallb_seq. split.
  - intros (((((((L1 & L2) & T1) & T2) & W1) & W2) & P1) & P2).
    rewrite L1 in FW, W1, W2. rewrite L2 in FF, P1, P2.
    assert (TP : forall r, (r < fa_n a)%nat -> 0 < fval (t_ a r)).
    { intros r Hr. specialize (T1 r Hr). apply flt_iff in T1; [|reflexivity|apply FT, Hr].
      rewrite fzero_val in T1. exact T1. }
    constructor; auto.
    + intros r Hr. split; [apply FT, Hr|]. split; [apply FW, Hr|apply FF, Hr].
    + intros r Hr. specialize (T2 (S r) Hr). unfold fa_thick in T2.
      destruct (diff_fin (t_ a (S r)) (t_ a r)) as [F V];
        [apply FT, Hr|apply FT; unfold fa_n in *; lia|apply TP, Hr|apply TP; lia|].
      apply flt_iff in T2; [|reflexivity|exact F]. rewrite fzero_val, V in T2.
      destruct (Rlt_or_le (fval (t_ a r)) (fval (t_ a (S r)))) as [G|G]; [exact G|].
      exfalso. pose proof (rn_le_fmt (fval (t_ a (S r)) - fval (t_ a r)) 0 fmt_0 ltac:(lra)). lra.
    + intros r Hr. specialize (W1 r Hr). specialize (W2 r Hr).
      apply fle_iff in W1; [|reflexivity|apply FW, Hr].
      apply flt_iff in W2; [|apply FW, Hr|reflexivity].
      rewrite fzero_val in W1. rewrite fone_val in W2. split; assumption.
    + intros r Hr. specialize (P1 r Hr). specialize (P2 r Hr).
      apply fle_iff in P1; [|reflexivity|apply FF, Hr].
      apply fle_iff in P2; [|apply FF, Hr|reflexivity].
      rewrite fzero_val in P1. rewrite fone_val in P2. split; assumption.
  - intros Ha. pose proof (ao_w a Ha) as L1. pose proof (ao_f a Ha) as L2.
    rewrite L1, L2 in *.
    repeat match goal with |- _ /\ _ => split end; auto; intros r Hr.
    + apply flt_iff; [reflexivity|apply FT, Hr|]. rewrite fzero_val. apply (ao_tau a Ha), Hr.
    + destruct (thick_ok a Ha r Hr) as (F & _ & P). apply flt_iff; [reflexivity|exact F|].
      rewrite fzero_val. apply P.
    + apply fle_iff; [reflexivity|apply FW, Hr|]. rewrite fzero_val. apply (ao_om a Ha), Hr.
    + apply flt_iff; [apply FW, Hr|reflexivity|]. rewrite fone_val. apply (ao_om a Ha), Hr.
    + apply fle_iff; [reflexivity|apply FF, Hr|]. rewrite fzero_val. apply (ao_pk a Ha), Hr.
    + apply fle_iff; [apply FF, Hr|reflexivity|]. rewrite fone_val. apply (ao_pk a Ha), Hr.
Qed.

Lemma somega_ok a r : atm_ok a -> (r < fa_n a)%nat ->
  ffin (fa_somega a r) = true /\ 0 <= fval (fa_somega a r) <= fval (w_ a r).
Proof.
  intros Ha Hr. destruct (scale_ok a Ha r Hr) as (F1 & R1 & V1 & _).
  destruct (ao_fin a Ha r Hr) as (_ & FW & FF).
  pose proof (ao_pk a Ha r Hr) as P. pose proof (ao_om a Ha r Hr) as O.
  destruct (peak_ok a Ha r Hr) as (_ & _ & _ & PK).
  assert (G0 : 0 <= rn (1 - fval (f_ a r))) by (apply rn_ge_fmt; [apply fmt_0|lra]).
  assert (G1 : rn (1 - fval (f_ a r)) <= fval (fa_scale a r)) by (rewrite V1; apply rn_le; lra).
  assert (B1 : 1 < two 1024) by (rewrite <- two_0; apply two_lt_1024; lia).
  destruct (fsub_ok fone (f_ a r) fone_fin FF) as [F2 V2].
  { rewrite fone_val, Rabs_pos_eq by exact G0. lra. }
  rewrite fone_val in V2.
  assert (Q0 : 0 <= rn (fval (fsub fone (f_ a r)) / fval (fa_scale a r)) <= 1).
  { rewrite V2. split; [apply rn_ge_fmt; [apply fmt_0|]|apply rn_le_fmt; [apply fmt_1|]].
    - apply Rmult_le_pos; [exact G0|]. apply Rlt_le, Rinv_0_lt_compat. lra.
    - apply Rmult_le_reg_r with (fval (fa_scale a r)); [lra|].
      unfold Rdiv. rewrite Rmult_assoc, Rinv_l; lra. }
  destruct (fdiv_ok (fsub fone (f_ a r)) (fa_scale a r) F2 ltac:(lra)) as [F3 V3].
  { rewrite Rabs_pos_eq; lra. }
  rewrite <- V3 in Q0. unfold fa_somega.
  assert (M0 : 0 <= rn (fval (fdiv (fsub fone (f_ a r)) (fa_scale a r)) * fval (w_ a r)) <= fval (w_ a r)).
  { split; [apply rn_ge_fmt; [apply fmt_0|nra]|apply rn_le_fmt; [apply fmt_val|nra]]. }
  destruct (fmul_ok _ _ F3 FW) as [F4 V4].
  { rewrite Rabs_pos_eq by apply M0. lra. }
  split; [exact F4|]. rewrite V4. exact M0.
Qed.

Lemma sthick_dist a r : atm_ok a -> (r < fa_n a)%nat ->
  ffin (fa_sthick a r) = true /\ 0 <= fval (fa_sthick a r) <= fval (t_ a r) /\
  Rabs (fval (fa_sthick a r) - scaling a r * thickness a r) <= two (-50) * thickness a r + two (-1073).
Proof.
  intros Ha Hr. destruct (sthick_ok a Ha r Hr) as (F & R & _ & L & U).
  split; [exact F|]. split; [exact R|]. apply Rabs_le. lra.
Qed.

(** The float nearest to a real number. *)
Definition fl (x : R) : f64 :=
  @binary_normalize 53 1024 prec64 emax64 mode_NE
    (ZnearestE (scaled_mantissa radix2 fexp64 x)) (cexp radix2 fexp64 x) false.

Lemma fl_ok x : Rabs (rn x) < two 1024 -> ffin (fl x) = true /\ fval (fl x) = rn x.
Proof.
  intros H.
  pose proof (binary_normalize_correct 53 1024 prec64 emax64 mode_NE
    (ZnearestE (scaled_mantissa radix2 fexp64 x)) (cexp radix2 fexp64 x) false) as C.
  cbv zeta in C.
  change (F2R (Float radix2 (ZnearestE (scaled_mantissa radix2 fexp64 x)) (cexp radix2 fexp64 x)))
    with (rn x) in C.
  change (round radix2 fexp64 (round_mode mode_NE) (rn x)) with (rn (rn x)) in C.
  rewrite (rn_fmt (rn x)) in C by apply fmt_rn.
  rewrite Rlt_bool_true in C by exact H. destruct C as (C1 & C2 & _). split; assumption.
Qed.

Definition libm0 : libm :=
  {| l_exp := fun x => match x with
       | B754_infinity true => fzero
       | _ => fl (exp (fval x)) end;
     l_expm1 := fun x => match x with
       | B754_infinity true => fopp fone
       | _ => fl (exp (fval x) - 1) end |}.

Lemma libm0_exp x : ffin x = true -> l_exp libm0 x = fl (exp (fval x)).
Proof. destruct x as [s|s| |s m e H]; try discriminate; reflexivity. Qed.
Lemma libm0_expm1 x : ffin x = true -> l_expm1 libm0 x = fl (exp (fval x) - 1).
Proof. destruct x as [s|s| |s m e H]; try discriminate; reflexivity. Qed.

Lemma libm0_ok : libm_ok libm0.
Proof.
  assert (B1 : 1 < two 1024) by (rewrite <- two_0; apply two_lt_1024; lia).
  assert (B3 : 3 < two 1024) by (apply Rlt_trans with (two 2); [change (two 2) with 4; lra|apply two_lt_1024; lia]).
  assert (F3 : fmt 3).
  { replace 3 with (IZR 3 * two 0) by (rewrite two_0; ring). apply fmt_Z; lia. }
  constructor.
  - intros x F V. rewrite libm0_exp by exact F. pose proof (exp_pos (fval x)) as P.
    assert (E1 : exp (fval x) <= 1) by (rewrite <- exp_0; apply exp_le; lra).
    assert (R1 : 0 <= rn (exp (fval x)) <= 1)
      by (split; [apply rn_ge_fmt; [apply fmt_0|lra]|apply rn_le_fmt; [apply fmt_1|lra]]).
    destruct (fl_ok (exp (fval x))) as [X1 X2]; [rewrite Rabs_pos_eq; lra|].
    split; [exact X1|]. rewrite X2. split; [exact R1|].
    pose proof (rn_err (exp (fval x))) as E. rewrite (Rabs_pos_eq (exp (fval x))) in E by lra.
    rewrite two_m52, two_m1074. pose proof (two_pos (-53)). pose proof (two_pos (-1075)). nra.
  - intros x F V. rewrite libm0_exp by exact F. pose proof (exp_pos (fval x)) as P.
    assert (E1 : exp (fval x) <= 3) by (eapply Rle_trans; [apply exp_le, V|apply exp_le_3]).
    assert (R1 : 0 <= rn (exp (fval x)) <= 3)
      by (split; [apply rn_ge_fmt; [apply fmt_0|lra]|apply rn_le_fmt; [exact F3|lra]]).
    destruct (fl_ok (exp (fval x))) as [X1 X2]; [rewrite Rabs_pos_eq; lra|].
    split; [exact X1|]. rewrite X2. split; [exact R1|].
    pose proof (rn_err (exp (fval x))) as E. rewrite (Rabs_pos_eq (exp (fval x))) in E by lra.
    rewrite two_m52, two_m1074. pose proof (two_pos (-53)). pose proof (two_pos (-1075)). nra.
  - split; reflexivity.
  - intros x F V. rewrite libm0_expm1 by exact F. pose proof (exp_pos (fval x)) as P.
    assert (E1 : exp (fval x) <= 1) by (rewrite <- exp_0; apply exp_le; lra).
    assert (R1 : -1 <= rn (exp (fval x) - 1) <= 0).
    { split; [|apply rn_le_fmt; [apply fmt_0|lra]].
      apply rn_ge_fmt; [|lra]. replace (-1) with (- (1)) by lra. apply fmt_opp, fmt_1. }
    destruct (fl_ok (exp (fval x) - 1)) as [X1 X2].
    { rewrite Rabs_left1; lra. }
    split; [exact X1|]. rewrite X2. split; [exact R1|].
    pose proof (rn_err (exp (fval x) - 1)) as E. rewrite (Rabs_left1 (exp (fval x) - 1)) in E by lra.
    rewrite two_m50, two_m1074. pose proof (two_pos (-53)). pose proof (two_pos (-1075)). nra.
  - split; [reflexivity|]. cbn [l_expm1 libm0]. rewrite fopp_val, fone_val. lra.
Qed.

(** Literals. *)
Definition lit (m e : Z) : f64 := fl (IZR m * two e).
Lemma lit_ok m e : (Z.abs m < 2 ^ 53)%Z -> (-1074 <= e <= 900)%Z ->
  ffin (lit m e) = true /\ fval (lit m e) = IZR m * two e.
Proof.
  intros Hm He. pose proof (fmt_Z m e Hm ltac:(lia)) as F. unfold lit.
  destruct (fl_ok (IZR m * two e)) as [X1 X2].
  - rewrite rn_fmt by exact F. rewrite Rabs_mult, (Rabs_pos_eq (two e)) by apply Rlt_le, two_pos.
    apply Rle_lt_trans with (two 53 * two 900).
    + apply Rmult_le_compat; [apply Rabs_pos|apply Rlt_le, two_pos| |apply two_le; lia].
      rewrite <- abs_IZR, two_IZR by lia. apply IZR_le. lia.
    + rewrite <- two_add. apply two_lt_1024. lia.
  - split; [exact X1|]. rewrite X2. apply rn_fmt, F.
Qed.

Lemma lit_int m : (Z.abs m < 2 ^ 53)%Z -> ffin (lit m 0) = true /\ fval (lit m 0) = IZR m.
Proof.
  intros Hm. destruct (lit_ok m 0 Hm ltac:(lia)) as [F V]. split; [exact F|].
  rewrite V, two_0. ring.
Qed.
Lemma half_lit : ffin (lit 1 (-1)) = true /\ fval (lit 1 (-1)) = / 2.
Proof.
  destruct (lit_ok 1 (-1) ltac:(lia) ltac:(lia)) as [F V]. split; [exact F|].
  rewrite V. change (two (-1)) with (/ 2). ring.
Qed.
Lemma mu_lit : ffin (lit 1 (-6)) = true /\ fval (lit 1 (-6)) = / 64.
Proof.
  destruct (lit_ok 1 (-6) ltac:(lia) ltac:(lia)) as [F V]. split; [exact F|].
  rewrite V. change (two (-6)) with (/ 64). ring.
Qed.

(** Two layers with boundaries at [x] and [y], albedo 1/2, forward peak 1/2. *)
Definition atm2 (x y : Z) : fatm :=
  {| fa_tau := [lit x 0; lit y 0]; fa_omega := [lit 1 (-1); lit 1 (-1)];
     fa_f := [lit 1 (-1); lit 1 (-1)] |}.

Section Atm2.
Variables x y : Z.
Hypothesis Hxy : (0 < x < y)%Z.
Hypothesis Hy : (y < 2 ^ 53)%Z.

Lemma atm2_val : ffin (lit x 0) = true /\ ffin (lit y 0) = true /\
  fval (lit x 0) = IZR x /\ fval (lit y 0) = IZR y.
Proof.
  destruct (lit_int x ltac:(lia)) as [A B]. destruct (lit_int y ltac:(lia)) as [C D]. auto.
Qed.

Lemma atm2_ok : atm_ok (atm2 x y).
Proof.
  destruct atm2_val as (F1 & F2 & V1 & V2). destruct half_lit as [F3 V3].
  assert (X : 0 < IZR x) by (apply IZR_lt; lia). assert (Y : IZR x < IZR y) by (apply IZR_lt; lia).
  constructor; try reflexivity; intros r Hr; unfold fa_n in Hr; cbn [atm2 fa_tau length] in Hr;
    destruct r as [|[|r]]; try lia; unfold t_, w_, f_; cbn [atm2 fa_tau fa_omega fa_f nth];
    rewrite ?V1, ?V2, ?V3; auto; try lra.
Qed.

Lemma atm2_thickness0 : thickness (atm2 x y) 0 = IZR x.
Proof. apply atm2_val. Qed.
Lemma atm2_thickness1 : thickness (atm2 x y) 1 = IZR y - IZR x.
Proof. destruct atm2_val as (_ & _ & V1 & V2). unfold thickness, t_; cbn [atm2 fa_tau nth]. rewrite V1, V2. reflexivity. Qed.
Lemma atm2_scaling r : (r < 2)%nat -> scaling (atm2 x y) r = 3 / 4.
Proof.
  intros Hr. destruct half_lit as [_ V]. unfold scaling, w_, f_.
  destruct r as [|[|r]]; [| |lia]; cbn [atm2 fa_omega fa_f nth]; rewrite V; field.
Qed.
Lemma atm2_peak r : (r < fa_n (atm2 x y))%nat -> fval (w_ (atm2 x y) r) * fval (f_ (atm2 x y) r) <= / 2.
Proof. intros Hr. change (fa_n (atm2 x y)) with 2%nat in Hr. pose proof (atm2_scaling r Hr) as H. unfold scaling in H. lra. Qed.
Lemma atm2_depth1 e : scaled_depth (atm2 x y) e 1 = (3 / 4 + e) * IZR x.
Proof. unfold scaled_depth; cbn [rsum]. rewrite atm2_thickness0, atm2_scaling by lia. ring. Qed.
Lemma atm2_depth2 e : scaled_depth (atm2 x y) e 2 = (3 / 4 + e) * IZR y.
Proof.
  unfold scaled_depth; cbn [rsum].
  rewrite atm2_thickness0, atm2_thickness1, !atm2_scaling by lia. ring.
Qed.

Lemma atm2_top : in_layer (atm2 x y) 0 (lit x 0).
Proof.
  destruct atm2_val as (F1 & F2 & V1 & V2). assert (X : 0 < IZR x) by (apply IZR_lt; lia).
  split; [cbn; lia|]. split; [exact F1|]. split; [|intros; lia].
  unfold t_; cbn [atm2 fa_tau nth]. rewrite V1. lra.
Qed.
Lemma atm2_bottom : in_layer (atm2 x y) 1 (lit y 0).
Proof.
  destruct atm2_val as (F1 & F2 & V1 & V2). assert (X : 0 < IZR x) by (apply IZR_lt; lia).
  assert (Y : IZR x < IZR y) by (apply IZR_lt; lia).
  split; [cbn; lia|]. split; [exact F2|]. unfold t_; cbn [atm2 fa_tau nth]. split; [rewrite V2; lra|].
  intros r Hr. destruct r; [|lia]. cbn [nth]. rewrite V1, V2. exact Y.
Qed.
Lemma atm2_n e : (2 <= e)%Z -> INR (fa_n (atm2 x y)) <= two e.
Proof.
  intros He. change (INR (fa_n (atm2 x y))) with (1 + 1).
  apply Rle_trans with (two 2); [change (two 2) with 4; lra|apply two_le, He].
Qed.
End Atm2.

Lemma mu_cos : cosine_ok (lit 1 (-6)).
Proof.
  destruct mu_lit as [F V]. split; [exact F|]. rewrite V. split; [|lra].
  change (/ 64) with (two (-6)). apply two_le. lia.
Qed.
Lemma mu0_cos : cosine_ok (lit 1 (-1)).
Proof.
  destruct half_lit as [F V]. split; [exact F|]. rewrite V. split; [|lra].
  change (/ 2) with (two (-1)). apply two_le. lia.
Qed.
Lemma m50_small : 0 < two (-50) <= / 1024.
Proof. split; [apply two_pos|]. change (/ 1024) with (two (-10)). apply two_le. lia. Qed.
Lemma one_at_most e : (0 <= e)%Z -> at_most e fone.
Proof.
  intros He. split; [reflexivity|]. rewrite fone_val, Rabs_R1, <- two_0. apply two_le, He.
Qed.

Lemma thick_example : deep (atm2 20 30) (lit 1 (-6)) 0.
Proof.
  unfold deep. rewrite atm2_depth1 by lia. rewrite (proj2 mu_lit). pose proof m50_small. lra.
Qed.
Lemma thin_example : scaled_depth (atm2 1 2) (two (-50)) (fa_n (atm2 1 2)) <= 690 * fval (lit 1 (-6)).
Proof.
  change (fa_n (atm2 1 2)) with 2%nat. rewrite atm2_depth2 by lia.
  rewrite (proj2 mu_lit). pose proof m50_small. lra.
Qed.
