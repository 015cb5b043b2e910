(** * Scattering angles in double precision: range and accuracy. *)
From Coq Require Import ZArith Reals List Bool Lia Lra.
From Coquelicot Require Import Coquelicot.
From Flocq Require Import Core Sterbenz Mult_error IEEE754.BinarySingleNaN.
From Verif Require Import Base M_Float Spec_Float P_Float P_Float2 P_Float5 M_FloatNu Spec_FloatNu.
Open Scope R_scope.

Lemma fsqrt_ok x : ffin x = true -> 0 <= fval x -> ffin (fsqrt x) = true /\ fval (fsqrt x) = rn (sqrt (fval x)).
Proof.
  intros Hf Hx. pose proof (Bsqrt_correct 53 1024 prec64 emax64 mode_NE x) as (C1 & C2 & _). split; [|exact C1].
  unfold ffin, fsqrt. rewrite C2. destruct x as [s|s| |s m e H]; try discriminate Hf; [reflexivity|]. destruct s; [|reflexivity].
  exfalso. cbn in Hx. assert (F2R (Float radix2 (Zneg m) e) < 0) by (apply F2R_lt_0; reflexivity). unfold fval, B2R in Hx. cbn in Hx. lra.
Qed.

Lemma small_1024 x : Rabs x <= 4 -> Rabs (rn x) < two 1024.
Proof.
  intros H. apply rn_small. apply Rle_trans with (1 := H). replace 4 with (two 2) by (unfold two; cbn; lra). apply two_le. lia.
Qed.

Lemma sqrt_01 x : 0 <= x <= 1 -> 0 <= sqrt x <= 1.
Proof. intros H. split; [apply sqrt_pos|]. rewrite <- sqrt_1. apply sqrt_le_1_alt. lra. Qed.
Lemma prod1 x y : -1 <= x <= 1 -> -1 <= y <= 1 -> -1 <= x * y <= 1.
Proof. intros Hx Hy. split; nra. Qed.
Lemma prod1_abs x y : -1 <= x <= 1 -> -1 <= y <= 1 -> Rabs (x * y) <= 1.
Proof. intros Hx Hy. apply Rabs_le, prod1; assumption. Qed.
Lemma prod4 x y : -1 <= x <= 1 -> -1 <= y <= 1 -> Rabs (rn (x * y)) < two 1024.
Proof. intros Hx Hy. apply small_1024. pose proof (prod1_abs x y Hx Hy). lra. Qed.
Lemma amgm x y : Rabs (y * x) <= (x * x + y * y) / 2.
Proof. pose proof (Rle_0_sqr (x - y)) as H1. pose proof (Rle_0_sqr (x + y)) as H2. unfold Rsqr in *. apply Rabs_le. lra. Qed.
Lemma cos_lip x y : Rabs (cos x - cos y) <= Rabs (x - y).
Proof.
  destruct (MVT_gen cos y x (fun z => - sin z)) as (z & _ & E).
  - intros z _. apply is_derive_Reals. replace (- sin z) with (- sin z) by ring. apply derivable_pt_lim_cos.
  - intros z _. apply continuity_cos.
  - rewrite E, Rabs_mult. pose proof (SIN_bound z). assert (Rabs (- sin z) <= 1) by (apply Rabs_le; lra).
    pose proof (Rabs_pos (x - y)). assert (Rabs (- sin z) * Rabs (x - y) <= 1 * Rabs (x - y)) by (apply Rmult_le_compat_r; lra). lra.
Qed.

(** The two sides of the triangle. *)
Section Sine.
  Variable mu : f64.
  Hypothesis Hmu : cosine mu.
  Local Notation a := (fval mu).
  Local Notation u := (two (-53)).
  Local Notation eta := (two (-1075)).
  Local Notation sq := (rn (a * a)).
  Local Notation x := (rn (1 - rn (a * a))).

  Lemma sq_range : 0 <= sq <= 1.
  Proof.
    destruct Hmu as [_ H]. split.
    - apply rn_ge_fmt; [apply fmt_0|]. nra.
    - apply rn_le_fmt; [apply fmt_1|]. nra.
  Qed.
  Lemma x_range : 0 <= x <= 1.
  Proof.
    pose proof sq_range. split.
    - apply rn_ge_fmt; [apply fmt_0|]. lra.
    - apply rn_le_fmt; [apply fmt_1|]. lra.
  Qed.
  Lemma x_err : Rabs (x - (1 - a * a)) <= 2 * u.
  Proof.
    destruct Hmu as [_ H]. pose proof sq_range as Hs. pose proof (rn_err (a * a)) as E1. pose proof (rn_err (1 - sq)) as E2.
    pose proof eta_u as He. pose proof (two_pos (-53)) as Hu. pose proof u_small as Hu2.
    rewrite (Rabs_right (a * a)) in E1 by nra. rewrite (Rabs_right (1 - sq)) in E2 by lra.
    assert (B : u * (1 - sq) + u * (a * a) <= u * (1 + / 4)).
    { rewrite <- Rmult_plus_distr_l. apply Rmult_le_compat_l; [lra|]. apply Rabs_le_inv in E1.
      assert (u * (a * a) <= u * 1) by (apply Rmult_le_compat_l; nra). lra. }
    apply Rabs_le. apply Rabs_le_inv in E1. apply Rabs_le_inv in E2. lra.
  Qed.
  Lemma sine_ok : ffin (d_sine mu) = true /\ fval (d_sine mu) = rn (sqrt x) /\ 0 <= fval (d_sine mu) <= 1.
  Proof.
    destruct Hmu as [Hf H]. pose proof sq_range as Hs. pose proof x_range as Hx.
    destruct (fmul_ok mu mu Hf Hf) as [F1 V1]; [apply prod4; lra|].
    destruct (fsub_ok fone (fmul mu mu) fone_fin F1) as [F2 V2]; [rewrite fone_val, V1; apply small_1024, Rabs_le; lra|].
    rewrite fone_val, V1 in V2.
    destruct (fsqrt_ok _ F2) as [F3 V3]; [rewrite V2; lra|]. rewrite V2 in V3. unfold d_sine. split; [exact F3|]. split; [exact V3|]. rewrite V3.
    assert (0 <= sqrt x <= 1) by (apply sqrt_01; lra).
    split; [apply rn_ge_fmt; [apply fmt_0|lra]|apply rn_le_fmt; [apply fmt_1|lra]].
  Qed.
  Lemma sine_err e : Rabs (sqrt x - sqrt (1 - a * a)) <= e -> Rabs (fval (d_sine mu) - sqrt (1 - a * a)) <= e + u + eta.
  Proof.
    intros He. destruct sine_ok as (_ & E & _). rewrite E. pose proof (rn_err (sqrt x)) as R1. pose proof x_range as Hx.
    assert (0 <= sqrt x <= 1) by (apply sqrt_01; lra).
    rewrite (Rabs_right (sqrt x)) in R1 by lra. pose proof (two_pos (-53)).
    assert (u * sqrt x <= u * 1) by (apply Rmult_le_compat_l; lra).
    apply Rabs_le. apply Rabs_le_inv in He. apply Rabs_le_inv in R1. lra.
  Qed.
  Lemma sqrt_err_away s : 0 < s -> s * s <= 1 - a * a -> Rabs (sqrt x - sqrt (1 - a * a)) <= 2 * u / s.
  Proof.
    intros Hs HX. pose proof x_range as Hx. pose proof x_err as E. set (X := 1 - a * a) in *. pose proof (two_pos (-53)) as Hu.
    assert (HS : s <= sqrt X) by (rewrite <- (sqrt_square s) by lra; apply sqrt_le_1_alt; exact HX).
    pose proof (sqrt_pos x) as Hp. assert (Hx0 : 0 <= x) by lra. assert (HX0 : 0 <= X) by nra.
    assert (F : x - X = (sqrt x - sqrt X) * (sqrt x + sqrt X)).
    { rewrite <- (sqrt_sqrt x Hx0) at 1. rewrite <- (sqrt_sqrt X HX0) at 1. ring. }
    rewrite F, Rabs_mult, (Rabs_right (sqrt x + sqrt X)) in E by lra.
    apply (Rmult_le_reg_r s); [exact Hs|]. replace (2 * u / s * s) with (2 * u) by (field; lra).
    apply Rle_trans with (2 := E). apply Rmult_le_compat_l; [apply Rabs_pos|lra].
  Qed.
  (** Rounding hardly hurts near the vertical, where 1 - |mu| is itself a float. *)
  Lemma fmt_twice : / 2 <= Rabs a -> fmt (2 * Rabs a - 1).
  Proof.
    intros Ha. destruct Hmu as [_ H]. assert (Rabs a <= 1) by (apply Rabs_le; lra).
    apply sterbenz; [apply fexp64_valid|apply FLT_exp_monotone| |apply fmt_1|lra].
    replace (2 * Rabs a) with (Rabs a * bpow radix2 1) by (change (bpow radix2 1) with 2; ring).
    apply (mult_bpow_exact_FLT radix2 (SpecFloat.emin 53 1024) 53); [apply generic_format_abs, fmt_val|].
    assert (0 <= mag radix2 (Rabs a))%Z by (apply mag_ge_bpow; rewrite Rabs_Rabsolu; change (bpow radix2 (0 - 1)) with (/ 2); exact Ha).
    unfold SpecFloat.emin. lia.
  Qed.
  Lemma rn_near x0 y0 : fmt y0 -> Rabs (rn x0 - x0) <= Rabs (y0 - x0).
  Proof. intros H. apply (round_N_pt radix2 fexp64 (fun z => negb (Z.even z)) x0). exact H. Qed.
  Lemma sqrt_err : Rabs (sqrt x - sqrt (1 - a * a)) <= two (-39).
  Proof.
    pose proof (two_pos (-53)) as Hu. pose proof eta_u as He. destruct Hmu as [_ H].
    destruct (Rle_lt_dec (/ 2) (a * a)) as [Hb|Hb].
    2:{ apply Rle_trans with (2 * u / (/ 2)); [apply sqrt_err_away; lra|]. apply Rle_trans with (two (-51)); [rewrite two_m51; lra|apply two_le; lia]. }
    set (d := 1 - Rabs a). assert (Haa : Rabs a * Rabs a = a * a) by (rewrite <- Rabs_mult; apply Rabs_right; nra).
    assert (Ha : / 2 <= Rabs a <= 1) by (split; [pose proof (Rabs_pos a); nra|apply Rabs_le; lra]).
    assert (Hd : 0 <= d <= / 2) by (unfold d; lra).
    assert (EX : 1 - a * a = d * (2 - d)) by (unfold d; rewrite <- Haa; ring).
    assert (Hs : / 2 <= sq) by (apply rn_ge_fmt; [change (/ 2) with (two (-1)); apply fmt_two; lia|exact Hb]).
    assert (Ex : x = 1 - sq).
    { apply rn_fmt. apply sterbenz; [apply fexp64_valid|apply FLT_exp_monotone|apply fmt_1|apply fmt_rn|]. pose proof sq_range. lra. }
    assert (D1 : Rabs (x - (1 - a * a)) <= d * d).
    { rewrite Ex. replace (1 - sq - (1 - a * a)) with (- (sq - a * a)) by ring. rewrite Rabs_Ropp. apply Rle_trans with (1 := rn_near _ _ (fmt_twice (proj1 Ha))).
      replace (2 * Rabs a - 1 - a * a) with (- (d * d)) by (unfold d; rewrite <- Haa; ring). rewrite Rabs_Ropp, Rabs_right; [lra|nra]. }
    pose proof x_err as D2. pose proof x_range as Hx.
    destruct (Req_dec d 0) as [Z|Hd0].
    { rewrite Z in D1, EX. rewrite EX in *. apply Rabs_le_inv in D1. replace x with 0 by lra. rewrite Rmult_0_l. replace (sqrt 0 - sqrt 0) with 0 by ring. rewrite Rabs_R0. left. apply two_pos. }
    assert (Hdp : 0 < d) by lra. pose proof (sqrt_lt_R0 d Hdp) as Hsd. pose proof (sqrt_sqrt d ltac:(lra)) as Sd.
    assert (HS : sqrt d <= sqrt (1 - a * a)) by (apply sqrt_le_1_alt; rewrite EX; nra).
    assert (HX : 0 <= 1 - a * a) by (rewrite EX; nra).
    assert (F : Rabs (sqrt x - sqrt (1 - a * a)) * sqrt d <= Rabs (x - (1 - a * a))).
    { assert (F0 : x - (1 - a * a) = (sqrt x - sqrt (1 - a * a)) * (sqrt x + sqrt (1 - a * a))).
      { rewrite <- (sqrt_sqrt x (proj1 Hx)) at 1. rewrite <- (sqrt_sqrt (1 - a * a) HX) at 1. ring. }
      rewrite F0, Rabs_mult. pose proof (sqrt_pos x). rewrite (Rabs_right (sqrt x + sqrt (1 - a * a))) by lra. apply Rmult_le_compat_l; [apply Rabs_pos|lra]. }
    assert (E26 : sqrt (two (-26)) = two (-13)) by (change (-26)%Z with (-13 + -13)%Z; rewrite two_add; apply sqrt_square; left; apply two_pos).
    apply (Rmult_le_reg_r (sqrt d)); [exact Hsd|]. apply Rle_trans with (1 := F).
    destruct (Rle_lt_dec d (two (-26))) as [Hle|Hgt].
    - apply Rle_trans with (1 := D1). rewrite <- Sd at 2. rewrite <- Rmult_assoc. apply Rmult_le_compat_r; [lra|].
      change (-39)%Z with (-26 + -13)%Z. rewrite two_add. apply Rmult_le_compat; [lra|lra|exact Hle|]. rewrite <- E26. apply sqrt_le_1_alt. exact Hle.
    - apply Rle_trans with (1 := D2). replace (2 * u) with (two (-39) * two (-13)) by (rewrite <- two_add; change (-39 + -13)%Z with (-52)%Z; apply two_m52).
      apply Rmult_le_compat_l; [left; apply two_pos|]. rewrite <- E26. apply sqrt_le_1_alt. lra.
  Qed.
End Sine.

Section Nu.
  Variable cosf : f64 -> f64.
  Hypothesis Hcos : cos_ok cosf.
  Variables mu phi mu_p phi_p : f64.
  Hypothesis Hmu : cosine mu.
  Hypothesis Hmup : cosine mu_p.
  Hypothesis Hphi : at_most 1000 phi.
  Hypothesis Hphip : at_most 1000 phi_p.
  Local Notation a := (fval mu).
  Local Notation b := (fval mu_p).
  Local Notation u := (two (-53)).
  Local Notation eta := (two (-1075)).
  Let c := fval (cosf (fsub phi_p phi)).
  Let s := fval (d_sine mu).
  Let t := fval (d_sine mu_p).
  Let q := rn (t * s).
  Let r := rn (q * c).
  Let p := rn (b * a).

  Lemma dphi_ok : ffin (fsub phi_p phi) = true /\ fval (fsub phi_p phi) = rn (fval phi_p - fval phi).
  Proof.
    destruct Hphi as [F1 H1], Hphip as [F2 H2]. apply fsub_ok; auto. apply rn_small. unfold Rminus. apply Rle_trans with (1 := Rabs_triang _ _). rewrite Rabs_Ropp.
    apply Rle_trans with (two 1000 + two 1000); [lra|]. replace (two 1000 + two 1000) with (two 1 * two 1000) by (rewrite two_1; ring). rewrite <- two_add. apply two_le. lia.
  Qed.
  Lemma c_range : ffin (cosf (fsub phi_p phi)) = true /\ -1 <= c <= 1.
  Proof. destruct (Hcos _ (proj1 dphi_ok)) as (F & H & _). split; auto. Qed.
  Lemma q_range : 0 <= q <= 1.
  Proof.
    destruct (sine_ok mu Hmu) as (_ & _ & H1). destruct (sine_ok mu_p Hmup) as (_ & _ & H2). fold s in H1. fold t in H2.
    split; [apply rn_ge_fmt; [apply fmt_0|]|apply rn_le_fmt; [apply fmt_1|]]; nra.
  Qed.
  Lemma r_range : - q <= r <= q.
  Proof.
    pose proof q_range as Hq. destruct c_range as [_ Hc]. unfold r. split.
    - apply rn_ge_fmt; [apply fmt_opp, fmt_rn|]. nra.
    - apply rn_le_fmt; [apply fmt_rn|]. nra.
  Qed.
  Lemma p_range : -1 <= p <= 1.
  Proof.
    destruct Hmu as [_ Ha], Hmup as [_ Hb]. unfold p. split.
    - apply rn_ge_fmt; [apply fmt_opp, fmt_1|]. nra.
    - apply rn_le_fmt; [apply fmt_1|]. nra.
  Qed.
  Lemma nu_val : ffin (d_nu cosf mu phi mu_p phi_p) = true /\ fval (d_nu cosf mu phi mu_p phi_p) = rn (p + r).
  Proof.
    destruct (sine_ok mu Hmu) as (F1 & _ & H1). destruct (sine_ok mu_p Hmup) as (F2 & _ & H2). fold s in H1. fold t in H2.
    pose proof q_range as Hq. pose proof r_range as Hr. pose proof p_range as Hp. destruct c_range as [Fc Hc]. destruct Hmu as [Fa Ha], Hmup as [Fb Hb].
    destruct (fmul_ok (d_sine mu_p) (d_sine mu) F2 F1) as [G1 V1]; [fold s; fold t; apply prod4; lra|]. fold s t q in V1.
    destruct (fmul_ok _ _ G1 Fc) as [G2 V2]; [rewrite V1; fold c; apply prod4; lra|]. rewrite V1 in V2. fold c r in V2.
    destruct (fmul_ok mu_p mu Fb Fa) as [G3 V3]; [apply prod4; lra|]. fold p in V3.
    destruct (fadd_ok _ _ G3 G2) as [G4 V4]; [rewrite V3, V2; apply small_1024, Rabs_le; lra|]. rewrite V3, V2 in V4. split; assumption.
  Qed.

  (** The range. *)
  Theorem nu_range : Rabs (fval (d_nu cosf mu phi mu_p phi_p)) <= 1 + two (-49).
  Proof.
    rewrite (proj2 nu_val). pose proof (two_pos (-53)) as Hu. pose proof eta_u as He. pose proof u_small as Hus. pose proof (two_pos (-1075)) as He0.
    pose proof q_range as Hq. pose proof r_range as Hr.
    destruct (sine_ok mu Hmu) as (_ & E1 & H1). destruct (sine_ok mu_p Hmup) as (_ & E2 & H2). fold s in H1, E1. fold t in H2, E2.
    destruct Hmu as [_ Ha], Hmup as [_ Hb].
    pose proof (x_range mu Hmu) as X1. pose proof (x_range mu_p Hmup) as X2. pose proof (x_err mu Hmu) as D1. pose proof (x_err mu_p Hmup) as D2.
    apply Rabs_le_inv in D1. apply Rabs_le_inv in D2.
    set (x := rn (1 - rn (a * a))) in *. set (y := rn (1 - rn (b * b))) in *.
    pose proof (sqrt_pos x) as P1. pose proof (sqrt_pos y) as P2. pose proof (sqrt_sqrt x ltac:(lra)) as S1. pose proof (sqrt_sqrt y ltac:(lra)) as S2.
    pose proof (rn_upper (sqrt x) P1) as U1. pose proof (rn_upper (sqrt y) P2) as U2. rewrite <- E1 in U1. rewrite <- E2 in U2.
    assert (B1 : sqrt x <= 1) by nra. assert (B2 : sqrt y <= 1) by nra.
    (* |b a| + t s *)
    set (z := sqrt y * sqrt x) in *. assert (Hz : 0 <= z <= 1) by (unfold z; nra).
    assert (T1 : t * s <= z + 3 * u).
    { apply Rle_trans with (((1 + u) * sqrt y + eta) * ((1 + u) * sqrt x + eta)); [apply Rmult_le_compat; lra|].
      replace (((1 + u) * sqrt y + eta) * ((1 + u) * sqrt x + eta)) with (z + (2 * u + u * u) * z + eta * (1 + u) * (sqrt x + sqrt y) + eta * eta) by (unfold z; ring).
      assert (M1 : (2 * u + u * u) * z <= (2 * u + u * u) * 1) by (apply Rmult_le_compat_l; nra).
      assert (M2 : u * u <= u * / 1024) by (apply Rmult_le_compat_l; lra).
      assert (M3 : eta * (1 + u) * (sqrt x + sqrt y) <= eta * (1 + / 1024) * 2) by (apply Rmult_le_compat; [apply Rmult_le_pos; lra|lra|apply Rmult_le_compat_l; lra|lra]).
      assert (M4 : eta * eta <= eta * 1) by (apply Rmult_le_compat_l; lra). lra. }
    pose proof (rn_upper (t * s) ltac:(nra)) as Q1. fold q in Q1.
    assert (Q2 : q <= z + 5 * u).
    { assert (u * (t * s) <= u * 1) by (apply Rmult_le_compat_l; nra). lra. }
    assert (P3 : Rabs p <= Rabs (b * a) + 2 * u).
    { pose proof (rn_err (b * a)) as R1. fold p in R1. assert (Rabs (b * a) <= 1) by (apply prod1_abs; lra).
      assert (u * Rabs (b * a) <= u * 1) by (apply Rmult_le_compat_l; lra). pose proof (Rabs_triang (p - b * a) (b * a)) as T. replace (p - b * a + b * a) with p in T by ring. lra. }
    assert (AB : Rabs (b * a) <= (a * a + b * b) / 2) by (apply amgm).
    assert (XY : z <= (x + y) / 2) by (pose proof (Rle_0_sqr (sqrt x - sqrt y)) as SQ; unfold Rsqr in SQ; unfold z; lra).
    assert (FB : fmt (1 + two (-49))).
    { replace (1 + two (-49)) with (IZR (2 ^ 49 + 1) * two (-49)).
      - apply fmt_Z; [reflexivity|lia].
      - rewrite plus_IZR. rewrite Rmult_plus_distr_r. f_equal; [|ring]. change (IZR (2 ^ 49)) with (two 49). rewrite <- two_add. reflexivity. }
    assert (E49 : two (-49) = 16 * u) by (change (-49)%Z with (4 + -53)%Z; rewrite two_add; change (two 4) with 16; reflexivity).
    apply Rabs_le_inv in P3. apply Rabs_le. split.
    - apply rn_ge_fmt; [replace (- (1 + two (-49))) with (- (1 + two (-49))) by ring; apply fmt_opp; exact FB|]. lra.
    - apply rn_le_fmt; [exact FB|]. lra.
  Qed.

  (** The accuracy. *)
  Theorem nu_err e : Rabs (sqrt (rn (1 - rn (a * a))) - sqrt (1 - a * a)) <= e -> Rabs (sqrt (rn (1 - rn (b * b))) - sqrt (1 - b * b)) <= e ->
    Rabs (fval phi_p - fval phi) <= 8 ->
    Rabs (fval (d_nu cosf mu phi mu_p phi_p) - angle_cosine b (fval phi_p) a (fval phi)) <= 2 * e + 20 * u.
  Proof.
    intros Ex Ey H8. rewrite (proj2 nu_val). pose proof (two_pos (-53)) as Hu. pose proof eta_u as He. pose proof (two_pos (-1075)) as He0.
    pose proof q_range as Hq. pose proof r_range as Hr. pose proof p_range as Hp. destruct c_range as [_ Hc].
    destruct (sine_ok mu Hmu) as (_ & _ & H1). destruct (sine_ok mu_p Hmup) as (_ & _ & H2). fold s in H1. fold t in H2.
    pose proof (sine_err mu Hmu e Ex) as D1. pose proof (sine_err mu_p Hmup e Ey) as D2. fold s in D1. fold t in D2.
    destruct Hmu as [_ Ha], Hmup as [_ Hb].
    set (S := sqrt (1 - a * a)) in *. set (T := sqrt (1 - b * b)) in *.
    assert (HS : 0 <= S <= 1) by (apply sqrt_01; split; nra).
    assert (HT : 0 <= T <= 1) by (apply sqrt_01; split; nra).
    (* the cosine *)
    set (C := cos (fval phi_p - fval phi)). assert (HC : -1 <= C <= 1) by apply COS_bound.
    assert (DC : Rabs (c - C) <= 11 * u).
    { destruct (Hcos _ (proj1 dphi_ok)) as (_ & _ & Hcc). rewrite (proj2 dphi_ok) in Hcc. fold c in Hcc. rewrite two_m52 in Hcc.
      pose proof (rn_err (fval phi_p - fval phi)) as RE.
      assert (M : u * Rabs (fval phi_p - fval phi) <= u * 8) by (apply Rmult_le_compat_l; lra).
      assert (LC : Rabs (cos (rn (fval phi_p - fval phi)) - C) <= Rabs (rn (fval phi_p - fval phi) - (fval phi_p - fval phi))) by apply cos_lip.
      apply Rabs_le. apply Rabs_le_inv in Hcc. apply Rabs_le_inv in LC. lra. }
    assert (DST : Rabs (t * s - T * S) <= 2 * e + 2 * u + 2 * eta).
    { replace (t * s - T * S) with ((t - T) * s + T * (s - S)) by ring. apply Rle_trans with (1 := Rabs_triang _ _). rewrite !Rabs_mult, (Rabs_right s), (Rabs_right T) by lra.
      assert (Rabs (t - T) * s <= Rabs (t - T) * 1) by (apply Rmult_le_compat_l; [apply Rabs_pos|lra]).
      assert (T * Rabs (s - S) <= 1 * Rabs (s - S)) by (apply Rmult_le_compat_r; [apply Rabs_pos|lra]). lra. }
    assert (DQ : Rabs (q - t * s) <= u + eta).
    { pose proof (rn_err (t * s)) as RE. fold q in RE. rewrite (Rabs_right (t * s)) in RE by nra. assert (u * (t * s) <= u * 1) by (apply Rmult_le_compat_l; nra). lra. }
    assert (DR : Rabs (r - q * c) <= u + eta).
    { pose proof (rn_err (q * c)) as RE. fold r in RE. assert (Rabs (q * c) <= 1) by (apply prod1_abs; lra). assert (u * Rabs (q * c) <= u * 1) by (apply Rmult_le_compat_l; lra). lra. }
    assert (DP : Rabs (p - b * a) <= u + eta).
    { pose proof (rn_err (b * a)) as RE. fold p in RE. assert (Rabs (b * a) <= 1) by (apply prod1_abs; lra). assert (u * Rabs (b * a) <= u * 1) by (apply Rmult_le_compat_l; lra). lra. }
    assert (DN : Rabs (rn (p + r) - (p + r)) <= 2 * u + eta).
    { pose proof (rn_err (p + r)) as RE. assert (Rabs (p + r) <= 2) by (apply Rabs_le; lra). assert (u * Rabs (p + r) <= u * 2) by (apply Rmult_le_compat_l; lra). lra. }
    assert (DQC : Rabs (q * c - T * S * C) <= Rabs (q - T * S) + Rabs (c - C)).
    { replace (q * c - T * S * C) with ((q - T * S) * c + T * S * (c - C)) by ring. apply Rle_trans with (1 := Rabs_triang _ _). rewrite !Rabs_mult.
      assert (Rabs (q - T * S) * Rabs c <= Rabs (q - T * S) * 1) by (apply Rmult_le_compat_l; [apply Rabs_pos|apply Rabs_le; lra]).
      assert (Rabs T * Rabs S * Rabs (c - C) <= 1 * Rabs (c - C)) by (apply Rmult_le_compat_r; [apply Rabs_pos|rewrite !Rabs_right by lra; nra]). lra. }
    assert (DQ2 : Rabs (q - T * S) <= 2 * e + 3 * u + 3 * eta).
    { replace (q - T * S) with ((q - t * s) + (t * s - T * S)) by ring. apply Rle_trans with (1 := Rabs_triang _ _). lra. }
    unfold angle_cosine. fold S T C. replace (rn (p + r) - (b * a + T * S * C)) with ((rn (p + r) - (p + r)) + (p - b * a) + (r - q * c) + (q * c - T * S * C)) by ring.
    apply Rle_trans with (1 := Rabs_triang _ _). pose proof (Rabs_triang (rn (p + r) - (p + r) + (p - b * a)) (r - q * c)). pose proof (Rabs_triang (rn (p + r) - (p + r)) (p - b * a)). lra.
  Qed.
End Nu.

(** A correctly rounded cosine. *)
Definition cos0 (x : f64) : f64 := fl (cos (fval x)).
Lemma cos0_ok : cos_ok cos0.
Proof.
  intros x Hx. unfold cos0. pose proof (COS_bound (fval x)) as H.
  assert (R1 : -1 <= rn (cos (fval x)) <= 1) by (split; [apply rn_ge_fmt; [apply fmt_opp, fmt_1|lra]|apply rn_le_fmt; [apply fmt_1|lra]]).
  destruct (fl_ok (cos (fval x))) as [F V]; [apply small_1024, Rabs_le; lra|]. split; [exact F|]. rewrite V. split; [exact R1|].
  pose proof (rn_err (cos (fval x))) as E. assert (Rabs (cos (fval x)) <= 1) by (apply Rabs_le; lra). pose proof (two_pos (-53)). pose proof eta_u. rewrite two_m52.
  assert (two (-53) * Rabs (cos (fval x)) <= two (-53) * 1) by (apply Rmult_le_compat_l; lra). lra.
Qed.

Theorem nu_accurate cosf mu phi mu_p phi_p : cos_ok cosf -> cosine mu -> cosine mu_p -> at_most 1000 phi -> at_most 1000 phi_p -> Rabs (fval phi_p - fval phi) <= 8 ->
  Rabs (fval (d_nu cosf mu phi mu_p phi_p) - angle_cosine (fval mu_p) (fval phi_p) (fval mu) (fval phi)) <= two (-37).
Proof.
  intros Hc H1 H2 H3 H4 H8. pose proof (nu_err cosf Hc mu phi mu_p phi_p H1 H2 H3 H4 (two (-39)) (sqrt_err mu H1) (sqrt_err mu_p H2) H8) as H.
  apply Rle_trans with (1 := H). change (-37)%Z with (2 + -39)%Z. change (-53)%Z with (-14 + -39)%Z. rewrite !two_add. change (two 2) with 4.
  assert (two (-14) <= / 1024) by (replace (/ 1024) with (two (-10)) by (unfold two; cbn; lra); apply two_le; lia). pose proof (two_pos (-39)). nra.
Qed.
Theorem nu_accurate_away cosf mu phi mu_p phi_p s : cos_ok cosf -> cosine mu -> cosine mu_p -> at_most 1000 phi -> at_most 1000 phi_p -> Rabs (fval phi_p - fval phi) <= 8 ->
  0 < s -> s * s <= 1 - fval mu * fval mu -> s * s <= 1 - fval mu_p * fval mu_p ->
  Rabs (fval (d_nu cosf mu phi mu_p phi_p) - angle_cosine (fval mu_p) (fval phi_p) (fval mu) (fval phi)) <= two (-48) / s.
Proof.
  intros Hc H1 H2 H3 H4 H8 Hs S1 S2. pose proof (nu_err cosf Hc mu phi mu_p phi_p H1 H2 H3 H4 _ (sqrt_err_away mu H1 s Hs S1) (sqrt_err_away mu_p H2 s Hs S2) H8) as H.
  apply Rle_trans with (1 := H). assert (s <= 1) by nra. pose proof (two_pos (-53)) as Hu.
  replace (two (-48)) with (32 * two (-53)) by (change (-48)%Z with (5 + -53)%Z; rewrite two_add; reflexivity).
  apply (Rmult_le_reg_r s); [exact Hs|]. replace (32 * two (-53) / s * s) with (32 * two (-53)) by (field; lra).
  replace ((2 * (2 * two (-53) / s) + 20 * two (-53)) * s) with (4 * two (-53) + 20 * two (-53) * s) by (field; lra). nra.
Qed.

(** A cosine whose scattering angle with itself has a cosine above 1. *)
Definition mu_over : f64 := @binary_normalize 53 1024 prec64 emax64 mode_NE 7456003088284100 (-55) false.
Lemma mu_over_ok : cosine mu_over.
Proof.
  split; [vm_compute; reflexivity|]. assert (E : fle mu_over fone = true /\ fle (fopp fone) mu_over = true) by (split; vm_compute; reflexivity).
  destruct E as [E1 E2]. apply fle_iff in E1; [|vm_compute; reflexivity|apply fone_fin]. apply fle_iff in E2; [|rewrite fopp_fin; apply fone_fin|vm_compute; reflexivity].
  rewrite fopp_val, fone_val in E2. rewrite fone_val in E1. lra.
Qed.
Lemma nu_over cosf : cosf fzero = fone -> 1 < fval (d_nu cosf mu_over fzero mu_over fzero).
Proof.
  intros H. assert (E : d_nu cosf mu_over fzero mu_over fzero = d_nu (fun _ => fone) mu_over fzero mu_over fzero).
  { unfold d_nu. replace (fsub fzero fzero) with fzero by (vm_compute; reflexivity). rewrite H. reflexivity. }
  rewrite E. clear E. assert (L : flt fone (d_nu (fun _ => fone) mu_over fzero mu_over fzero) = true) by (vm_compute; reflexivity).
  assert (F : ffin (d_nu (fun _ => fone) mu_over fzero mu_over fzero) = true) by (vm_compute; reflexivity).
  generalize dependent (d_nu (fun _ => fone) mu_over fzero mu_over fzero). intros z L F. rewrite <- fone_val. exact (proj1 (flt_iff fone z fone_fin F) L).
Qed.
Lemma cos0_0 : cos0 fzero = fone.
Proof.
  unfold cos0. rewrite fzero_val, cos_0. destruct (fl_ok 1) as [F V]; [apply small_1024; rewrite Rabs_right; lra|]. rewrite rn_fmt in V by apply fmt_1.
  apply B2R_inj; [|vm_compute; reflexivity|].
  - unfold ffin, fval in *. destruct (fl 1) as [s|s| |s m e H]; try discriminate F; [cbn in V; lra|reflexivity].
  - change (B2R (fl 1)) with (fval (fl 1)). rewrite V. symmetry. apply fone_val.
Qed.
