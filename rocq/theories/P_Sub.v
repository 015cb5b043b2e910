(** Proofs about the helper functions of subroutines.py. *)
From Coq Require Import String Reals Lra Lia List Bool Arith ZArith.
From Coquelicot Require Import Coquelicot.
From Verif Require Import Base Tensor Spec Calc M_Subroutines P_Quad.
Import ListNotations.
Local Open Scope R_scope.

(** ** prepend *)
Lemma prepend_cons arr v : prepend arr (length arr) v = Ok (v :: arr).
Proof. unfold prepend. rewrite Nat.eqb_refl. auto. Qed.

(** ** Gauss-Legendre on [c,d] *)
Lemma GL_exact lg N c d :
  leggauss_ok N (lg N) ->
  exact_rule (fst (Gauss_Legendre_quad lg N c d)) (snd (Gauss_Legendre_quad lg N c d)) c d (2 * N).
Proof.
  intros (_ & _ & _ & _ & _ & He). unfold Gauss_Legendre_quad. destruct (lg N) as [x w]. simpl in *.
  apply transform_exact; auto. lra.
Qed.

Lemma GL_lengths lg N c d : leggauss_ok N (lg N) ->
  length (fst (Gauss_Legendre_quad lg N c d)) = N /\ length (snd (Gauss_Legendre_quad lg N c d)) = N.
Proof.
  intros (H1 & H2 & _). unfold Gauss_Legendre_quad. destruct (lg N) as [x w]. simpl in *.
  rewrite transform_interval_length, transform_weights_length; auto.
Qed.

Lemma GL_inside lg N c d i : leggauss_ok N (lg N) -> c < d -> (i < N)%nat ->
  c < nth i (fst (Gauss_Legendre_quad lg N c d)) 0 < d /\ 0 < nth i (snd (Gauss_Legendre_quad lg N c d)) 0.
Proof.
  intros (H1 & H2 & H3 & _ & H5 & _) Hcd Hi. unfold Gauss_Legendre_quad. destruct (lg N) as [x w]. simpl in *.
  rewrite transform_interval_nth, transform_weights_nth by lia.
  specialize (H3 i Hi). specialize (H5 i Hi).
  assert (0 < (d - c) / (1 - -1)) by lra.
  replace ((nth i x 0 - -1) * (d - c) / (1 - -1)) with ((nth i x 0 - -1) * ((d - c) / (1 - -1))) by (field; lra).
  replace (nth i w 0 * (d - c) / (1 - -1)) with (nth i w 0 * ((d - c) / (1 - -1))) by (field; lra).
  repeat split; try nra.
Qed.

Lemma GL_distinct lg N c d i j : leggauss_ok N (lg N) -> c < d -> (i < N)%nat -> (j < N)%nat -> i <> j ->
  nth i (fst (Gauss_Legendre_quad lg N c d)) 0 <> nth j (fst (Gauss_Legendre_quad lg N c d)) 0.
Proof.
  intros (H1 & H2 & H3 & H4 & H5 & _) Hcd Hi Hj Hne. unfold Gauss_Legendre_quad. destruct (lg N) as [x w]. simpl in *.
  rewrite !transform_interval_nth by lia. specialize (H4 i j Hi Hj Hne).
  assert (0 < (d - c) / (1 - -1)) by lra. intros E. apply H4.
  assert ((nth i x 0 - nth j x 0) * ((d - c) / (1 - -1)) = 0) by (unfold Rdiv in *; lra). nra.
Qed.

Lemma GL_weights_sum lg N c d : (0 < N)%nat -> leggauss_ok N (lg N) ->
  lsum (snd (Gauss_Legendre_quad lg N c d)) = d - c.
Proof.
  intros HN H. eapply exact_weights_sum with (k := (2 * N)%nat); [lia|].
  apply GL_exact; auto.
Qed.

(** ** Finite differences *)
Definition fd_rowsum (Ntau : nat) (M : mat) (x : list R) (q : R -> R) (i : nat) : R :=
  rsum Ntau (fun j => M i j * q (nth j x 0)).

Lemma FD_spec Ntau a b : (3 <= Ntau)%nat -> a <> b ->
  exists x M, generate_FD_mat Ntau a b = Ok (x, M) /\ length x = Ntau /\
   (forall i, (i < Ntau)%nat -> nth i x 0 = a + INR i * ((b - a) / INR (Ntau - 1))) /\
   (forall p i, (length p <= 3)%nat -> (i < Ntau)%nat ->
     is_derive (peval p) (nth i x 0) (fd_rowsum Ntau M x (peval p) i)).
Proof.
  intros HN Hab. unfold generate_FD_mat.
  replace (Nat.ltb Ntau 3) with false by (symmetry; apply Nat.ltb_ge; auto).
  set (x := map (fun i => a + INR i * ((b - a) / INR (Ntau - 1))) (seq 0 Ntau)).
  assert (Hx : forall i, (i < Ntau)%nat -> nth i x 0 = a + INR i * ((b - a) / INR (Ntau - 1))).
  { intros. unfold x. rewrite nth_seq_map by auto. reflexivity. }
  assert (Hh : nth 1 x 0 - nth 0 x 0 = (b - a) / INR (Ntau - 1)).
  { rewrite !Hx by lia. simpl INR at 1 3. ring. }
  rewrite Hh. set (h := (b - a) / INR (Ntau - 1)) in *.
  assert (Hn1 : 0 < INR (Ntau - 1)) by (apply lt_0_INR; lia).
  assert (Hh0 : h <> 0).
  { unfold h. intros E. apply Hab. apply Rmult_integral in E. destruct E as [E|E]; [lra|].
    exfalso. apply Rinv_neq_0_compat in E; auto. lra. }
  destruct (Req_EM_T h 0) as [|_]; [tauto|].
  do 2 eexists. split; [reflexivity|]. split; [|split].
  - unfold x. rewrite map_length, seq_length; auto.
  - exact Hx.
  - intros p i Hp Hi.
    assert (Hder : is_derive (peval p) (nth i x 0) (nth 1 p 0 + 2 * nth 2 p 0 * nth i x 0)).
    { destruct p as [|c0 [|c1 [|c2 [|]]]]; simpl in Hp; try lia; simpl; auto_derive; auto; ring. }
    eapply der_eq; [|exact Hder]. symmetry.
    assert (Hq : forall y, peval p y = nth 0 p 0 + nth 1 p 0 * y + nth 2 p 0 * y ^ 2).
    { intros y. destruct p as [|c0 [|c1 [|c2 [|]]]]; simpl in Hp; try lia; simpl; ring. }
    set (q0 := nth 0 p 0) in *. set (q1 := nth 1 p 0) in *. set (q2 := nth 2 p 0) in *.
    unfold fd_rowsum.
    destruct (Nat.eq_dec i 0) as [->|Hi0]; [|destruct (Nat.eq_dec i (Ntau - 1)) as [->|HiN]].
    + rewrite (rsum_ext Ntau _ (fun j => delta 0 j * (-3 / (2 * h) * peval p (nth j x 0))
          + delta 1 j * (2 / h * peval p (nth j x 0)) + delta 2 j * (-1 / (2 * h) * peval p (nth j x 0)))).
      2:{ intros j Hj. unfold upd2, delta.
          replace (Nat.eqb 0 (Ntau - 1)) with false by (symmetry; apply Nat.eqb_neq; lia).
          destruct j as [|[|[|j]]]; cbn; ring. }
      rewrite !rsum_plus, !rsum_delta_l by lia. rewrite !Hq, !Hx by lia. simpl INR. field. auto.
    + rewrite (rsum_ext Ntau _ (fun j => delta (Ntau - 1) j * (3 / (2 * h) * peval p (nth j x 0))
          + delta (Ntau - 2) j * (-2 / h * peval p (nth j x 0)) + delta (Ntau - 3) j * (1 / (2 * h) * peval p (nth j x 0)))).
      2:{ intros j Hj. unfold upd2, delta. rewrite !(Nat.eqb_sym _ j), Nat.eqb_refl.
          replace (Nat.eqb (Ntau - 1) 0) with false by (symmetry; apply Nat.eqb_neq; lia).
          cbn [andb].
          destruct (Nat.eqb_spec j (Ntau - 3)); [|destruct (Nat.eqb_spec j (Ntau - 2)); [|destruct (Nat.eqb_spec j (Ntau - 1))]];
            repeat match goal with |- context [Nat.eqb ?u ?v] => destruct (Nat.eqb_spec u v); try lia end; ring. }
      rewrite !rsum_plus, !rsum_delta_l by lia. rewrite !Hq, !Hx by lia.
      replace (INR (Ntau - 2)) with (INR (Ntau - 1) - 1) by (rewrite !minus_INR by lia; simpl; ring).
      replace (INR (Ntau - 3)) with (INR (Ntau - 1) - 2) by (rewrite !minus_INR by lia; simpl; ring).
      field. auto.
    + rewrite (rsum_ext Ntau _ (fun j => delta (i + 1) j * (1 / (2 * h) * peval p (nth j x 0))
          + delta (i - 1) j * (- (1 / (2 * h)) * peval p (nth j x 0)))).
      2:{ intros j Hj. unfold upd2, delta. 
          replace (Nat.eqb i 0) with false by (symmetry; apply Nat.eqb_neq; lia).
          replace (Nat.eqb i (Ntau - 1)) with false by (symmetry; apply Nat.eqb_neq; lia).
          cbn [andb].
            repeat match goal with |- context [Nat.eqb ?u ?v] => destruct (Nat.eqb_spec u v); try lia end; ring. }
      rewrite !rsum_plus, !rsum_delta_l by lia. rewrite !Hq, !Hx by lia.
      replace (INR (i + 1)) with (INR i + 1) by (rewrite plus_INR; simpl; ring).
      replace (INR (i - 1)) with (INR i - 1) by (rewrite minus_INR by lia; simpl; ring).
      field. auto.
Qed.

Lemma FD_small Ntau a b : (Ntau < 3)%nat -> generate_FD_mat Ntau a b = Err EIndex.
Proof. intros. unfold generate_FD_mat. rewrite (proj2 (Nat.ltb_lt Ntau 3)); auto. Qed.

(** ** Scattering angle *)
Lemma nu_is_dot m f mp fp :
  mp * m + sqrt (1 - mp ^ 2) * sqrt (1 - m ^ 2) * cos (fp - f) = dot3 (unit_vec m f) (unit_vec mp fp).
Proof. unfold dot3, unit_vec. rewrite cos_minus. ring. Qed.

Lemma unit_vec_norm m f : -1 <= m <= 1 -> dot3 (unit_vec m f) (unit_vec m f) = 1.
Proof.
  intros H. unfold dot3, unit_vec. pose proof (sin2_cos2 f) as E. unfold Rsqr in E.
  assert (S2 : sqrt (1 - m ^ 2) * sqrt (1 - m ^ 2) = 1 - m ^ 2) by (apply sqrt_sqrt; nra).
  replace (sqrt (1 - m ^ 2) * cos f * (sqrt (1 - m ^ 2) * cos f) + sqrt (1 - m ^ 2) * sin f * (sqrt (1 - m ^ 2) * sin f) + m * m)
    with ((sqrt (1 - m ^ 2) * sqrt (1 - m ^ 2)) * (sin f * sin f + cos f * cos f) + m * m) by ring.
  rewrite S2, E. ring.
Qed.

Lemma dot3_cs v w : dot3 v v = 1 -> dot3 w w = 1 -> -1 <= dot3 v w <= 1.
Proof.
  destruct v as [[a b] c], w as [[x y] z]; unfold dot3; intros.
  pose proof (Rle_0_sqr (a - x)); pose proof (Rle_0_sqr (b - y)); pose proof (Rle_0_sqr (c - z)).
  pose proof (Rle_0_sqr (a + x)); pose proof (Rle_0_sqr (b + y)); pose proof (Rle_0_sqr (c + z)).
  unfold Rsqr in *. nra.
Qed.

(** ** Polynomials, binomial theorem *)
Lemma peval_rsum p x : peval p x = rsum (length p) (fun j => nth j p 0 * x ^ j).
Proof.
  induction p as [|c p IH]; auto.
  change (length (c :: p)) with (S (length p)). rewrite rsum_S_l. simpl nth. simpl pow at 1.
  simpl peval. rewrite IH, Rmult_1_r. f_equal. rewrite <- rsum_scal. apply rsum_ext; intros; simpl; ring.
Qed.

Lemma binom_lt n k : (n < k)%nat -> binom n k = 0%nat.
Proof. revert k; induction n; intros [|k] H; simpl; auto; try lia. rewrite !IHn by lia; auto. Qed.
Lemma binom_pos n k : (k <= n)%nat -> (0 < binom n k)%nat.
Proof.
  revert k; induction n; intros [|k] H; simpl; try lia.
  specialize (IHn k ltac:(lia)). lia.
Qed.
Lemma binom_0 n : binom n 0 = 1%nat.
Proof. destruct n; auto. Qed.

Lemma binomial_thm n x y : rsum (S n) (fun i => INR (binom n i) * x ^ i * y ^ (n - i)) = (x + y) ^ n.
Proof.
  induction n.
  - simpl. ring.
  - simpl pow at 3. rewrite <- IHn.
    rewrite Rmult_plus_distr_r. rewrite <- !rsum_scal.
    rewrite rsum_S_l, binom_0. simpl INR at 1. simpl pow at 1.
    replace (S n - 0)%nat with (S n) by lia.
    rewrite (rsum_ext (S n) (fun i => INR (binom (S n) (S i)) * x ^ S i * y ^ (S n - S i))
       (fun i => x * (INR (binom n i) * x ^ i * y ^ (n - i)) + INR (binom n (S i)) * x ^ S i * y ^ (n - i))).
    2:{ intros i Hi. cbn [binom]. rewrite plus_INR. replace (S n - S i)%nat with (n - i)%nat by lia. simpl pow. ring. }
    rewrite rsum_plus.
    rewrite (rsum_S n (fun i => INR (binom n (S i)) * _ * _)). rewrite (binom_lt n (S n)) by lia. simpl INR.
    rewrite (rsum_S_l n (fun i => y * _)), binom_0, Nat.sub_0_r.
    rewrite (rsum_ext n (fun i => INR (binom n (S i)) * x ^ S i * y ^ (n - i))
        (fun i => y * (INR (binom n (S i)) * x ^ S i * y ^ (n - S i)))).
    2:{ intros i Hi. replace (n - i)%nat with (S (n - S i)) by lia. simpl. ring. }
    simpl. ring.
Qed.

(** ** affine_transform_poly_coeffs *)
Lemma affine_row_length n row inva b : length (affine_row n row inva b) = n.
Proof. unfold affine_row. rewrite map_length, seq_length; auto. Qed.

Lemma affine_row_correct n row a b x :
  a <> 0 -> length row = n ->
  peval (affine_row n row (1 / a) b) (a * x + b) = peval row x.
Proof.
  intros Ha Hl. rewrite !peval_rsum, affine_row_length, Hl.
  transitivity (rsum n (fun i => rsum n (fun j =>
     (INR (pascal_upper i j) * (a * x + b) ^ i * (- b) ^ (j - i)) * ((1 / a) ^ j * nth j row 0)))).
  - apply rsum_ext; intros i Hi. unfold affine_row. rewrite nth_seq0_map by auto.
    rewrite <- rsum_scal_r. apply rsum_ext; intros j Hj.
    destruct (Nat.eqb_spec (pascal_upper i j) 0) as [E|E].
    + rewrite E. simpl INR. ring.
    + ring.
  - rewrite rsum_swap. apply rsum_ext; intros j Hj.
    rewrite rsum_scal_r.
    replace n with (S j + (n - S j))%nat by lia. rewrite rsum_split.
    rewrite (rsum_0 (n - S j)).
    2:{ intros i Hi. unfold pascal_upper. rewrite binom_lt by lia. simpl; ring. }
    rewrite Rplus_0_r. unfold pascal_upper. rewrite (binomial_thm j (a * x + b) (- b)).
    replace (a * x + b + - b) with (a * x) by ring.
    rewrite Rpow_mult_distr.
    transitivity (nth j row 0 * x ^ j * (a ^ j * (1 / a) ^ j)); [ring|].
    rewrite <- Rpow_mult_distr. replace (a * (1 / a)) with 1 by (field; auto). rewrite pow1. ring.
Qed.

Lemma affine_rows_spec n rows a_arr b_arr :
  length a_arr = length rows -> length b_arr = length rows ->
  (forall l, (l < length rows)%nat -> nth l a_arr 0 <> 0) ->
  affine_rows n rows a_arr b_arr =
    Ok (map (fun l => affine_row n (nth l rows []) (1 / nth l a_arr 0) (nth l b_arr 0)) (seq 0 (length rows))).
Proof.
  revert a_arr b_arr; induction rows as [|r rs IH]; intros [|a aa] [|b bs] H1 H2 H3; try discriminate; auto.
  simpl in H1, H2. cbn [affine_rows]. rewrite cdiv_ok by (apply (H3 0%nat); simpl; lia). cbn [bind].
  rewrite IH; [|lia|lia|intros l Hl; apply (H3 (S l)); simpl; lia]. cbn [bind].
  f_equal. cbn [length seq map nth]. f_equal.
  rewrite <- seq_shift, map_map. apply map_ext_in. intros l _. reflexivity.
Qed.

Lemma affine_ok n rows a_arr b_arr :
  length a_arr = length rows -> length b_arr = length rows -> (0 < length rows)%nat ->
  (forall l, (l < length rows)%nat -> nth l a_arr 0 <> 0) ->
  affine_transform_poly_coeffs n rows a_arr b_arr =
    Ok (map (fun l => affine_row n (nth l rows []) (1 / nth l a_arr 0) (nth l b_arr 0)) (seq 0 (length rows))).
Proof.
  intros H1 H2 Hpos H3. unfold affine_transform_poly_coeffs.
  destruct a_arr as [|a aa]; [simpl in H1; lia|].
  cbn [forallb]. rewrite Reqb_f by (apply (H3 0%nat); lia). cbn [andb].
  apply affine_rows_spec; auto.
Qed.

(** ** Linear splines *)
Lemma increasingb_iff x : increasingb x = true <-> increasing x.
Proof.
  unfold increasing. induction x as [|x0 [|x1 xt] IH].
  - simpl. split; auto. intros _ i j H; simpl in H; lia.
  - simpl. split; auto. intros _ i j H; simpl in H; lia.
  - change (increasingb (x0 :: x1 :: xt)) with (Rltb 0 (x1 - x0) && increasingb (x1 :: xt))%bool.
    rewrite andb_true_iff, IH, Rltb_iff. split.
    + intros [H1 H2] i j Hij. destruct j; [lia|]. destruct i.
      * destruct j; [simpl; lra|]. apply Rlt_trans with x1; [simpl; lra|]. apply (H2 0%nat (S j)). simpl in *; lia.
      * apply (H2 i j). simpl in *; lia.
    + intros H. split.
      * specialize (H 0%nat 1%nat ltac:(simpl; lia)). simpl in H. lra.
      * intros i j Hij. apply (H (S i) (S j)). simpl in *; lia.
Qed.

Lemma spline_rows_spec x y :
  length x = length y -> increasing x ->
  exists rows, spline_rows x y = Ok rows /\ length rows = (length x - 1)%nat /\
   forall i, (S i < length x)%nat ->
     length (nth i rows []) = 2%nat /\
     peval (nth i rows []) (nth i x 0) = nth i y 0 /\
     peval (nth i rows []) (nth (S i) x 0) = nth (S i) y 0.
Proof.
  revert y; induction x as [|x0 xt IH]; intros y Hl Hi.
  - destruct y; try discriminate. exists []. simpl; repeat split; auto; intros; lia.
  - destruct y as [|y0 yt]; try discriminate. simpl in Hl. injection Hl as Hl.
    destruct xt as [|x1 xt].
    + destruct yt; try discriminate. exists []. simpl; repeat split; auto; intros; lia.
    + destruct yt as [|y1 yt]; try discriminate.
      assert (H01 : x0 < x1) by (apply (Hi 0%nat 1%nat); simpl; lia).
      assert (Hit : increasing (x1 :: xt)) by (intros i j Hij; apply (Hi (S i) (S j)); simpl in *; lia).
      destruct (IH (y1 :: yt) ltac:(simpl in *; lia) Hit) as (rows & E & Hlen & Hr).
      exists ([y0 - (y1 - y0) / (x1 - x0) * x0; (y1 - y0) / (x1 - x0)] :: rows).
      split; [|split].
      * change (spline_rows (x0 :: x1 :: xt) (y0 :: y1 :: yt)) with
          (let! slope := cdiv (y1 - y0) (x1 - x0) in
           let intercept := y0 - slope * x0 in
           let! rest := spline_rows (x1 :: xt) (y1 :: yt) in Ok ([intercept; slope] :: rest)).
        rewrite cdiv_ok by lra. cbn [bind]. rewrite E. reflexivity.
      * simpl in *. lia.
      * intros [|i] Hi'.
        { simpl. repeat split; auto; field; lra. }
        { apply (Hr i). simpl in *; lia. }
Qed.

(** ** Planck *)
Lemma const_pos : 0 < const_h /\ 0 < const_c /\ 0 < const_k.
Proof.
  unfold const_h, const_c, const_k.
  split; [|split; [lra|]]; (apply Rdiv_lt_0_compat; [lra|apply pow_lt; lra]).
Qed.

Definition planck_law (T w : R) : R :=
  200000000 * const_h * const_c ^ 2 * w ^ 3 / (exp (100 * const_h * const_c * w / (const_k * T)) - 1).

Lemma expterm_lt1 T w : 0 < T -> 0 < w -> 0 < planck_expterm T w < 1.
Proof.
  intros HT Hw. unfold planck_expterm. destruct const_pos as (h & c & k). split; [apply exp_pos|].
  rewrite <- exp_0. apply exp_increasing.
  assert (0 < 100 * const_h * const_c * w / (const_k * T)).
  { apply Rdiv_lt_0_compat; repeat apply Rmult_lt_0_compat; lra. }
  replace (-100 * const_h * const_c * w / (const_k * T)) with (- (100 * const_h * const_c * w / (const_k * T)))
    by (field; lra). lra.
Qed.

Lemma planck1_law T w : 0 < T -> 0 < w -> planck1 T w = planck_law T w.
Proof.
  intros HT Hw. unfold planck1. destruct (Req_EM_T T 0); [lra|].
  pose proof (expterm_lt1 T w HT Hw) as [E1 E2].
  destruct const_pos as (h & c & k).
  unfold planck_law.
  assert (E : exp (100 * const_h * const_c * w / (const_k * T)) = / planck_expterm T w).
  { unfold planck_expterm. rewrite <- exp_Ropp. f_equal. field. lra. }
  rewrite E.
  assert (/ planck_expterm T w - 1 <> 0).
  { intros A. assert (/ planck_expterm T w = 1) by lra.
    assert (planck_expterm T w * / planck_expterm T w = 1) by (apply Rinv_r; lra). nra. }
  field. repeat split; try lra.
Qed.

Lemma planck1_pos T w : 0 < T -> 0 < w -> 0 < planck1 T w.
Proof.
  intros HT Hw. unfold planck1. destruct (Req_EM_T T 0); [lra|].
  pose proof (expterm_lt1 T w HT Hw) as [E1 E2]. destruct const_pos as (h & c & k).
  assert (0 < w ^ 3) by (apply pow_lt; auto). assert (0 < const_c ^ 2) by (apply pow_lt; auto).
  apply Rdiv_lt_0_compat; [|lra]. repeat apply Rmult_lt_0_compat; try lra.
Qed.

Lemma planck1_zero w : planck1 0 w = 0.
Proof. unfold planck1. destruct (Req_EM_T 0 0); tauto. Qed.

Lemma planck1_increasing T1 T2 w : 0 <= T1 < T2 -> 0 < w -> planck1 T1 w < planck1 T2 w.
Proof.
  intros HT Hw. destruct (Req_EM_T T1 0) as [->|H1].
  - rewrite planck1_zero. apply planck1_pos; lra.
  - assert (H1' : 0 < T1) by lra.
    unfold planck1. destruct (Req_EM_T T1 0); [tauto|]. destruct (Req_EM_T T2 0); [lra|].
    pose proof (expterm_lt1 T1 w H1' Hw) as [A1 A2].
    pose proof (expterm_lt1 T2 w ltac:(lra) Hw) as [B1 B2].
    destruct const_pos as (h & c & k).
    assert (Hlt : planck_expterm T1 w < planck_expterm T2 w).
    { unfold planck_expterm. apply exp_increasing.
      assert (P : 0 < 100 * const_h * const_c * w / const_k) by (apply Rdiv_lt_0_compat; [repeat apply Rmult_lt_0_compat|]; lra).
      replace (-100 * const_h * const_c * w / (const_k * T1)) with (- ((100 * const_h * const_c * w / const_k) * / T1)) by (field; lra).
      replace (-100 * const_h * const_c * w / (const_k * T2)) with (- ((100 * const_h * const_c * w / const_k) * / T2)) by (field; lra).
      assert (/ T2 < / T1) by (apply Rinv_lt_contravar; nra). nra. }
    assert (0 < w ^ 3) by (apply pow_lt; auto). assert (0 < const_c ^ 2) by (apply pow_lt; auto).
    set (P := 200000000 * const_h * const_c ^ 2 * w ^ 3).
    assert (HP : 0 < P) by (unfold P; repeat apply Rmult_lt_0_compat; lra).
    set (e1 := planck_expterm T1 w) in *. set (e2 := planck_expterm T2 w) in *.
    apply (Rmult_lt_reg_r ((1 - e1) * (1 - e2))); [nra|].
    replace (P * e1 / (1 - e1) * ((1 - e1) * (1 - e2))) with (P * (e1 * (1 - e2))) by (field; lra).
    replace (P * e2 / (1 - e2) * ((1 - e1) * (1 - e2))) with (P * (e2 * (1 - e1))) by (field; lra).
    apply Rmult_lt_compat_l; auto. nra.
Qed.

Lemma Planck_ok T w : 0 < w -> (forall t, In t T -> 0 <= t) -> Planck T w = Ok (map (fun t => planck1 t w) T).
Proof.
  intros Hw HT. unfold Planck. apply rmap_Ok. intros t Ht. unfold planck1.
  destruct (Req_EM_T t 0) as [->|Hn]; auto.
  assert (0 < t) by (specialize (HT t Ht); lra).
  pose proof (expterm_lt1 t w H Hw). rewrite cdiv_ok by lra. reflexivity.
Qed.
