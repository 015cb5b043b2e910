(** Quadratic forms: two positive definite symmetric forms have a common basis of eigenvectors. *)
From Coq Require Import Classical Reals Lra Lia List Bool Arith.
From Verif Require Import Base Tensor Spec M_LinAlg P_LinA.
Local Open Scope R_scope.

Definition dot (n : nat) (x y : vec) : R := rsum n (fun i => x i * y i).
Definition mv (n : nat) (P : mat) (y : vec) : vec := fun i => rsum n (fun j => P i j * y j).
Definition sym (n : nat) (P : mat) : Prop := forall i j, (i < n)%nat -> (j < n)%nat -> P i j = P j i.
Definition nz (n : nat) (x : vec) : Prop := exists i, (i < n)%nat /\ x i <> 0.
Definition pd (n : nat) (P : mat) : Prop := sym n P /\ forall x, nz n x -> 0 < dot n x (mv n P x).

Lemma dot_comm n x y : dot n x y = dot n y x.
Proof. apply rsum_ext. intros; ring. Qed.
Lemma dot_plus_r n x y z : dot n x (fun i => y i + z i) = dot n x y + dot n x z.
Proof. unfold dot. rewrite <- rsum_plus. apply rsum_ext. intros; ring. Qed.
Lemma dot_scal_r n c x y : dot n x (fun i => c * y i) = c * dot n x y.
Proof. unfold dot. rewrite <- rsum_scal. apply rsum_ext. intros; ring. Qed.
Lemma dot_plus_l n x y z : dot n (fun i => y i + z i) x = dot n y x + dot n z x.
Proof. rewrite dot_comm, dot_plus_r, (dot_comm n x y), (dot_comm n x z). reflexivity. Qed.
Lemma dot_scal_l n c x y : dot n (fun i => c * x i) y = c * dot n x y.
Proof. rewrite dot_comm, dot_scal_r, dot_comm. reflexivity. Qed.
Lemma dot_ext n x x' y y' : (forall i, (i < n)%nat -> x i = x' i) -> (forall i, (i < n)%nat -> y i = y' i) -> dot n x y = dot n x' y'.
Proof. intros H1 H2. apply rsum_ext. intros i Hi. rewrite H1, H2 by auto. reflexivity. Qed.
Lemma dot_nz n x : nz n x -> 0 < dot n x x.
Proof.
  intros (i & Hi & Hx). destruct (Rle_lt_dec (dot n x x) 0) as [H|]; [exfalso|assumption].
  assert (Z : x i * x i = 0).
  { apply (rsum_zero_nonneg n (fun i => x i * x i)); auto.
    - intros k _. apply (Rle_0_sqr (x k)).
    - apply Rle_antisym; [exact H|]. apply rsum_nonneg. intros k _. apply (Rle_0_sqr (x k)). }
  apply Hx. apply Rmult_integral in Z as [?|?]; auto.
Qed.
Lemma dot_nonneg n x : 0 <= dot n x x.
Proof. apply rsum_nonneg. intros k _. apply (Rle_0_sqr (x k)). Qed.
Lemma not_nz n x : ~ nz n x -> forall i, (i < n)%nat -> x i = 0.
Proof. intros H i Hi. destruct (Req_dec (x i) 0) as [|Hx]; auto. exfalso. apply H. exists i. auto. Qed.
Lemma mv_plus n P y z i : mv n P (fun i => y i + z i) i = mv n P y i + mv n P z i.
Proof. unfold mv. rewrite <- rsum_plus. apply rsum_ext. intros; ring. Qed.
Lemma mv_scal n P c y i : mv n P (fun i => c * y i) i = c * mv n P y i.
Proof. unfold mv. rewrite <- rsum_scal. apply rsum_ext. intros; ring. Qed.
Lemma mv_ext n P y z i : (forall j, (j < n)%nat -> y j = z j) -> mv n P y i = mv n P z i.
Proof. intros H. apply rsum_ext. intros j Hj. rewrite H by auto. reflexivity. Qed.
Lemma bil_sym n P x y : sym n P -> dot n x (mv n P y) = dot n y (mv n P x).
Proof.
  intros H. unfold dot, mv.
  rewrite (rsum_ext n _ (fun i => rsum n (fun j => x i * (P i j * y j)))) by (intros; rewrite rsum_scal; reflexivity).
  rewrite rsum_swap. apply rsum_ext. intros j Hj. rewrite <- rsum_scal. apply rsum_ext. intros i Hi. rewrite (H i j) by auto. ring.
Qed.
Lemma q_line n P x y t : sym n P -> dot n (fun i => x i + t * y i) (mv n P (fun i => x i + t * y i))
  = dot n x (mv n P x) + 2 * t * dot n y (mv n P x) + t * t * dot n y (mv n P y).
Proof.
  intros H.
  rewrite (dot_ext n _ (fun i => x i + t * y i) _ (fun i => mv n P x i + t * mv n P y i)); auto.
  2:{ intros i _. rewrite mv_plus, mv_scal. reflexivity. }
  rewrite dot_plus_r, dot_scal_r, !dot_plus_l, !dot_scal_l. rewrite (bil_sym n P x y H). ring.
Qed.
Lemma cs n x y : dot n x y * dot n x y <= dot n x x * dot n y y.
Proof.
  destruct (classic (nz n y)) as [H|H].
  - pose proof (dot_nz n y H) as Hy. pose proof (dot_nonneg n (fun i => dot n y y * x i + (- dot n x y) * y i)) as Q.
    rewrite dot_plus_r, !dot_scal_r, !dot_plus_l, !dot_scal_l in Q. rewrite (dot_comm n y x) in Q. nra.
  - pose proof (not_nz n y H) as Hy. replace (dot n x y) with 0; [replace (dot n y y) with 0; [lra|]|];
      symmetry; apply rsum_0; intros i Hi; rewrite Hy by auto; ring.
Qed.

(** A form is bounded on the unit sphere. *)
Lemma q_bound n P : exists B, 0 < B /\ forall x, dot n x (mv n P x) <= B * dot n x x.
Proof.
  exists (1 + rsum n (fun i => dot n (P i) (P i))). split.
  { assert (0 <= rsum n (fun i => dot n (P i) (P i))) by (apply rsum_nonneg; intros; apply dot_nonneg). lra. }
  intros x. pose proof (cs n x (mv n P x)) as C.
  assert (H : dot n (mv n P x) (mv n P x) <= rsum n (fun i => dot n (P i) (P i)) * dot n x x).
  { unfold dot at 1. rewrite <- rsum_scal_r. apply rsum_le. intros i Hi. apply cs. }
  pose proof (dot_nonneg n x) as Hx. set (S := rsum n (fun i => dot n (P i) (P i))) in *.
  assert (HS : 0 <= S) by (unfold S; apply rsum_nonneg; intros; apply dot_nonneg).
  set (u := dot n x (mv n P x)) in *. set (q := dot n x x) in *. set (r := dot n (mv n P x) (mv n P x)) in *.
  destruct (Rle_lt_dec u ((1 + S) * q)) as [|Hlt]; auto. exfalso.
  assert (0 <= (1 + S) * q) by (apply Rmult_le_pos; lra).
  assert (u * u <= S * (q * q)) by nra.
  assert (((1 + S) * q) * ((1 + S) * q) < u * u) by nra.
  assert (0 <= q * q) by nra. nra.
Qed.

(** A positive definite form is bounded away from zero. *)
Lemma coercive n : forall P, pd n P -> exists c, 0 < c /\ forall x, c * dot n x x <= dot n x (mv n P x).
Proof.
  induction n as [|n IH]; intros P (Hs & Hp).
  - exists 1. split; [lra|]. intros x. unfold dot. cbn. lra.
  - set (a := P n n).
    set (e := fun i : nat => if Nat.eqb i n then 1 else 0).
    assert (Exp : forall x, dot (S n) x (mv (S n) P x) = dot n x (mv n P x) + 2 * (x n * dot n (P n) x) + a * (x n * x n)).
    { intros x. unfold dot, mv. cbn [rsum].
      rewrite (rsum_ext n (fun i => x i * (rsum n (fun j => P i j * x j) + P i n * x n)) (fun i => x i * rsum n (fun j => P i j * x j) + P n i * x i * x n)).
      - rewrite rsum_plus, rsum_scal_r. fold a. ring.
      - intros i Hi. rewrite (Hs i n) by lia. ring. }
    assert (Ha : 0 < a).
    { assert (E0 : forall i, (i < n)%nat -> e i = 0) by (intros i Hi; unfold e; destruct (Nat.eqb_spec i n); [lia|reflexivity]).
      assert (E1 : e n = 1) by (unfold e; rewrite Nat.eqb_refl; reflexivity).
      specialize (Hp e ltac:(exists n; split; [lia|rewrite E1; lra])). rewrite Exp, E1 in Hp.
      replace (dot n e (mv n P e)) with 0 in Hp by (symmetry; apply rsum_0; intros i Hi; rewrite E0 by auto; ring).
      replace (dot n (P n) e) with 0 in Hp by (symmetry; apply rsum_0; intros i Hi; rewrite E0 by auto; ring). lra. }
    set (P' := fun i j => P i j - P i n * P n j / a).
    assert (Q' : forall x, dot n x (mv n P' x) = dot n x (mv n P x) - dot n (P n) x * dot n (P n) x / a).
    { intros x. unfold dot, mv, P'.
      rewrite (rsum_ext n (fun i => x i * rsum n (fun j => (P i j - P i n * P n j / a) * x j))
         (fun i => x i * rsum n (fun j => P i j * x j) - P n i * x i * (rsum n (fun j => P n j * x j) / a))).
      - rewrite rsum_minus, rsum_scal_r. field. lra.
      - intros i Hi. rewrite (rsum_ext n (fun j => (P i j - P i n * P n j / a) * x j) (fun j => P i j * x j - P i n / a * (P n j * x j))) by (intros; field; lra).
        rewrite rsum_minus, rsum_scal. rewrite (Hs i n) by lia. field. lra. }
    assert (PD' : pd n P').
    { split.
      - intros i j Hi Hj. unfold P'. rewrite (Hs i j), (Hs i n), (Hs n j) by lia. field. lra.
      - intros x (k & Hk & Hx). rewrite Q'.
        set (y := fun i => if Nat.eqb i n then - dot n (P n) x / a else x i).
        assert (Ey : forall i, (i < n)%nat -> y i = x i) by (intros i Hi; unfold y; destruct (Nat.eqb_spec i n); [lia|reflexivity]).
        assert (En : y n = - dot n (P n) x / a) by (unfold y; rewrite Nat.eqb_refl; reflexivity).
        specialize (Hp y ltac:(exists k; split; [lia|rewrite Ey; auto])). rewrite Exp, En in Hp.
        rewrite (dot_ext n y x (mv n P y) (mv n P x)) in Hp by (auto; intros; apply mv_ext; auto).
        rewrite (dot_ext n (P n) (P n) y x) in Hp by auto.
        replace (dot n x (mv n P x) - dot n (P n) x * dot n (P n) x / a) with
          (dot n x (mv n P x) + 2 * (- dot n (P n) x / a * dot n (P n) x) + a * (- dot n (P n) x / a * (- dot n (P n) x / a))) by (field; lra). exact Hp. }
    destruct (IH P' PD') as (c & Hc & HC).
    set (B := 2 * dot n (P n) (P n) / (a * a) + 1).
    assert (HB : 1 <= B).
    { unfold B. assert (0 <= dot n (P n) (P n) / (a * a)); [|lra]. apply Rmult_le_pos; [apply dot_nonneg|]. apply Rlt_le, Rinv_0_lt_compat. nra. }
    exists (Rmin (a / 2) (c / B)).
    assert (H1 : 0 < a / 2) by lra. assert (H2 : 0 < c / B) by (apply Rdiv_lt_0_compat; lra).
    split; [apply Rmin_glb_lt; auto|]. intros x.
    change (dot (S n) x x) with (dot n x x + x n * x n). rewrite Exp.
    pose proof (HC x) as Hx. rewrite Q' in Hx. pose proof (dot_nonneg n x) as Hq. pose proof (cs n (P n) x) as Hcs.
    set (q := dot n x x) in *. set (u := dot n (P n) x) in *. set (Q := dot n x (mv n P x)) in *. set (pp := dot n (P n) (P n)) in *.
    set (z := x n + u / a).
    assert (Eq : Q + 2 * (x n * u) + a * (x n * x n) = a * (z * z) + (Q - u * u / a)) by (unfold z; field; lra).
    rewrite Eq. apply Rle_trans with (a * (z * z) + c * q); [|lra].
    set (k := Rmin (a / 2) (c / B)).
    assert (K1 : k <= a / 2) by apply Rmin_l. assert (K2 : k <= c / B) by apply Rmin_r.
    assert (K0 : 0 < k) by (apply Rmin_glb_lt; auto).
    assert (K2' : k * B <= c). { apply (Rmult_le_compat_r B) in K2; [|lra]. replace (c / B * B) with c in K2 by (field; lra). exact K2. }
    assert (X : x n * x n <= 2 * (z * z) + 2 * (u * u / (a * a))).
    { replace (x n) with (z - u / a) by (unfold z; ring). replace (u * u / (a * a)) with (u / a * (u / a)) by (field; lra).
      pose proof (Rle_0_sqr (z + u / a)) as S0. unfold Rsqr in S0. lra. }
    assert (U : u * u / (a * a) <= pp * q / (a * a)).
    { apply Rmult_le_compat_r; [apply Rlt_le, Rinv_0_lt_compat; nra|exact Hcs]. }
    assert (T : q + x n * x n <= 2 * (z * z) + B * q).
    { unfold B. replace ((2 * pp / (a * a) + 1) * q) with (2 * (pp * q / (a * a)) + q) by (field; lra). lra. }
    assert (0 <= z * z) by (apply (Rle_0_sqr z)).
    apply Rle_trans with (k * (2 * (z * z) + B * q)); [apply Rmult_le_compat_l; lra|]. nra.
Qed.

(** A vector on which a non-negative form vanishes is in its kernel. *)
Lemma psd_kernel n P x : sym n P -> (forall y, 0 <= dot n y (mv n P y)) -> dot n x (mv n P x) = 0 -> forall i, (i < n)%nat -> mv n P x i = 0.
Proof.
  intros Hs Hp H0. set (y := mv n P x). apply (not_nz n y). intros Hy. apply dot_nz in Hy.
  destruct (q_bound n P) as (B & HB & Hb).
  pose proof (Hp (fun i => x i + (- / B) * y i)) as H. rewrite q_line in H by auto. rewrite H0 in H. fold y in H.
  specialize (Hb y). set (d := dot n y y) in *. set (e := dot n y (mv n P y)) in *.
  assert (Hb' : / B * / B * e <= / B * d).
  { replace (/ B * d) with (/ B * / B * (B * d)) by (field; lra). apply Rmult_le_compat_l; [|exact Hb]. apply Rmult_le_pos; apply Rlt_le, Rinv_0_lt_compat; auto. }
  assert (0 < / B * d) by (apply Rmult_lt_0_compat; auto; apply Rinv_0_lt_compat; auto). nra.
Qed.

(** The largest eigenvalue of one form relative to another. *)
Lemma top_eigen n P Q : (0 < n)%nat -> pd n P -> sym n Q ->
  exists lam x, nz n x /\ (forall i, (i < n)%nat -> mv n Q x i = lam * mv n P x i) /\ forall y, dot n y (mv n Q y) <= lam * dot n y (mv n P y).
Proof.
  intros Hn HP HQ. pose proof HP as (Ps & Pp).
  destruct (coercive n P HP) as (c & Hc & HC). destruct (q_bound n Q) as (B & HB & HBq).
  set (T := fun s => forall y, dot n y (mv n Q y) <= - s * dot n y (mv n P y)).
  set (e := fun i : nat => if Nat.eqb i 0 then 1 else 0).
  assert (He : nz n e) by (exists 0%nat; split; [auto|unfold e; cbn; lra]).
  assert (HPe : 0 < dot n e (mv n P e)) by (apply Pp; auto).
  assert (Tb : bound T).
  { exists (- (dot n e (mv n Q e) / dot n e (mv n P e))). intros s Hs. specialize (Hs e).
    apply (Rmult_le_reg_r (dot n e (mv n P e))); auto. replace (- (dot n e (mv n Q e) / dot n e (mv n P e)) * dot n e (mv n P e)) with (- dot n e (mv n Q e)) by (field; lra). lra. }
  assert (Te : exists s, T s).
  { exists (- (B / c)). intros y. rewrite Ropp_involutive. apply Rle_trans with (1 := HBq y).
    specialize (HC y). replace (B * dot n y y) with (B / c * (c * dot n y y)) by (field; lra). apply Rmult_le_compat_l; [|exact HC]. apply Rlt_le, Rdiv_lt_0_compat; auto. }
  destruct (completeness T Tb Te) as (s & Hub & Hlub). set (lam := - s).
  assert (TL : forall y, dot n y (mv n Q y) <= lam * dot n y (mv n P y)).
  { intros y. destruct (Rle_lt_dec (dot n y (mv n Q y)) (lam * dot n y (mv n P y))) as [|Hlt]; auto. exfalso.
    assert (Hy : 0 < dot n y (mv n P y)).
    { apply Pp. apply NNPP. intros Hz. pose proof (not_nz n y Hz) as E.
      assert (forall M, dot n y (mv n M y) = 0) as Z by (intros M; apply rsum_0; intros i Hi; rewrite E by auto; ring). rewrite !Z in Hlt. lra. }
    set (v := dot n y (mv n P y)) in *. set (u := dot n y (mv n Q y)) in *.
    assert (s <= - (u / v)).
    { apply Hlub. intros r Hr. specialize (Hr y). fold u v in Hr. apply (Rmult_le_reg_r v); auto. replace (- (u / v) * v) with (- u) by (field; lra). lra. }
    apply (Rmult_le_compat_r v) in H; [|lra]. replace (- (u / v) * v) with (- u) in H by (field; lra). unfold lam in Hlt. lra. }
  set (M := fun i j => lam * P i j - Q i j).
  assert (MV : forall y i, mv n M y i = lam * mv n P y i - mv n Q y i).
  { intros y i. unfold mv, M. rewrite <- rsum_scal, <- rsum_minus. apply rsum_ext. intros; ring. }
  assert (QM : forall y, dot n y (mv n M y) = lam * dot n y (mv n P y) - dot n y (mv n Q y)).
  { intros y. rewrite (dot_ext n y y (mv n M y) (fun i => lam * mv n P y i + (-1) * mv n Q y i)) by (auto; intros; rewrite MV; ring).
    rewrite dot_plus_r, !dot_scal_r. ring. }
  assert (Ms : sym n M) by (intros i j Hi Hj; unfold M; rewrite (Ps i j), (HQ i j) by auto; reflexivity).
  destruct (classic (pd n M)) as [HM|HM].
  - exfalso. destruct (coercive n M HM) as (d & Hd & HD). destruct (q_bound n P) as (A & HA & HAq).
    assert (T (s + d / A)).
    { intros y. specialize (HD y). rewrite QM in HD. specialize (HAq y).
      assert (d / A * dot n y (mv n P y) <= d * dot n y y).
      { replace (d * dot n y y) with (d / A * (A * dot n y y)) by (field; lra). apply Rmult_le_compat_l; [apply Rlt_le, Rdiv_lt_0_compat; auto|exact HAq]. }
      unfold lam in HD. lra. }
    apply Hub in H. assert (0 < d / A) by (apply Rdiv_lt_0_compat; auto). lra.
  - assert (exists x, nz n x /\ dot n x (mv n M x) <= 0) as (x & Hx & H0).
    { apply NNPP. intros Hno. apply HM. split; [exact Ms|]. intros x Hx. destruct (Rle_lt_dec (dot n x (mv n M x)) 0); auto. exfalso. eauto. }
    exists lam, x. split; [exact Hx|]. split; [|exact TL]. intros i Hi.
    assert (mv n M x i = 0); [|rewrite MV in H; lra].
    apply psd_kernel; auto.
    + intros y. rewrite QM. specialize (TL y). lra.
    + apply Rle_antisym; [exact H0|]. rewrite QM. specialize (TL x). lra.
Qed.

(** A complete system of eigenvectors. *)
Theorem spectral n P Q : pd n P -> pd n Q ->
  exists (lam : vec) (V : nat -> vec), (forall k, (k < n)%nat -> 0 < lam k) /\
    (forall k i, (k < n)%nat -> (i < n)%nat -> mv n Q (V k) i = lam k * mv n P (V k) i) /\
    inj n (fun i k => V k i).
Proof.
  intros HP HQ. pose proof HP as (Ps & Pp). pose proof HQ as (Qs & Qp).
  assert (X : forall m, (m <= n)%nat -> exists (lam : vec) (V : nat -> vec),
    forall k, (k < m)%nat -> 0 < lam k /\ nz n (V k) /\ (forall i, (i < n)%nat -> mv n Q (V k) i = lam k * mv n P (V k) i) /\
      forall l, (l < k)%nat -> dot n (V k) (mv n P (V l)) = 0).
  { induction m as [|m IH]; intros Hm; [exists (fun _ => 0), (fun _ _ => 0); intros; lia|].
    destruct (IH ltac:(lia)) as (lam & V & HV).
    assert (Orth : forall k l, (k < m)%nat -> (l < m)%nat -> k <> l -> dot n (V k) (mv n P (V l)) = 0).
    { intros k l Hk Hl Hne. destruct (Nat.lt_ge_cases l k); [apply HV; auto|]. rewrite bil_sym by auto. apply HV; [auto|lia]. }
    set (s := fun k => dot n (V k) (mv n P (V k))).
    assert (Hsp : forall k, (k < m)%nat -> 0 < s k) by (intros k Hk; apply Pp; apply HV; auto).
    set (Q' := fun i j => Q i j - rsum m (fun k => lam k / s k * (mv n P (V k) i * mv n P (V k) j))).
    assert (MQ : forall y i, mv n Q' y i = mv n Q y i - rsum m (fun k => lam k / s k * mv n P (V k) i * dot n (V k) (mv n P y))).
    { intros y i. unfold mv at 1, Q'.
      rewrite (rsum_ext n _ (fun j => Q i j * y j - rsum m (fun k => lam k / s k * mv n P (V k) i * (y j * mv n P (V k) j)))).
      - rewrite rsum_minus, rsum_swap. f_equal. apply rsum_ext. intros k Hk. rewrite rsum_scal. f_equal. apply (bil_sym n P y (V k)). exact Ps.
      - intros j Hj. rewrite Rmult_minus_distr_r, <- rsum_scal_r. f_equal. apply rsum_ext. intros; ring. }
    assert (Q's : sym n Q') by (intros i j Hi Hj; unfold Q'; rewrite (Qs i j) by auto; f_equal; apply rsum_ext; intros; ring).
    destruct (top_eigen n P Q' ltac:(lia) HP Q's) as (mu & x & Hx & Ex & Top).
    destruct (kernel_ex m n (fun k j => mv n P (V k) j) ltac:(lia)) as (y & Hy & Ky).
    assert (Ky' : forall k, (k < m)%nat -> dot n (V k) (mv n P y) = 0).
    { intros k Hk. rewrite bil_sym by auto. rewrite dot_comm. apply Ky; auto. }
    assert (Hmu : 0 < mu).
    { specialize (Top y). rewrite (dot_ext n y y (mv n Q' y) (mv n Q y)) in Top; auto.
      - pose proof (Qp y Hy). pose proof (Pp y Hy). destruct (Rle_lt_dec mu 0); auto. nra.
      - intros i Hi. rewrite MQ. rewrite rsum_0; [ring|]. intros k Hk. rewrite Ky' by auto. ring. }
    assert (Ox : forall k, (k < m)%nat -> dot n x (mv n P (V k)) = 0).
    { intros k Hk.
      assert (E0 : forall i, (i < n)%nat -> mv n Q' (V k) i = 0).
      { intros i Hi. rewrite MQ. rewrite (rsum_single m k) by (auto; intros l Hl Hne; rewrite Orth by auto; ring).
        destruct (HV k Hk) as (_ & _ & -> & _); auto. fold (s k). specialize (Hsp k Hk). field. lra. }
      assert (E1 : dot n (V k) (mv n Q' x) = 0).
      { rewrite bil_sym by auto. apply rsum_0. intros i Hi. rewrite E0 by auto. ring. }
      rewrite (dot_ext n (V k) (V k) _ (fun i => mu * mv n P x i)) in E1 by auto. rewrite dot_scal_r in E1.
      rewrite bil_sym by auto. apply Rmult_integral in E1 as [E1|E1]; lra. }
    exists (fun k => if Nat.eqb k m then mu else lam k), (fun k => if Nat.eqb k m then x else V k).
    intros k Hk. destruct (Nat.eqb_spec k m) as [->|Hne].
    - split; [auto|]. split; [auto|]. split.
      + intros i Hi. rewrite <- Ex by auto. rewrite MQ. rewrite rsum_0; [ring|]. intros l Hl. rewrite bil_sym, Ox by auto. ring.
      + intros l Hl. destruct (Nat.eqb_spec l m); [lia|]. apply Ox; auto.
    - destruct (HV k ltac:(lia)) as (A1 & A2 & A3 & A4). split; [auto|]. split; [auto|]. split; [auto|].
      intros l Hl. destruct (Nat.eqb_spec l m); [lia|]. auto. }
  destruct (X n ltac:(lia)) as (lam & V & HV). exists lam, V. split; [intros; apply HV; auto|]. split; [intros; apply HV; auto|].
  intros v Hv j Hj.
  assert (Orth : forall k, (k < n)%nat -> k <> j -> dot n (V k) (mv n P (V j)) = 0).
  { intros k Hk Hne. destruct (Nat.lt_ge_cases j k); [apply HV; auto|]. rewrite bil_sym by auto. apply HV; [auto|lia]. }
  assert (E : rsum n (fun k => v k * dot n (V k) (mv n P (V j))) = 0).
  { unfold dot. rewrite (rsum_ext n _ (fun k => rsum n (fun i => V k i * v k * mv n P (V j) i))).
    - rewrite rsum_swap. apply rsum_0. intros i Hi. rewrite rsum_scal_r, Hv by auto. ring.
    - intros k Hk. rewrite <- rsum_scal. apply rsum_ext. intros; ring. }
  rewrite (rsum_single n j) in E by (auto; intros k Hk Hne; rewrite Orth by auto; ring).
  assert (0 < dot n (V j) (mv n P (V j))) by (apply Pp; apply HV; auto).
  apply Rmult_integral in E as [E|E]; lra.
Qed.
