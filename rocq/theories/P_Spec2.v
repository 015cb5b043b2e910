(** Non-negative trigonometric sums, and matrices of scattering that are dominated by absorption. *)
From Coq Require Import Classical Reals Lra Lia List Bool Arith.
From Coquelicot Require Import Coquelicot.
From Verif Require Import Base Tensor Spec M_LinAlg Spec_RTE P_LinA P_Spec1.
Local Open Scope R_scope.

(** ** Fourier coefficients of a non-negative function *)
Lemma int_cos m : is_RInt (V := R_NormedModule) (fun t => cos (INR m * t)) 0 (2 * PI) (if Nat.eqb m 0 then 2 * PI else 0).
Proof.
  destruct (Nat.eqb_spec m 0) as [->|Hm].
  - apply (is_RInt_ext (V := R_NormedModule) (fun _ => 1)).
    + intros x _. simpl. rewrite Rmult_0_l, cos_0. reflexivity.
    + replace (2 * PI) with (scal (2 * PI - 0) 1) at 2 by (unfold scal; simpl; unfold mult; simpl; ring). apply (is_RInt_const (V := R_NormedModule)).
  - assert (Hm' : INR m <> 0) by (apply not_0_INR; auto).
    replace 0 with (minus (sin (INR m * (2 * PI)) / INR m) (sin (INR m * 0) / INR m)) at 2.
    + apply (is_RInt_derive (V := R_CompleteNormedModule) (fun t => sin (INR m * t) / INR m)).
      * intros x _. auto_derive; auto. field. exact Hm'.
      * intros x _. apply (ex_derive_continuous (K := R_AbsRing) (V := R_NormedModule)). auto_derive. auto.
    + unfold minus, plus, opp; simpl. rewrite Rmult_0_r, sin_0.
      replace (INR m * (2 * PI)) with (0 + 2 * INR m * PI) by ring. rewrite sin_period, sin_0. unfold Rdiv. ring.
Qed.
Lemma int_cos_abs a b : is_RInt (V := R_NormedModule) (fun t => cos (INR a * t - INR b * t)) 0 (2 * PI) (if Nat.eqb a b then 2 * PI else 0).
Proof.
  destruct (Nat.le_ge_cases b a) as [H|H].
  - apply (is_RInt_ext (V := R_NormedModule) (fun t => cos (INR (a - b) * t))).
    + intros x _. rewrite minus_INR by auto. f_equal. ring.
    + pose proof (int_cos (a - b)) as I. replace (Nat.eqb a b) with (Nat.eqb (a - b) 0); auto. destruct (Nat.eqb_spec a b), (Nat.eqb_spec (a - b) 0); auto; lia.
  - apply (is_RInt_ext (V := R_NormedModule) (fun t => cos (INR (b - a) * t))).
    + intros x _. rewrite minus_INR by auto. rewrite <- cos_neg. f_equal. ring.
    + pose proof (int_cos (b - a)) as I. replace (Nat.eqb a b) with (Nat.eqb (b - a) 0); auto. destruct (Nat.eqb_spec a b), (Nat.eqb_spec (b - a) 0); auto; lia.
Qed.
Lemma int_cc m k : (0 < k)%nat -> is_RInt (V := R_NormedModule) (fun t => cos (INR m * t) * cos (INR k * t)) 0 (2 * PI) (if Nat.eqb m k then PI else 0).
Proof.
  intros Hk. apply (is_RInt_ext (V := R_NormedModule) (fun t => scal (1 / 2) (plus (cos (INR (m + k) * t)) (cos (INR m * t - INR k * t))))).
  - intros x _. unfold scal, plus; simpl; unfold mult; simpl. rewrite plus_INR.
    replace ((INR m + INR k) * x) with (INR m * x + INR k * x) by ring. rewrite cos_plus, cos_minus. field.
  - assert (E : (if Nat.eqb m k then PI else 0) = scal (V := R_NormedModule) (1 / 2) (plus (if Nat.eqb (m + k) 0 then 2 * PI else 0) (if Nat.eqb m k then 2 * PI else 0))).
    { unfold scal, plus; simpl; unfold mult; simpl. destruct (Nat.eqb_spec (m + k) 0); [lia|]. destruct (Nat.eqb m k); field. }
    refine (eq_ind_r (fun v : R => is_RInt (V := R_NormedModule) _ _ _ v) _ E). apply (is_RInt_scal (V := R_NormedModule)). apply (is_RInt_plus (V := R_NormedModule)); [apply int_cos|apply int_cos_abs].
Qed.
Lemma int_0 : is_RInt (V := R_NormedModule) (fun _ => 0) 0 (2 * PI) 0.
Proof.
  assert (E : 0 = scal (V := R_NormedModule) (2 * PI - 0) 0) by (unfold scal; simpl; unfold mult; simpl; ring).
  refine (eq_ind_r (fun v : R => is_RInt (V := R_NormedModule) _ _ _ v) _ E). apply (is_RInt_const (V := R_NormedModule)).
Qed.
Lemma int_rsum n (f : nat -> R -> R) v : (forall m, (m < n)%nat -> is_RInt (V := R_NormedModule) (f m) 0 (2 * PI) (v m)) ->
  is_RInt (V := R_NormedModule) (fun t => rsum n (fun m => f m t)) 0 (2 * PI) (rsum n v).
Proof.
  induction n; intros H; cbn [rsum].
  - apply int_0.
  - apply (is_RInt_plus (V := R_NormedModule) (fun t => rsum n (fun m => f m t)) (f n)); auto.
Qed.
Theorem trig_bound n (c : nat -> R) : (forall t, 0 <= rsum n (fun m => c m * cos (INR m * t))) ->
  forall k, (0 < k < n)%nat -> Rabs (c k) <= 2 * c 0%nat.
Proof.
  intros H k Hk.
  assert (X : forall s, s = 1 \/ s = -1 -> 0 <= 2 * PI * c 0%nat + s * (PI * c k)).
  { intros s Hs.
    assert (I : is_RInt (V := R_NormedModule) (fun t => rsum n (fun m => c m * (cos (INR m * t) + s * (cos (INR m * t) * cos (INR k * t))))) 0 (2 * PI)
                  (rsum n (fun m => c m * ((if Nat.eqb m 0 then 2 * PI else 0) + s * (if Nat.eqb m k then PI else 0))))).
    { apply int_rsum. intros m Hm.
      apply (is_RInt_scal (V := R_NormedModule) (fun t => cos (INR m * t) + s * (cos (INR m * t) * cos (INR k * t)))).
      apply (is_RInt_plus (V := R_NormedModule) (fun t => cos (INR m * t)) (fun t => s * (cos (INR m * t) * cos (INR k * t)))); [apply int_cos|].
      apply (is_RInt_scal (V := R_NormedModule) (fun t => cos (INR m * t) * cos (INR k * t))). apply int_cc. lia. }
    assert (E : rsum n (fun m => c m * ((if Nat.eqb m 0 then 2 * PI else 0) + s * (if Nat.eqb m k then PI else 0))) = 2 * PI * c 0%nat + s * (PI * c k)).
    { rewrite (rsum_ext n _ (fun m => c m * (if Nat.eqb m 0 then 2 * PI else 0) + s * (c m * (if Nat.eqb m k then PI else 0)))) by (intros; ring).
      rewrite rsum_plus, rsum_scal. rewrite (rsum_single n 0) by first [lia | intros j Hj Hne; destruct (Nat.eqb_spec j 0); [lia|ring]].
      rewrite (rsum_single n k) by first [lia | intros j Hj Hne; destruct (Nat.eqb_spec j k); [lia|ring]]. rewrite !Nat.eqb_refl. cbn [Nat.eqb]. ring. }
    rewrite E in I. pose proof PI_RGT_0.
    refine (is_RInt_le _ _ _ _ _ _ _ int_0 I _); [lra|]. intros t _.
    rewrite (rsum_ext n _ (fun m => c m * cos (INR m * t) * (1 + s * cos (INR k * t)))) by (intros; ring).
    rewrite rsum_scal_r. apply Rmult_le_pos; [apply H|]. pose proof (COS_bound (INR k * t)). destruct Hs as [-> | ->]; lra. }
  pose proof (X 1 ltac:(auto)). pose proof (X (-1) ltac:(auto)). pose proof PI_RGT_0. unfold Rabs. destruct (Rcase_abs _); nra.
Qed.
Lemma trig_zero n (c : nat -> R) : (0 < n)%nat -> (forall t, 0 <= rsum n (fun m => c m * cos (INR m * t))) -> 0 <= c 0%nat.
Proof.
  intros Hn H. destruct (Nat.eq_dec n 1) as [->|]; [|pose proof (trig_bound n c H 1%nat ltac:(lia)); pose proof (Rabs_pos (c 1%nat)); lra].
  specialize (H 0). cbn in H. rewrite Rmult_0_l, cos_0 in H. lra.
Qed.

(** ** Absorption dominates scattering *)
Lemma schur_pd n (w : vec) (E a : mat) k : (forall i, (i < n)%nat -> 0 < w i) -> k < 1 -> sym n E -> sym n a ->
  (forall i j, (i < n)%nat -> (j < n)%nat -> Rabs (E i j) <= a i j) -> (forall i, (i < n)%nat -> rsum n (fun j => w j * a i j) <= k) ->
  pd n (fun i j => w i * delta i j - w i * E i j * w j).
Proof.
  intros Hw Hk HE Ha Hab Hr. split.
  { intros i j Hi Hj. rewrite (HE i j) by auto. destruct (Nat.eq_dec i j) as [->|]; [ring|]. rewrite !delta_ne by auto. ring. }
  intros x Hx.
  assert (M : forall i, (i < n)%nat -> mv n (fun i j => w i * delta i j - w i * E i j * w j) x i = w i * x i - w i * rsum n (fun j => E i j * w j * x j)).
  { intros i Hi. unfold mv. rewrite (rsum_ext n _ (fun j => w i * (delta i j * x j) - w i * (E i j * w j * x j))) by (intros; ring).
    rewrite rsum_minus, !rsum_scal, rsum_delta_l by auto. reflexivity. }
  rewrite (dot_ext n x x _ (fun i => w i * x i - w i * rsum n (fun j => E i j * w j * x j))) by auto.
  unfold dot. rewrite (rsum_ext n _ (fun i => w i * (x i * x i) - rsum n (fun j => w i * w j * E i j * x i * x j))).
  2:{ intros i Hi. rewrite (rsum_ext n (fun j => w i * w j * E i j * x i * x j) (fun j => w i * x i * (E i j * w j * x j))) by (intros; ring). rewrite rsum_scal. ring. }
  rewrite rsum_minus. set (W := rsum n (fun i => w i * (x i * x i))).
  assert (HW : 0 < W).
  { destruct Hx as (i & Hi & Hx). destruct (Rle_lt_dec W 0) as [H|]; [exfalso|assumption].
    assert (Z : w i * (x i * x i) = 0).
    { apply (rsum_zero_nonneg n (fun i => w i * (x i * x i))); auto.
      - intros q Hq. apply Rmult_le_pos; [apply Rlt_le; auto|apply (Rle_0_sqr (x q))].
      - apply Rle_antisym; [exact H|]. apply rsum_nonneg. intros q Hq. apply Rmult_le_pos; [apply Rlt_le; auto|apply (Rle_0_sqr (x q))]. }
    specialize (Hw i Hi). apply Rmult_integral in Z as [Z|Z]; [lra|]. apply Rmult_integral in Z as [Z|Z]; contradiction. }
  assert (HS : rsum n (fun i => rsum n (fun j => w i * w j * E i j * x i * x j)) <= k * W).
  { apply Rle_trans with (rsum n (fun i => rsum n (fun j => w i * w j * a i j * ((x i * x i + x j * x j) / 2)))).
    - apply rsum_le. intros i Hi. apply rsum_le. intros j Hj. pose proof (Hw i Hi). pose proof (Hw j Hj).
      assert (E i j * (x i * x j) <= a i j * ((x i * x i + x j * x j) / 2)).
      { apply Rle_trans with (Rabs (E i j) * Rabs (x i * x j)); [rewrite <- Rabs_mult; apply Rle_abs|].
        apply Rmult_le_compat; auto using Rabs_pos. pose proof (Rle_0_sqr (x i - x j)) as S1. pose proof (Rle_0_sqr (x i + x j)) as S2. unfold Rsqr in S1, S2.
        unfold Rabs. destruct (Rcase_abs _); lra. }
      replace (w i * w j * E i j * x i * x j) with (w i * w j * (E i j * (x i * x j))) by ring. rewrite (Rmult_assoc (w i * w j)). apply Rmult_le_compat_l; [|assumption].
      apply Rmult_le_pos; lra.
    - rewrite (rsum_ext n _ (fun i => rsum n (fun j => w i * (x i * x i) / 2 * (w j * a i j)) + rsum n (fun j => w j * (x j * x j) / 2 * (w i * a j i)))).
      2:{ intros i Hi. rewrite <- rsum_plus. apply rsum_ext. intros j Hj. rewrite (Ha j i) by auto. field. }
      rewrite rsum_plus, (rsum_swap n n (fun i j => w j * (x j * x j) / 2 * (w i * a j i))).
      assert (T : rsum n (fun i => rsum n (fun j => w i * (x i * x i) / 2 * (w j * a i j))) <= k * W / 2).
      { unfold W. rewrite <- rsum_scal, <- rsum_div. apply rsum_le. intros i Hi. rewrite rsum_scal. specialize (Hr i Hi). specialize (Hw i Hi).
        assert (0 <= w i * (x i * x i)) by (apply Rmult_le_pos; [lra|apply (Rle_0_sqr (x i))]). nra. }
      match goal with |- ?A + ?B <= _ => change B with A end. lra. }
  nra.
Qed.

Lemma pd_inj n P : pd n P -> inj n P.
Proof.
  intros (Hs & Hp) v Hv. apply not_nz. intros Hn. apply Hp in Hn. replace (dot n v (mv n P v)) with 0 in Hn; [lra|].
  symmetry. apply rsum_0. intros i Hi. unfold mv. rewrite Hv by auto. ring.
Qed.
Lemma col_nz n E j : inj n E -> (j < n)%nat -> nz n (fun i => E i j).
Proof.
  intros H Hj. apply NNPP. intros Hz. pose proof (not_nz n _ Hz) as Z. cbv beta in Z.
  assert (X : delta j j = 0); [|rewrite delta_eq in X; lra].
  apply (H (fun i => delta i j)); auto. intros i Hi. rewrite rsum_delta_r by auto. apply Z; auto.
Qed.

(** The product of two such matrices has a full set of real eigenvectors, and its eigenvalues are positive. *)
Section Product.
  Variables (n : nat) (z : vec) (Sp Sm : mat).
  Hypothesis Hz : forall i, (i < n)%nat -> 0 < z i.
  Hypothesis Pp : pd n Sp.
  Hypothesis Pm : pd n Sm.
  Let c (x : vec) : vec := fun i => mv n Sp x i / z i.
  Let T (x : vec) : vec := fun i => mv n Sm (c x) i / z i.
  Let Q : mat := fun i j => mv n Sp (T (fun k => delta k j)) i.

  Lemma T_lin x y a : forall i, T (fun k => x k + a * y k) i = T x i + a * T y i.
  Proof.
    intros i. unfold T, c. rewrite (mv_ext n Sm _ (fun j => mv n Sp x j / z j + a * (mv n Sp y j / z j))).
    - rewrite mv_plus, mv_scal. unfold Rdiv. ring.
    - intros j Hj. rewrite mv_plus, mv_scal. unfold Rdiv. ring.
  Qed.
  Lemma T_sum m x (f : nat -> vec) : (forall i, x i = rsum m (fun k => f k i)) -> forall i, T x i = rsum m (fun k => T (f k) i).
  Proof.
    revert x. induction m; intros x H i.
    - cbn [rsum]. unfold T, c, mv. rewrite rsum_0; [unfold Rdiv; ring|]. intros j Hj. rewrite (rsum_0 n (fun k => Sp j k * x k)); [unfold Rdiv; ring|].
      intros k Hk. rewrite H. cbn. ring.
    - cbn [rsum]. rewrite <- (IHm (fun i => rsum m (fun k => f k i))) by auto.
      replace (T (f m) i) with (1 * T (f m) i) by ring. rewrite <- T_lin. unfold T, c. f_equal. apply mv_ext. intros j Hj. f_equal. apply mv_ext. intros q Hq. rewrite H. cbn. ring.
  Qed.
  Lemma T_ext x y i : (forall j, (j < n)%nat -> x j = y j) -> T x i = T y i.
  Proof. intros H. unfold T, c. f_equal. apply mv_ext. intros j Hj. f_equal. apply mv_ext. auto. Qed.
  Lemma T_scal a y i : T (fun k => a * y k) i = a * T y i.
  Proof.
    unfold T, c. rewrite (mv_ext n Sm _ (fun j => a * (mv n Sp y j / z j))); [rewrite mv_scal; unfold Rdiv; ring|].
    intros j Hj. rewrite mv_scal. unfold Rdiv. ring.
  Qed.
  Lemma Q_mv x i : mv n Q x i = mv n Sp (T x) i.
  Proof.
    unfold mv at 1, Q. 
    rewrite (mv_ext n Sp (T x) (fun q => rsum n (fun j => T (fun k => delta k j) q * x j))).
    - unfold mv. rewrite (rsum_ext n (fun j => Sp i j * rsum n (fun j0 => T (fun k => delta k j0) j * x j0)) (fun j => rsum n (fun q => Sp i j * T (fun k => delta k q) j * x q))).
      + rewrite rsum_swap. apply rsum_ext. intros q Hq. rewrite rsum_scal_r. reflexivity.
      + intros j Hj. rewrite <- rsum_scal. apply rsum_ext. intros; ring.
    - intros q Hq. rewrite (T_ext x (fun k => rsum n (fun j => x j * delta k j))).
      + rewrite (T_sum n (fun k => rsum n (fun j => x j * delta k j)) (fun j k => x j * delta k j)) by reflexivity.
        apply rsum_ext. intros j Hj. rewrite (T_scal (x j) (fun k => delta k j)). ring.
      + intros k Hk. rewrite (rsum_single n k); auto; [rewrite delta_eq; ring|]. intros j Hj Hne. rewrite delta_ne by auto. ring.
  Qed.
  Lemma Q_bil x y : dot n x (mv n Q y) = dot n (c x) (mv n Sm (c y)).
  Proof.
    rewrite (dot_ext n x x (mv n Q y) (mv n Sp (T y))) by (auto; intros; apply Q_mv).
    rewrite bil_sym by apply Pp. apply rsum_ext. intros i Hi. unfold T, c. specialize (Hz i Hi). field. lra.
  Qed.
  Lemma Q_pd : pd n Q.
  Proof.
    split.
    - intros i j Hi Hj.
      assert (E : forall a b, (a < n)%nat -> (b < n)%nat -> Q a b = dot n (fun k => delta k a) (mv n Q (fun k => delta k b))).
      { intros a b Ha Hb. unfold dot, mv. rewrite (rsum_single n a) by (auto; intros; rewrite delta_ne by auto; ring). rewrite delta_eq, rsum_delta_r by auto. ring. }
      rewrite !E by auto. rewrite !Q_bil. apply bil_sym. apply Pm.
    - intros x Hx. rewrite Q_bil. apply Pm. apply NNPP. intros H. pose proof (not_nz _ _ H) as Z.
      destruct Hx as (i & Hi & Hx). apply Hx. apply (pd_inj n Sp Pp x); auto. intros k Hk. specialize (Z k Hk). unfold c in Z.
      specialize (Hz k Hk). fold (mv n Sp x k). apply (Rmult_eq_reg_r (/ z k)); [unfold Rdiv in Z; rewrite Z; ring|]. apply Rinv_neq_0_compat. lra.
  Qed.

  Let A : mat := fun i j => rsum n (fun p => Sm i p / z i * (Sp p j / z p)).
  Lemma A_T x i : rsum n (fun j => A i j * x j) = T x i.
  Proof.
    unfold A, T, c, mv. rewrite (rsum_ext n _ (fun j => rsum n (fun p => Sm i p / z i * (Sp p j / z p) * x j))) by (intros; rewrite rsum_scal_r; reflexivity).
    rewrite rsum_swap, <- rsum_div. apply rsum_ext. intros p Hp.
    rewrite (rsum_ext n _ (fun j => Sm i p / z i / z p * (Sp p j * x j))) by (intros; unfold Rdiv; ring). rewrite rsum_scal. unfold Rdiv. ring.
  Qed.
  Theorem product_basis : exists (lam : vec) (E : mat), inj n E /\
    forall i j, (i < n)%nat -> (j < n)%nat -> rsum n (fun p => A i p * E p j) = E i j * lam j.
  Proof.
    destruct (spectral n Sp Q Pp Q_pd) as (lam & V & Hl & HV & HI). exists lam, (fun i k => V k i). split; [exact HI|].
    intros i j Hi Hj. rewrite A_T. apply Rminus_diag_uniq. apply (pd_inj n Sp Pp (fun i => T (V j) i - V j i * lam j)); auto.
    intros k Hk. rewrite (rsum_ext n _ (fun q => Sp k q * T (V j) q - lam j * (Sp k q * V j q))) by (intros; ring).
    rewrite rsum_minus, rsum_scal. fold (mv n Sp (T (V j)) k) (mv n Sp (V j) k). rewrite <- Q_mv, HV by auto. ring.
  Qed.
  Theorem product_pos lam x : nz n x -> (forall i, (i < n)%nat -> rsum n (fun p => A i p * x p) = x i * lam) -> 0 < lam.
  Proof.
    intros Hx HA. pose proof (proj2 Q_pd x Hx) as H1. pose proof (proj2 Pp x Hx) as H2.
    rewrite (dot_ext n x x (mv n Q x) (fun i => lam * mv n Sp x i)) in H1; auto.
    - rewrite dot_scal_r in H1. destruct (Rle_lt_dec lam 0); auto. nra.
    - intros i Hi. rewrite Q_mv. rewrite (mv_ext n Sp _ (fun k => lam * x k)); [apply mv_scal|]. intros k Hk. rewrite <- A_T, HA by auto. ring.
  Qed.
End Product.
