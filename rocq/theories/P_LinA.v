(** Square real matrices, systems of eigenvectors and homogeneous linear differential equations. *)
From Coq Require Import Classical Reals Lra Lia List Bool Arith.
From Coquelicot Require Import Coquelicot.
From Verif Require Import Base Tensor Spec Calc M_LinAlg Spec_RTE M_Subroutines M_Assemble M_Pydisort Spec_Sol P_Pydisort4.
Local Open Scope R_scope.

Definition sk (q j : nat) : nat := if Nat.ltb j q then j else S j.
Lemma rsum_skip m : forall q f, (q <= m)%nat -> rsum (S m) f = rsum m (fun j => f (sk q j)) + f q.
Proof.
  induction m; intros q f Hq.
  - assert (q = 0)%nat by lia. subst. reflexivity.
  - change (rsum (S (S m)) f) with (rsum (S m) f + f (S m)). destruct (Nat.eq_dec q (S m)) as [->|Hne].
    + f_equal. apply rsum_ext. intros j Hj. unfold sk. rewrite (proj2 (Nat.ltb_lt j (S m))) by auto. reflexivity.
    + rewrite (IHm q f) by lia. change (rsum (S m) (fun j => f (sk q j))) with (rsum m (fun j => f (sk q j)) + f (sk q m)).
      unfold sk at 3. rewrite (proj2 (Nat.ltb_ge m q)) by lia. ring.
Qed.

(** More columns than rows. *)
Lemma kernel_ex n : forall m (A : mat), (n < m)%nat ->
  exists v : vec, (exists j, (j < m)%nat /\ v j <> 0) /\ forall i, (i < n)%nat -> rsum m (fun j => A i j * v j) = 0.
Proof.
  induction n; intros m A Hm.
  - exists (fun _ => 1). split; [exists 0%nat; split; [lia|lra]|]. intros; lia.
  - destruct (classic (exists q, (q < m)%nat /\ A n q <> 0)) as [(q & Hq & Hp)|H0].
    + destruct m as [|m]; [lia|].
      destruct (IHn m (fun i j => A i (sk q j) - A i q * A n (sk q j) / A n q) ltac:(lia)) as (v & (j0 & Hj0 & Hv0) & Hv).
      set (z := - rsum m (fun j => A n (sk q j) * v j) / A n q).
      exists (fun j => if Nat.eqb j q then z else v (if Nat.ltb j q then j else (j - 1)%nat)).
      assert (Ev : forall j, (if Nat.eqb (sk q j) q then z else v (if Nat.ltb (sk q j) q then sk q j else (sk q j - 1)%nat)) = v j).
      { intros j. unfold sk. destruct (Nat.ltb_spec j q).
        - destruct (Nat.eqb_spec j q); [lia|]. destruct (Nat.ltb_spec j q); [reflexivity|lia].
        - destruct (Nat.eqb_spec (S j) q); [lia|]. destruct (Nat.ltb_spec (S j) q); [lia|]. f_equal. lia. }
      split.
      * exists (sk q j0). split; [unfold sk; destruct (Nat.ltb j0 q); lia|]. rewrite Ev. exact Hv0.
      * intros i Hi. rewrite (rsum_skip m q) by lia. rewrite Nat.eqb_refl.
        rewrite (rsum_ext m _ (fun j => A i (sk q j) * v j)) by (intros; rewrite Ev; reflexivity).
        destruct (Nat.eq_dec i n) as [->|Hne]; [unfold z; field; auto|].
        specialize (Hv i ltac:(lia)).
        rewrite (rsum_ext m _ (fun j => A i (sk q j) * v j - A i q / A n q * (A n (sk q j) * v j))) in Hv by (intros; field; auto).
        rewrite rsum_minus, rsum_scal in Hv. unfold z. rewrite <- Hv. field. auto.
    + destruct (IHn m A ltac:(lia)) as (v & Hv0 & Hv). exists v. split; [exact Hv0|]. intros i Hi.
      destruct (Nat.eq_dec i n) as [->|Hne]; [|apply Hv; lia]. apply rsum_0. intros j Hj.
      replace (A n j) with 0; [ring|]. destruct (Req_dec (A n j) 0); auto. exfalso. apply H0. exists j. auto.
Qed.

Definition inj (n : nat) (A : mat) : Prop :=
  forall v : vec, (forall i, (i < n)%nat -> rsum n (fun j => A i j * v j) = 0) -> forall j, (j < n)%nat -> v j = 0.

Lemma inj_surj n A : inj n A -> forall b : vec, exists x : vec, forall i, (i < n)%nat -> rsum n (fun j => A i j * x j) = b i.
Proof.
  intros HA b. destruct (kernel_ex n (S n) (fun i j => if Nat.ltb j n then A i j else b i) ltac:(lia)) as (v & (j0 & Hj0 & Hv0) & Hv).
  assert (H : forall i, (i < n)%nat -> rsum n (fun j => A i j * v j) + b i * v n = 0).
  { intros i Hi. specialize (Hv i Hi). cbn [rsum] in Hv. rewrite Nat.ltb_irrefl in Hv. rewrite <- Hv. f_equal. apply rsum_ext. intros j Hj.
    rewrite (proj2 (Nat.ltb_lt j n)) by auto. reflexivity. }
  assert (Hn : v n <> 0).
  { intros E. apply Hv0. destruct (Nat.eq_dec j0 n) as [->|]; auto. apply (HA v); [|lia]. intros i Hi. rewrite <- (H i Hi), E. ring. }
  exists (fun j => - v j / v n). intros i Hi.
  rewrite (rsum_ext n _ (fun j => - / v n * (A i j * v j))) by (intros; field; auto). rewrite rsum_scal.
  replace (rsum n (fun j => A i j * v j)) with (- (b i * v n)) by (specialize (H i Hi); lra). field. auto.
Qed.

Lemma fin_choice {A} (d : A) (P : nat -> A -> Prop) n : (forall j, (j < n)%nat -> exists x, P j x) -> exists f, forall j, (j < n)%nat -> P j (f j).
Proof.
  induction n; intros H.
  - exists (fun _ => d). intros; lia.
  - destruct IHn as (f & Hf); [intros; apply H; lia|]. destruct (H n ltac:(lia)) as (x & Hx).
    exists (fun j => if Nat.eqb j n then x else f j). intros j Hj. destruct (Nat.eqb_spec j n) as [->|]; auto. apply Hf. lia.
Qed.

Lemma inj_inverse n A : inj n A -> exists B : mat,
  (forall i j, (i < n)%nat -> (j < n)%nat -> rsum n (fun p => A i p * B p j) = delta i j) /\
  (forall i j, (i < n)%nat -> (j < n)%nat -> rsum n (fun p => B i p * A p j) = delta i j).
Proof.
  intros HA. destruct (fin_choice (fun _ => 0) (fun j (x : vec) => forall i, (i < n)%nat -> rsum n (fun p => A i p * x p) = delta i j) n) as (f & Hf).
  { intros j Hj. apply (inj_surj n A HA (fun i => delta i j)). }
  exists (fun p j => f j p). assert (H1 : forall i j, (i < n)%nat -> (j < n)%nat -> rsum n (fun p => A i p * f j p) = delta i j) by (intros; apply Hf; auto).
  split; [exact H1|]. intros i j Hi Hj.
  apply Rminus_diag_uniq. apply (HA (fun i => rsum n (fun p => f p i * A p j) - delta i j)); auto. intros k Hk.
  rewrite (rsum_ext n _ (fun q => rsum n (fun p => A k q * (f p q * A p j)) - A k q * delta q j)) by (intros; rewrite rsum_scal; ring).
  rewrite rsum_minus, rsum_swap.
  rewrite (rsum_ext n _ (fun p => delta k p * A p j)).
  2:{ intros p Hp. rewrite <- (H1 k p Hk Hp). rewrite <- rsum_scal_r. apply rsum_ext. intros; ring. }
  rewrite (rsum_single n k (fun p => delta k p * A p j)) by (auto; intros p Hp Hne; rewrite delta_ne by auto; ring).
  rewrite (rsum_single n j (fun q => A k q * delta q j)) by (auto; intros p Hp Hne; rewrite delta_ne by auto; ring).
  rewrite !delta_eq. ring.
Qed.

(** Eigenvectors that belong to one eigenvalue decide about all. *)
Lemma eig_inj n (A G : mat) (K : vec) :
  (forall i j, (i < n)%nat -> (j < n)%nat -> rsum n (fun p => A i p * G p j) = G i j * K j) ->
  (forall lam v, (forall i, (i < n)%nat -> rsum n (fun j => G i j * v j) = 0) -> (forall j, (j < n)%nat -> v j <> 0 -> K j = lam) ->
     forall j, (j < n)%nat -> v j = 0) ->
  inj n G.
Proof.
  intros HA Hone.
  assert (P : forall k v, (forall i, (i < n)%nat -> rsum n (fun j => G i j * v j) = 0) -> (forall j, (k <= j < n)%nat -> v j = 0) -> forall j, (j < n)%nat -> v j = 0).
  { induction k; intros v Hv Hz; [intros; apply Hz; lia|].
    apply (Hone (K k) v Hv). intros j Hj Hne.
    assert (Z : (K j - K k) * v j = 0).
    { apply (IHk (fun j => (K j - K k) * v j)); auto.
      - intros i Hi. rewrite (rsum_ext n _ (fun j => rsum n (fun p => A i p * (G p j * v j)) - K k * (G i j * v j))).
        2:{ intros q Hq. rewrite (rsum_ext n (fun p => A i p * (G p q * v q)) (fun p => A i p * G p q * v q)) by (intros; ring).
            rewrite rsum_scal_r, HA by auto. ring. }
        rewrite rsum_minus, rsum_scal, Hv, rsum_swap by auto.
        rewrite rsum_0; [ring|]. intros p Hp. rewrite rsum_scal, Hv by auto. ring.
      - intros q Hq. destruct (Nat.eq_dec q k) as [->|]; [ring|]. rewrite Hz by lia. ring. }
    apply Rmult_integral in Z as [Z|Z]; [lra|contradiction]. }
  intros v Hv. apply (P n v Hv). intros; lia.
Qed.

(** Functions on an interval. *)
Lemma der_zero_const f lo hi : (forall t, lo < t < hi -> is_derive f t 0) -> forall x y, lo < x < hi -> lo < y < hi -> f x = f y.
Proof.
  intros H x y Hx Hy. destruct (MVT_gen f x y (fun _ => 0)) as (c & _ & E).
  - intros t Ht. apply H. revert Ht. unfold Rmin, Rmax. destruct (Rle_dec x y); lra.
  - intros t Ht. apply derivable_continuous_pt. exists 0. apply is_derive_Reals, H. revert Ht. unfold Rmin, Rmax. destruct (Rle_dec x y); lra.
  - lra.
Qed.
Lemma cont_on_eq lo hi f g : lo < hi -> cont_on lo hi f -> cont_on lo hi g -> (forall t, lo < t < hi -> f t = g t) -> forall t, lo <= t <= hi -> f t = g t.
Proof.
  intros Hlt Hf Hg E t Ht. destruct (Req_dec (f t) (g t)) as [|Hne]; auto. exfalso.
  assert (He : 0 < Rabs (f t - g t) / 2) by (apply Rdiv_lt_0_compat; [apply Rabs_pos_lt; lra|lra]).
  destruct (Hf t Ht _ He) as (d1 & D1 & H1). destruct (Hg t Ht _ He) as (d2 & D2 & H2).
  assert (exists s, lo < s < hi /\ Rabs (s - t) < d1 /\ Rabs (s - t) < d2) as (s & Hs & S1 & S2).
  { set (d := Rmin (Rmin d1 d2) (hi - lo)). assert (0 < d) by (unfold d; repeat apply Rmin_glb_lt; lra).
    assert (d <= d1) by (unfold d; eapply Rle_trans; [apply Rmin_l|apply Rmin_l]).
    assert (d <= d2) by (unfold d; eapply Rle_trans; [apply Rmin_l|apply Rmin_r]).
    assert (d <= hi - lo) by apply Rmin_r.
    destruct (Rlt_le_dec t ((lo + hi) / 2)).
    - exists (t + d / 3). split; [lra|]. replace (t + d / 3 - t) with (d / 3) by ring. rewrite Rabs_right by lra. lra.
    - exists (t - d / 3). split; [lra|]. replace (t - d / 3 - t) with (- (d / 3)) by ring. rewrite Rabs_Ropp, Rabs_right by lra. lra. }
  specialize (H1 s ltac:(lra) S1). specialize (H2 s ltac:(lra) S2). rewrite E in H1 by auto.
  assert (Rabs (f t - g t) <= Rabs (g s - g t) + Rabs (g s - f t)).
  { replace (f t - g t) with ((g s - g t) - (g s - f t)) by ring. eapply Rle_trans; [apply Rabs_triang|]. rewrite Rabs_Ropp. lra. }
  lra.
Qed.

(** A system of differential equations whose matrix has a full set of eigenvectors. *)
Lemma hom_form n (A G : mat) (K : vec) c (V : nat -> R -> R) lo hi : lo < hi -> inj n G ->
  (forall i j, (i < n)%nat -> (j < n)%nat -> rsum n (fun p => A i p * G p j) = G i j * K j) ->
  (forall i t, (i < n)%nat -> lo < t < hi -> is_derive (V i) t (c * rsum n (fun j => A i j * V j t))) ->
  (forall i, (i < n)%nat -> cont_on lo hi (V i)) ->
  exists y : vec, forall i t, (i < n)%nat -> lo <= t <= hi -> V i t = rsum n (fun k => G i k * y k * exp (c * K k * t)).
Proof.
  intros Hlt HG HA HD HC. destruct (inj_inverse n G HG) as (B & HB1 & HB2).
  set (W := fun k t => rsum n (fun i => B k i * V i t)).
  assert (BA : forall k j, (k < n)%nat -> (j < n)%nat -> rsum n (fun i => B k i * A i j) = K k * B k j).
  { intros k j Hk Hj.
    transitivity (rsum n (fun i => B k i * rsum n (fun p => rsum n (fun q => A i q * G q p) * B p j))).
    - apply rsum_ext. intros i Hi. f_equal.
      rewrite (rsum_ext n _ (fun p => rsum n (fun q => A i q * (G q p * B p j)))) by (intros; rewrite <- rsum_scal_r; apply rsum_ext; intros; ring).
      rewrite rsum_swap. rewrite (rsum_ext n _ (fun q => A i q * delta q j)) by (intros q Hq; rewrite rsum_scal, HB1 by auto; reflexivity).
      rewrite (rsum_single n j) by (auto; intros; rewrite delta_ne by auto; ring). rewrite delta_eq. ring.
    - rewrite (rsum_ext n _ (fun i => rsum n (fun p => B k i * (G i p * K p * B p j)))).
      2:{ intros i Hi. rewrite rsum_scal. f_equal. apply rsum_ext. intros p Hp. rewrite HA by auto. reflexivity. }
      rewrite rsum_swap. rewrite (rsum_ext n _ (fun p => delta k p * (K p * B p j))).
      2:{ intros p Hp. rewrite <- (HB2 k p Hk Hp), <- rsum_scal_r. apply rsum_ext. intros; ring. }
      rewrite (rsum_single n k) by (auto; intros; rewrite delta_ne by auto; ring). rewrite delta_eq. ring. }
  assert (DW : forall k t, (k < n)%nat -> lo < t < hi -> is_derive (fun t => W k t * exp (- (c * K k * t))) t 0).
  { intros k t Hk Ht.
    assert (D1 : is_derive (W k) t (c * K k * W k t)).
    { unfold W. refine (der_eq _ _ _ _ _ (der_sum n (fun i t => B k i * V i t) t (fun i => B k i * (c * rsum n (fun j => A i j * V j t))) _)).
      - rewrite (rsum_ext n _ (fun i => rsum n (fun j => c * (B k i * A i j * V j t)))).
        2:{ intros i Hi. rewrite rsum_scal. rewrite <- Rmult_assoc, (Rmult_comm (B k i) c), Rmult_assoc. f_equal. rewrite <- rsum_scal. apply rsum_ext. intros; ring. }
        rewrite rsum_swap. rewrite <- rsum_scal. apply rsum_ext. intros j Hj. rewrite rsum_scal, rsum_scal_r, BA by auto. ring.
      - intros i Hi. apply der_scal. apply HD; auto. }
    refine (der_eq _ _ _ _ _ (der_mult (W k) (fun t => exp (- (c * K k * t))) t _ _ D1 (der_exp (fun t => - (c * K k * t)) t (- (c * K k)) _))).
    - ring.
    - apply (der_opp (fun t => c * K k * t)). apply (der_eq _ _ (c * K k * 1)); [ring|]. apply (der_scal (fun t => t)). apply der_id. }
  set (mid := (lo + hi) / 2). exists (fun k => W k mid * exp (- (c * K k * mid))). intros i t Hi Ht.
  refine (cont_on_eq lo hi (V i) (fun t => rsum n (fun k => G i k * (W k mid * exp (- (c * K k * mid))) * exp (c * K k * t))) Hlt (HC i Hi) _ _ t Ht).
  - apply cont_on_derive. intros x _. eexists.
    apply (der_sum n (fun k t => G i k * (W k mid * exp (- (c * K k * mid))) * exp (c * K k * t))). intros k Hk. apply der_scal.
    apply (der_exp (fun t => c * K k * t)). apply (der_scal (fun t => t)). apply der_id.
  - intros x Hx. rewrite (rsum_ext n _ (fun k => G i k * W k x)).
    2:{ intros k Hk. rewrite (der_zero_const _ lo hi (fun t Ht => DW k t Hk Ht) mid x) by (auto; unfold mid; lra).
        rewrite <- (Rmult_1_r (G i k * W k x)). rewrite <- exp_0. replace 0 with (- (c * K k * x) + c * K k * x) at 1 by ring. rewrite exp_plus. ring. }
    unfold W. rewrite (rsum_ext n _ (fun k => rsum n (fun j => G i k * B k j * V j x))) by (intros; rewrite <- rsum_scal; apply rsum_ext; intros; ring).
    rewrite rsum_swap. rewrite (rsum_ext n _ (fun j => delta i j * V j x)) by (intros j Hj; rewrite rsum_scal_r, HB1 by auto; reflexivity).
    rewrite (rsum_single n i) by (auto; intros; rewrite delta_ne by auto; ring). rewrite delta_eq. ring.
Qed.
