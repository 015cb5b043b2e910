(** Finite sums over the reals, boolean comparisons and small list facts.
    This file models no code of /repo; it is the arithmetic library of the model. *)
From Coq Require Import Reals Lra Lia List ZArith Bool Arith.
Import ListNotations.
Local Open Scope R_scope.

(** Sum of [f i] for [i < n]. *)
Fixpoint rsum (n : nat) (f : nat -> R) : R :=
  match n with
  | O => 0
  | S k => rsum k f + f k
  end.

Lemma rsum_ext n f g : (forall i, (i < n)%nat -> f i = g i) -> rsum n f = rsum n g.
Proof. induction n; simpl; intros H; auto. rewrite IHn, H; auto. Qed.

Lemma rsum_0 n f : (forall i, (i < n)%nat -> f i = 0) -> rsum n f = 0.
Proof. induction n; simpl; intros H; auto. rewrite IHn, H; auto; lra. Qed.

Lemma rsum_const n c : rsum n (fun _ => c) = INR n * c.
Proof. induction n. simpl; lra. rewrite S_INR; simpl rsum; rewrite IHn; ring. Qed.

Lemma rsum_plus n f g : rsum n (fun i => f i + g i) = rsum n f + rsum n g.
Proof. induction n; simpl; [lra|]. rewrite IHn; ring. Qed.

Lemma rsum_minus n f g : rsum n (fun i => f i - g i) = rsum n f - rsum n g.
Proof. induction n; simpl; [lra|]. rewrite IHn; ring. Qed.

Lemma rsum_opp n f : rsum n (fun i => - f i) = - rsum n f.
Proof. induction n; simpl; [lra|]. rewrite IHn; ring. Qed.

Lemma rsum_scal n c f : rsum n (fun i => c * f i) = c * rsum n f.
Proof. induction n; simpl; [lra|]. rewrite IHn; ring. Qed.

Lemma rsum_scal_r n c f : rsum n (fun i => f i * c) = rsum n f * c.
Proof. induction n; simpl; [lra|]. rewrite IHn; ring. Qed.

Lemma rsum_div n c f : rsum n (fun i => f i / c) = rsum n f / c.
Proof. unfold Rdiv; apply rsum_scal_r. Qed.

Lemma rsum_swap n m f :
  rsum n (fun i => rsum m (fun j => f i j)) = rsum m (fun j => rsum n (fun i => f i j)).
Proof.
  induction n; simpl.
  - symmetry; apply rsum_0; auto.
  - rewrite IHn, <- rsum_plus. reflexivity.
Qed.

Lemma rsum_split n m f : rsum (n + m) f = rsum n f + rsum m (fun i => f (n + i)%nat).
Proof.
  induction m; simpl.
  - rewrite Nat.add_0_r; lra.
  - rewrite Nat.add_succ_r; simpl. rewrite IHm; ring.
Qed.

Lemma rsum_S n f : rsum (S n) f = rsum n f + f n.
Proof. reflexivity. Qed.

Lemma rsum_S_l n f : rsum (S n) f = f 0%nat + rsum n (fun i => f (S i)).
Proof. change (S n) with (1 + n)%nat. rewrite rsum_split; simpl; lra. Qed.

Lemma rsum_first n f : (0 < n)%nat -> rsum n f = f 0%nat + rsum (n - 1) (fun i => f (S i)).
Proof. intros H. destruct n; [lia|]. rewrite rsum_S_l. do 2 f_equal. lia. Qed.

Lemma rsum_rev n f : rsum n f = rsum n (fun i => f (n - 1 - i)%nat).
Proof.
  induction n; auto.
  rewrite rsum_S, (rsum_S_l n (fun i => _)). rewrite IHn, Rplus_comm. f_equal.
  - f_equal; lia.
  - apply rsum_ext; intros i Hi. f_equal; lia.
Qed.

Lemma rsum_single n k f :
  (k < n)%nat -> (forall i, (i < n)%nat -> i <> k -> f i = 0) -> rsum n f = f k.
Proof.
  induction n; intros Hk H; [lia|]. simpl.
  destruct (Nat.eq_dec k n) as [->|Hne].
  - rewrite rsum_0; [lra|]. intros; apply H; lia.
  - rewrite IHn; [|lia|intros; apply H; lia]. rewrite (H n); [lra|lia|lia].
Qed.

Lemma rsum_le n f g : (forall i, (i < n)%nat -> f i <= g i) -> rsum n f <= rsum n g.
Proof. induction n; simpl; intros H; [lra|]. apply Rplus_le_compat; auto. Qed.

Lemma rsum_nonneg n f : (forall i, (i < n)%nat -> 0 <= f i) -> 0 <= rsum n f.
Proof. induction n; simpl; intros H; [lra|]. specialize (IHn ltac:(auto)); specialize (H n ltac:(auto)); lra. Qed.

Lemma rsum_pos n f : (0 < n)%nat -> (forall i, (i < n)%nat -> 0 < f i) -> 0 < rsum n f.
Proof.
  induction n; intros Hn H; [lia|]. simpl.
  destruct n; [simpl; specialize (H 0%nat ltac:(lia)); lra|].
  assert (0 < rsum (S n) f) by (apply IHn; [lia|auto]).
  specialize (H (S n) ltac:(lia)). lra.
Qed.

Lemma rsum_zero_nonneg n f :
  (forall i, (i < n)%nat -> 0 <= f i) -> rsum n f = 0 -> forall i, (i < n)%nat -> f i = 0.
Proof.
  induction n; intros H E i Hi; [lia|]. simpl in E.
  assert (0 <= rsum n f) by (apply rsum_nonneg; auto).
  assert (0 <= f n) by auto.
  destruct (Nat.eq_dec i n) as [->|]; [lra|]. apply IHn; auto; try lia; lra.
Qed.

(** Sum over a two-level index [i = a * m + b]. *)
Lemma rsum_blocks n m f :
  rsum (n * m) f = rsum n (fun a => rsum m (fun b => f (a * m + b)%nat)).
Proof.
  induction n; auto.
  rewrite (Nat.mul_succ_l n m), rsum_split, IHn. reflexivity.
Qed.

(** Sum over the list of values. *)
Fixpoint lsum (l : list R) : R := match l with [] => 0 | x :: t => x + lsum t end.

Lemma lsum_rsum l : lsum l = rsum (length l) (fun i => nth i l 0).
Proof. induction l; auto. change (length (a :: l)) with (S (length l)). rewrite rsum_S_l. simpl. rewrite IHl. auto. Qed.

Lemma lsum_map_seq f n s : lsum (map f (seq s n)) = rsum n (fun i => f (s + i)%nat).
Proof.
  revert s; induction n; intros s; auto.
  simpl seq; simpl map; rewrite rsum_S_l; simpl lsum. rewrite IHn, Nat.add_0_r. f_equal.
  apply rsum_ext; intros; f_equal; lia.
Qed.

(** Boolean comparisons. *)
Definition Rltb (x y : R) : bool := if Rlt_dec x y then true else false.
Definition Rleb (x y : R) : bool := if Rle_dec x y then true else false.
Definition Reqb (x y : R) : bool := if Req_EM_T x y then true else false.

Lemma Rltb_iff x y : Rltb x y = true <-> x < y.
Proof. unfold Rltb; destruct (Rlt_dec x y); split; auto; discriminate. Qed.
Lemma Rleb_iff x y : Rleb x y = true <-> x <= y.
Proof. unfold Rleb; destruct (Rle_dec x y); split; auto; discriminate. Qed.
Lemma Reqb_iff x y : Reqb x y = true <-> x = y.
Proof. unfold Reqb; destruct (Req_EM_T x y); split; auto; discriminate. Qed.
Lemma Rltb_false x y : Rltb x y = false <-> y <= x.
Proof. unfold Rltb; destruct (Rlt_dec x y); split; try discriminate; try lra; auto. Qed.
Lemma Rleb_false x y : Rleb x y = false <-> y < x.
Proof. unfold Rleb; destruct (Rle_dec x y); split; try discriminate; try lra; auto. Qed.
Lemma Reqb_false x y : Reqb x y = false <-> x <> y.
Proof. unfold Reqb; destruct (Req_EM_T x y); split; try discriminate; try tauto; auto. Qed.
Lemma Rltb_t x y : x < y -> Rltb x y = true. Proof. apply Rltb_iff. Qed.
Lemma Rleb_t x y : x <= y -> Rleb x y = true. Proof. apply Rleb_iff. Qed.
Lemma Reqb_refl x : Reqb x x = true. Proof. apply Reqb_iff; auto. Qed.
Lemma Rltb_f x y : y <= x -> Rltb x y = false. Proof. apply Rltb_false. Qed.
Lemma Rleb_f x y : y < x -> Rleb x y = false. Proof. apply Rleb_false. Qed.
Lemma Reqb_f x y : x <> y -> Reqb x y = false. Proof. apply Reqb_false. Qed.

(** Kronecker delta. *)
Definition delta (i j : nat) : R := if Nat.eqb i j then 1 else 0.

Lemma delta_eq i : delta i i = 1.
Proof. unfold delta; rewrite Nat.eqb_refl; auto. Qed.
Lemma delta_ne i j : i <> j -> delta i j = 0.
Proof. unfold delta; intros H; apply Nat.eqb_neq in H; rewrite H; auto. Qed.

Lemma rsum_delta_l n k f : (k < n)%nat -> rsum n (fun i => delta k i * f i) = f k.
Proof.
  intros H. rewrite (rsum_single n k); auto.
  - rewrite delta_eq; lra.
  - intros i Hi Hne. rewrite delta_ne; auto; lra.
Qed.
Lemma rsum_delta_r n k f : (k < n)%nat -> rsum n (fun i => f i * delta i k) = f k.
Proof.
  intros H. rewrite (rsum_single n k); auto.
  - rewrite delta_eq; lra.
  - intros i Hi Hne. rewrite delta_ne; auto; lra.
Qed.

(** Vectors and matrices as index functions. *)
Definition vec := nat -> R.
Definition mat := nat -> nat -> R.
Definition mvec (n : nat) (A : mat) (x : vec) : vec := fun i => rsum n (fun j => A i j * x j).
Definition mmul (n : nat) (A B : mat) : mat := fun i j => rsum n (fun k => A i k * B k j).

Lemma mmul_assoc n m A B C i j :
  mmul m (mmul n A B) C i j = mmul n A (mmul m B C) i j.
Proof.
  unfold mmul.
  transitivity (rsum m (fun k => rsum n (fun p => A i p * B p k * C k j))).
  - apply rsum_ext; intros k Hk. rewrite <- rsum_scal_r. reflexivity.
  - rewrite rsum_swap. apply rsum_ext; intros p Hp. rewrite <- rsum_scal.
    apply rsum_ext; intros; ring.
Qed.

Lemma mvec_mmul n m A B x i :
  mvec m (mmul n A B) x i = mvec n A (mvec m B x) i.
Proof.
  unfold mvec, mmul.
  transitivity (rsum m (fun k => rsum n (fun p => A i p * B p k * x k))).
  - apply rsum_ext; intros k Hk. rewrite <- rsum_scal_r. reflexivity.
  - rewrite rsum_swap. apply rsum_ext; intros p Hp. rewrite <- rsum_scal.
    apply rsum_ext; intros; ring.
Qed.

(** Position of the first [true], 0 if none: np.argmax on a boolean array. *)
Fixpoint first_true (l : list bool) : option nat :=
  match l with
  | [] => None
  | b :: t => if b then Some 0%nat else option_map S (first_true t)
  end.
Definition argmax_bool (l : list bool) : nat :=
  match first_true l with Some i => i | None => 0%nat end.

Lemma first_true_Some l i :
  first_true l = Some i <->
  (i < length l)%nat /\ nth i l false = true /\ (forall j, (j < i)%nat -> nth j l false = false).
Proof.
  revert i; induction l as [|b t IH]; intros i; simpl.
  - split; [discriminate|intros [H _]; lia].
  - destruct b.
    + split.
      * intros H; inversion H; subst. repeat split; auto; try lia.
      * intros (H1 & H2 & H3). destruct i; auto. specialize (H3 0%nat ltac:(lia)); discriminate.
    + destruct (first_true t) as [k|] eqn:E; simpl.
      * split.
        { intros H; inversion H; subst. destruct (proj1 (IH k) eq_refl) as (A & B & C).
          repeat split; auto; [lia|]. intros [|j] Hj; auto. apply C; lia. }
        { intros (H1 & H2 & H3). destruct i; [discriminate|]. f_equal. f_equal.
          assert (Some k = Some i) as Hk; [|inversion Hk; auto].
          apply IH. repeat split; auto; [lia|]. intros j Hj. apply (H3 (S j)); lia. }
      * split; [discriminate|]. intros (H1 & H2 & H3). destruct i; [discriminate|].
        assert (None = Some i) as Hk; [|discriminate]. apply IH. repeat split; auto; [lia|].
        intros j Hj. apply (H3 (S j)); lia.
Qed.

Lemma first_true_None l : first_true l = None <-> forall i, (i < length l)%nat -> nth i l false = false.
Proof.
  induction l as [|b t IH]; simpl.
  - split; auto; intros; lia.
  - destruct b.
    + split; [discriminate|]. intros H; specialize (H 0%nat ltac:(lia)); discriminate.
    + destruct (first_true t); simpl; split; try discriminate; auto.
      * intros H. assert (Some n = None); [|discriminate]. apply IH. intros i Hi. apply (H (S i)); lia.
      * intros _ [|i] Hi; auto. apply IH; auto; lia.
Qed.

Lemma nth_map_d {A B} (f : A -> B) l i dA dB :
  (i < length l)%nat -> nth i (map f l) dB = f (nth i l dA).
Proof. intros H. rewrite (nth_indep _ dB (f dA)) by (rewrite map_length; auto). apply map_nth. Qed.

Lemma nth_seq_map {B} (f : nat -> B) s n i d : (i < n)%nat -> nth i (map f (seq s n)) d = f (s + i)%nat.
Proof. intros H. rewrite (nth_map_d _ _ _ 0%nat) by (rewrite seq_length; auto). rewrite seq_nth; auto. Qed.

Lemma nth_seq0_map {B} (f : nat -> B) n i d : (i < n)%nat -> nth i (map f (seq 0 n)) d = f i.
Proof. intros H. rewrite nth_seq_map; auto. Qed.

(** Maximum of a non-empty list (np.max). *)
Fixpoint lmax (l : list R) : R :=
  match l with [] => 0 | [x] => x | x :: t => Rmax x (lmax t) end.
