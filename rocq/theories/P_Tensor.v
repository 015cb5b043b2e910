(** Reasoning about tensors: descriptions by rank and the broadcasting of operands
    whose dimensions agree or are 1. *)
From Coq Require Import String Reals Lra Lia List Bool Arith.
From Verif Require Import Base Tensor.
Import ListNotations.
Local Open Scope R_scope.

Definition T0 (A : tensor) (r : R) : Prop := shp A = [] /\ elt A [] = r.
Definition T1 (A : tensor) (n : nat) (f : nat -> R) : Prop :=
  shp A = [n] /\ forall i, (i < n)%nat -> elt A [i] = f i.
Definition T2 (A : tensor) (n m : nat) (f : nat -> nat -> R) : Prop :=
  shp A = [n; m] /\ forall i j, (i < n)%nat -> (j < m)%nat -> elt A [i; j] = f i j.
Definition T3 (A : tensor) (n m p : nat) (f : nat -> nat -> nat -> R) : Prop :=
  shp A = [n; m; p] /\ forall i j k, (i < n)%nat -> (j < m)%nat -> (k < p)%nat -> elt A [i; j; k] = f i j k.
Definition T4 (A : tensor) (n m p q : nat) (f : nat -> nat -> nat -> nat -> R) : Prop :=
  shp A = [n; m; p; q] /\ forall i j k h, (i < n)%nat -> (j < m)%nat -> (k < p)%nat -> (h < q)%nat -> elt A [i; j; k; h] = f i j k h.

(** Dimensions [a] and [b] broadcast to [d]. *)
Definition bc (a b d : nat) : Prop := (a = d /\ b = d) \/ (a = 1%nat /\ b = d) \/ (a = d /\ b = 1%nat).
Lemma bc_bdim a b d : bc a b d -> bdim a b = Some d.
Proof. intros [[-> ->]|[[-> ->]|[-> ->]]]; [apply bdim_refl|apply bdim_1_l|apply bdim_1_r]. Qed.
Lemma bdim_bc a b d : bdim a b = Some d -> bc a b d.
Proof.
  unfold bdim, bc. destruct (Nat.eqb_spec a b); [intros H; inversion H; subst; auto|].
  destruct (Nat.eqb_spec a 1); [intros H; inversion H; subst; auto|].
  destruct (Nat.eqb_spec b 1); [intros H; inversion H; subst; auto|discriminate].
Qed.
Lemma bc_same d : bc d d d. Proof. left; auto. Qed.
Lemma bc_1l d : bc 1 d d. Proof. right; left; auto. Qed.
Lemma bc_1r d : bc d 1 d. Proof. right; right; auto. Qed.

Lemma padl_same k s : length s = k -> padl k s = s.
Proof. intros <-. unfold padl. rewrite Nat.sub_diag. reflexivity. Qed.

Lemma bcast2_1 f A B n m d : shp A = [n] -> shp B = [m] -> bc n m d ->
  exists C, bcast2 f A B = Ok C /\ shp C = [d] /\
   forall i, elt C [i] = f (elt A [bi n i]) (elt B [bi m i]).
Proof.
  intros HA HB H. unfold bcast2. rewrite HA, HB. cbn [length Nat.max padl Nat.sub repeat app bshape]. unfold padl; cbn.
  rewrite (bc_bdim _ _ _ H). eexists. split; [reflexivity|]. split; [reflexivity|]. reflexivity.
Qed.
Lemma bcast2_2 f A B n m n' m' d e : shp A = [n; m] -> shp B = [n'; m'] -> bc n n' d -> bc m m' e ->
  exists C, bcast2 f A B = Ok C /\ shp C = [d; e] /\
   forall i j, elt C [i; j] = f (elt A [bi n i; bi m j]) (elt B [bi n' i; bi m' j]).
Proof.
  intros HA HB H H'. unfold bcast2. rewrite HA, HB. unfold padl; cbn.
  rewrite (bc_bdim _ _ _ H), (bc_bdim _ _ _ H'). eexists. split; [reflexivity|]. split; reflexivity.
Qed.
Lemma bcast2_21 f A B n m m' e : shp A = [n; m] -> shp B = [m'] -> bc m m' e ->
  exists C, bcast2 f A B = Ok C /\ shp C = [n; e] /\
   forall i j, elt C [i; j] = f (elt A [bi n i; bi m j]) (elt B [bi m' j]).
Proof.
  intros HA HB H'. unfold bcast2. rewrite HA, HB. unfold padl; cbn.
  rewrite bdim_1_r, (bc_bdim _ _ _ H'). eexists. split; [reflexivity|]. split; reflexivity.
Qed.
Lemma bcast2_12 f A B n m m' e : shp A = [m'] -> shp B = [n; m] -> bc m' m e ->
  exists C, bcast2 f A B = Ok C /\ shp C = [n; e] /\
   forall i j, elt C [i; j] = f (elt A [bi m' j]) (elt B [bi n i; bi m j]).
Proof.
  intros HA HB H'. unfold bcast2. rewrite HA, HB. unfold padl; cbn.
  rewrite bdim_1_l, (bc_bdim _ _ _ H'). eexists. split; [reflexivity|]. split; reflexivity.
Qed.
Lemma bcast2_3 f A B n m p n' m' p' d e g : shp A = [n; m; p] -> shp B = [n'; m'; p'] -> bc n n' d -> bc m m' e -> bc p p' g ->
  exists C, bcast2 f A B = Ok C /\ shp C = [d; e; g] /\
   forall i j k, elt C [i; j; k] = f (elt A [bi n i; bi m j; bi p k]) (elt B [bi n' i; bi m' j; bi p' k]).
Proof.
  intros HA HB H H' H2. unfold bcast2. rewrite HA, HB. unfold padl; cbn.
  rewrite (bc_bdim _ _ _ H), (bc_bdim _ _ _ H'), (bc_bdim _ _ _ H2). eexists. split; [reflexivity|]. split; reflexivity.
Qed.
Lemma bcast2_32 f A B n m p m' p' e g : shp A = [n; m; p] -> shp B = [m'; p'] -> bc m m' e -> bc p p' g ->
  exists C, bcast2 f A B = Ok C /\ shp C = [n; e; g] /\
  forall i j k, elt C [i; j; k] = f (elt A [bi n i; bi m j; bi p k]) (elt B [bi m' j; bi p' k]).
Proof.
  intros HA HB H1 H2. unfold bcast2. rewrite HA, HB. unfold padl; cbn. rewrite bdim_1_r, (bc_bdim _ _ _ H1), (bc_bdim _ _ _ H2).
  eexists. split; [reflexivity|]. split; reflexivity.
Qed.
Lemma bcast2_20 f A B n m : shp A = [n; m] -> shp B = [] ->
  exists C, bcast2 f A B = Ok C /\ shp C = [n; m] /\ forall i j, elt C [i; j] = f (elt A [bi n i; bi m j]) (elt B []).
Proof.
  intros HA HB. unfold bcast2. rewrite HA, HB. unfold padl; cbn. rewrite !bdim_1_r.
  eexists. split; [reflexivity|]. split; reflexivity.
Qed.
Lemma bcast2_10 f A B n : shp A = [n] -> shp B = [] ->
  exists C, bcast2 f A B = Ok C /\ shp C = [n] /\ forall i, elt C [i] = f (elt A [bi n i]) (elt B []).
Proof.
  intros HA HB. unfold bcast2. rewrite HA, HB. unfold padl; cbn. rewrite !bdim_1_r.
  eexists. split; [reflexivity|]. split; reflexivity.
Qed.
Lemma bcast2_4 f A B n m p q n' m' p' q' d e g h : shp A = [n; m; p; q] -> shp B = [n'; m'; p'; q'] ->
  bc n n' d -> bc m m' e -> bc p p' g -> bc q q' h ->
  exists C, bcast2 f A B = Ok C /\ shp C = [d; e; g; h] /\
   forall i j k r, elt C [i; j; k; r] = f (elt A [bi n i; bi m j; bi p k; bi q r]) (elt B [bi n' i; bi m' j; bi p' k; bi q' r]).
Proof.
  intros HA HB H H' H2 H3. unfold bcast2. rewrite HA, HB. unfold padl; cbn.
  rewrite (bc_bdim _ _ _ H), (bc_bdim _ _ _ H'), (bc_bdim _ _ _ H2), (bc_bdim _ _ _ H3). eexists. split; [reflexivity|]. split; reflexivity.
Qed.
(** A scalar operand. *)
Lemma bidx_ones k idx : length idx = k -> forall s, bidx (repeat 1%nat k ++ s) idx = repeat 0%nat k.
Proof.
  revert idx; induction k; intros [|i idx] H s; simpl in *; try discriminate; auto.
  - destruct s; reflexivity.
  - f_equal. apply IHk. lia.
Qed.

(** Failure to broadcast. *)
Lemma bcast2_21_err f A B n m m' : shp A = [n; m] -> shp B = [m'] -> m <> m' -> m <> 1%nat -> m' <> 1%nat ->
  bcast2 f A B = Err EShape.
Proof.
  intros HA HB H1 H2 H3. unfold bcast2. rewrite HA, HB. unfold padl; cbn.
  rewrite bdim_1_r, bdim_ne; auto.
Qed.
Lemma bcast2_1_err f A B n m : shp A = [n] -> shp B = [m] -> n <> m -> n <> 1%nat -> m <> 1%nat ->
  bcast2 f A B = Err EShape.
Proof.
  intros HA HB H1 H2 H3. unfold bcast2. rewrite HA, HB. unfold padl; cbn. rewrite bdim_ne; auto.
Qed.
Lemma bcast2_2_err f A B n n' m m' : shp A = [n; m] -> shp B = [n'; m'] -> m <> m' -> m <> 1%nat -> m' <> 1%nat ->
  bcast2 f A B = Err EShape.
Proof.
  intros HA HB H1 H2 H3. unfold bcast2. rewrite HA, HB. unfold padl; cbn. rewrite (bdim_ne m m') by auto.
  destruct (bdim n n'); auto.
Qed.

Lemma T1_t1 l : T1 (t1 l) (length l) (fun i => nth i l 0).
Proof. split; reflexivity. Qed.
Lemma T2_ext A n m f g : (forall i j, (i < n)%nat -> (j < m)%nat -> f i j = g i j) -> T2 A n m f -> T2 A n m g.
Proof. intros H [S E]. split; auto. intros. rewrite E by auto. apply H; auto. Qed.
Lemma T1_ext A n f g : (forall i, (i < n)%nat -> f i = g i) -> T1 A n f -> T1 A n g.
Proof. intros H [S E]. split; auto. intros. rewrite E by auto. apply H; auto. Qed.
Lemma T3_ext A n m p f g : (forall i j k, (i < n)%nat -> (j < m)%nat -> (k < p)%nat -> f i j k = g i j k) -> T3 A n m p f -> T3 A n m p g.
Proof. intros H [S E]. split; auto. intros. rewrite E by auto. apply H; auto. Qed.

(** Elementwise operation on operands of equal shape. *)
Lemma T1_op f A B n a b : T1 A n a -> T1 B n b -> exists C, bcast2 f A B = Ok C /\ T1 C n (fun i => f (a i) (b i)).
Proof.
  intros [SA EA] [SB EB]. destruct (bcast2_1 f A B n n n SA SB (bc_same n)) as (C & H & S & E).
  exists C. split; auto. split; auto. intros i Hi. rewrite E, !bi_lt, EA, EB by auto. reflexivity.
Qed.
Lemma T2_op f A B n m a b : T2 A n m a -> T2 B n m b -> exists C, bcast2 f A B = Ok C /\ T2 C n m (fun i j => f (a i j) (b i j)).
Proof.
  intros [SA EA] [SB EB]. destruct (bcast2_2 f A B n m n m n m SA SB (bc_same n) (bc_same m)) as (C & H & S & E).
  exists C. split; auto. split; auto. intros i j Hi Hj. rewrite E, !bi_lt, EA, EB by auto. reflexivity.
Qed.
Lemma T3_op f A B n m p a b : T3 A n m p a -> T3 B n m p b -> exists C, bcast2 f A B = Ok C /\ T3 C n m p (fun i j k => f (a i j k) (b i j k)).
Proof.
  intros [SA EA] [SB EB]. destruct (bcast2_3 f A B n m p n m p n m p SA SB (bc_same n) (bc_same m) (bc_same p)) as (C & H & S & E).
  exists C. split; auto. split; auto. intros i j k Hi Hj Hk. rewrite E, !bi_lt, EA, EB by auto. reflexivity.
Qed.
(** Matrix with a row vector, [v[None, :]]. *)
Lemma T2_row f A B n m a b : T2 A n m a -> T1 B m b -> exists C, bcast2 f A (tnew 0 B) = Ok C /\ T2 C n m (fun i j => f (a i j) (b j)).
Proof.
  intros [SA EA] [SB EB].
  assert (SB' : shp (tnew 0 B) = [1%nat; m]) by (unfold tnew; cbn; rewrite SB; reflexivity).
  destruct (bcast2_2 f A (tnew 0 B) n m 1 m n m SA SB' (bc_1r n) (bc_same m)) as (C & H & S & E).
  exists C. split; auto. split; auto. intros i j Hi Hj. rewrite E, (bi_lt n i), !(bi_lt m j), EA by auto. cbn. rewrite EB by auto. reflexivity.
Qed.
(** Matrix with a 1-d array of the row length or of length 1. *)
Lemma T2_T1 f A B n m k a b : T2 A n m a -> T1 B k b -> (k = m \/ k = 1%nat) ->
  exists C, bcast2 f A B = Ok C /\ T2 C n m (fun i j => f (a i j) (b (bi k j))).
Proof.
  intros [SA EA] [SB EB] Hk.
  assert (Hb : bc m k m) by (destruct Hk as [-> | ->]; [apply bc_same|apply bc_1r]).
  destruct (bcast2_21 f A B n m k m SA SB Hb) as (C & H & S & E).
  exists C. split; auto. split; auto. intros i j Hi Hj. rewrite E, (bi_lt n i), (bi_lt m j), EA by auto.
  rewrite EB; [reflexivity|]. destruct Hk as [-> | ->]; [rewrite bi_lt; auto|rewrite bi_1; lia].
Qed.
Lemma T1_T1 f A B n k a b : T1 A n a -> T1 B k b -> (k = n \/ k = 1%nat) ->
  exists C, bcast2 f A B = Ok C /\ T1 C n (fun i => f (a i) (b (bi k i))).
Proof.
  intros [SA EA] [SB EB] Hk.
  assert (Hb : bc n k n) by (destruct Hk as [-> | ->]; [apply bc_same|apply bc_1r]).
  destruct (bcast2_1 f A B n k n SA SB Hb) as (C & H & S & E).
  exists C. split; auto. split; auto. intros i Hi. rewrite E, (bi_lt n i), EA by auto.
  rewrite EB; [reflexivity|]. destruct Hk as [-> | ->]; [rewrite bi_lt; auto|rewrite bi_1; lia].
Qed.

(** Fancy indexing. *)
Lemma T2_take1 A n m f ids : T2 A n m f -> (forall i, In i ids -> (i < m)%nat) ->
  exists C, ttake 1 ids A = Ok C /\ T2 C n (length ids) (fun i j => f i (nth j ids 0%nat)).
Proof.
  intros [SA EA] H. unfold ttake. rewrite SA. cbn [nth]. rewrite forallb_lt by auto.
  eexists. split; [reflexivity|]. split; [reflexivity|].
  intros i j Hi Hj. cbn. apply EA; auto. apply H, nth_In; auto.
Qed.
Lemma T2_take0 A n m f ids : T2 A n m f -> (forall i, In i ids -> (i < n)%nat) ->
  exists C, ttake 0 ids A = Ok C /\ T2 C (length ids) m (fun i j => f (nth i ids 0%nat) j).
Proof.
  intros [SA EA] H. unfold ttake. rewrite SA. cbn [nth]. rewrite forallb_lt by auto.
  eexists. split; [reflexivity|]. split; [reflexivity|].
  intros i j Hi Hj. cbn. apply EA; auto. apply H, nth_In; auto.
Qed.
Lemma T3_take0 A n m p f ids : T3 A n m p f -> (forall i, In i ids -> (i < n)%nat) ->
  exists C, ttake 0 ids A = Ok C /\ T3 C (length ids) m p (fun i j k => f (nth i ids 0%nat) j k).
Proof.
  intros [SA EA] H. unfold ttake. rewrite SA. cbn [nth]. rewrite forallb_lt by auto.
  eexists. split; [reflexivity|]. split; [reflexivity|].
  intros i j k Hi Hj Hk. cbn. apply EA; auto. apply H, nth_In; auto.
Qed.
Lemma T1_take0 A n f ids : T1 A n f -> (forall i, In i ids -> (i < n)%nat) ->
  exists C, ttake 0 ids A = Ok C /\ T1 C (length ids) (fun i => f (nth i ids 0%nat)).
Proof.
  intros [SA EA] H. unfold ttake. rewrite SA. cbn [nth]. rewrite forallb_lt by auto.
  eexists. split; [reflexivity|]. split; [reflexivity|].
  intros i Hi. cbn. apply EA; auto. apply H, nth_In; auto.
Qed.
