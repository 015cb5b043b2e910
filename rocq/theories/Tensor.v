(** Result type (Python exceptions as values) and a small NumPy: tensors with
    explicit shapes and NumPy's broadcasting rules.  Models no function of /repo;
    it gives the meaning of the NumPy operations used there. *)
From Coq Require Import String Reals Lra Lia List Bool Arith.
From Verif Require Import Base.
Import ListNotations.
Local Open Scope R_scope.

(** Exceptions.  [ENonFinite] stands for a division by zero or another operation
    whose float64 result would be nan or inf. *)
Inductive exn : Type :=
| EValue (msg : string)   (* ValueError raised by the package *)
| EShape                  (* NumPy broadcasting / shape error *)
| EIndex                  (* IndexError *)
| EType                   (* TypeError *)
| ELinAlg                 (* numpy.linalg.LinAlgError *)
| ENonFinite.             (* nan or inf would be produced *)

Inductive res (A : Type) : Type :=
| Ok (a : A)
| Err (e : exn).
Arguments Ok {A} a.
Arguments Err {A} e.

Definition bind {A B} (r : res A) (k : A -> res B) : res B :=
  match r with Ok a => k a | Err e => Err e end.
Notation "'let!' x := e 'in' k" := (bind e (fun x => k))
  (at level 200, x pattern, e at level 100, k at level 200, right associativity).

(** [check c e] raises [e] unless [c]. *)
Definition check (c : bool) (e : exn) : res unit := if c then Ok tt else Err e.

(** Division that reports a zero denominator. *)
Definition cdiv (a b : R) : res R := if Req_EM_T b 0 then Err ENonFinite else Ok (a / b).

Fixpoint rmap {A B} (f : A -> res B) (l : list A) : res (list B) :=
  match l with
  | [] => Ok []
  | x :: t => let! y := f x in let! ys := rmap f t in Ok (y :: ys)
  end.

Record tensor : Type := mkT { shp : list nat; elt : list nat -> R }.

(** Index lists inside a shape. *)
Fixpoint inb (s idx : list nat) : Prop :=
  match s, idx with
  | [], [] => True
  | n :: s', i :: idx' => (i < n)%nat /\ inb s' idx'
  | _, _ => False
  end.

(** Same shape and same elements. *)
Definition teq (A B : tensor) : Prop :=
  shp A = shp B /\ forall idx, inb (shp A) idx -> elt A idx = elt B idx.

(** NumPy broadcasting of one pair of dimensions. *)
Definition bdim (a b : nat) : option nat :=
  if Nat.eqb a b then Some a else if Nat.eqb a 1 then Some b else if Nat.eqb b 1 then Some a else None.

Fixpoint bshape (s t : list nat) : option (list nat) :=
  match s, t with
  | [], [] => Some []
  | a :: s', b :: t' =>
      match bdim a b, bshape s' t' with
      | Some d, Some r => Some (d :: r)
      | _, _ => None
      end
  | _, _ => None
  end.

(** Index into an operand of shape [s] for index [idx] of the broadcast result. *)
Definition bi (n i : nat) : nat := if Nat.eqb n 1 then 0%nat else i.
Fixpoint bidx (s idx : list nat) : list nat :=
  match s, idx with
  | n :: s', i :: idx' => bi n i :: bidx s' idx'
  | _, _ => []
  end.

Definition padl (k : nat) (s : list nat) : list nat := repeat 1%nat (k - length s) ++ s.

(** Elementwise binary operation with broadcasting. *)
Definition bcast2 (f : R -> R -> R) (A B : tensor) : res tensor :=
  let k := Nat.max (length (shp A)) (length (shp B)) in
  match bshape (padl k (shp A)) (padl k (shp B)) with
  | None => Err EShape
  | Some s =>
      Ok (mkT s (fun idx =>
        f (elt A (skipn (k - length (shp A)) (bidx (padl k (shp A)) idx)))
          (elt B (skipn (k - length (shp B)) (bidx (padl k (shp B)) idx)))))
  end.

Definition tadd := bcast2 Rplus.
Definition tsub := bcast2 Rminus.
Definition tmul := bcast2 Rmult.
Definition tdiv := bcast2 Rdiv.

Fixpoint list_eqb (a b : list nat) : bool :=
  match a, b with
  | [], [] => true
  | x :: a', y :: b' => Nat.eqb x y && list_eqb a' b'
  | _, _ => false
  end.

Lemma list_eqb_iff a b : list_eqb a b = true <-> a = b.
Proof.
  revert b; induction a as [|x a IH]; destruct b as [|y b]; simpl; split; intros H; try discriminate; auto.
  - apply andb_prop in H as [H1 H2]. apply Nat.eqb_eq in H1. apply IH in H2. subst; auto.
  - inversion H; subst. rewrite Nat.eqb_refl. simpl. apply IH; auto.
Qed.

(** In-place [A += B] etc.: the broadcast result must have the shape of [A]. *)
Definition iop (f : R -> R -> R) (A B : tensor) : res tensor :=
  let! C := bcast2 f A B in
  if list_eqb (shp C) (shp A) then Ok C else Err EShape.

Definition tmap (f : R -> R) (A : tensor) : tensor := mkT (shp A) (fun idx => f (elt A idx)).
Definition tscal (c : R) : tensor -> tensor := tmap (Rmult c).

(** 0-d and 1-d arrays. *)
Definition t0 (r : R) : tensor := mkT [] (fun _ => r).
Definition t1 (l : list R) : tensor := mkT [length l] (fun idx => nth (hd 0%nat idx) l 0).
Definition tvec (n : nat) (v : vec) : tensor := mkT [n] (fun idx => v (hd 0%nat idx)).
Definition tmat (n m : nat) (A : mat) : tensor :=
  mkT [n; m] (fun idx => A (nth 0 idx 0%nat) (nth 1 idx 0%nat)).

(** Insert an axis of length 1 at position [k] (None / np.newaxis in an index). *)
Definition tnew (k : nat) (A : tensor) : tensor :=
  mkT (firstn k (shp A) ++ 1%nat :: skipn k (shp A))
      (fun idx => elt A (firstn k idx ++ skipn (S k) idx)).

(** Fancy indexing of axis [k] with a list of indices: [A[..., ids, ...]]. *)
Definition ttake (k : nat) (ids : list nat) (A : tensor) : res tensor :=
  if forallb (fun i => Nat.ltb i (nth k (shp A) 0%nat)) ids
  then Ok (mkT (firstn k (shp A) ++ length ids :: skipn (S k) (shp A))
           (fun idx => elt A (firstn k idx ++ nth (nth k idx 0%nat) ids 0%nat :: skipn (S k) idx)))
  else Err EIndex.

(** Slice [a : a+n] of axis [k] (used only with a range inside the axis). *)
Definition tslice (k a n : nat) (A : tensor) : tensor :=
  mkT (firstn k (shp A) ++ n :: skipn (S k) (shp A))
      (fun idx => elt A (firstn k idx ++ (a + nth k idx 0%nat)%nat :: skipn (S k) idx)).

(** np.squeeze. *)
Definition sq_shape (s : list nat) : list nat := filter (fun n => negb (Nat.eqb n 1)) s.
Fixpoint unsq (s idx : list nat) : list nat :=
  match s with
  | [] => []
  | n :: s' => if Nat.eqb n 1 then 0%nat :: unsq s' idx
               else hd 0%nat idx :: unsq s' (tl idx)
  end.
Definition tsqueeze (A : tensor) : tensor := mkT (sq_shape (shp A)) (fun idx => elt A (unsq (shp A) idx)).

(** Concatenation of two arrays along axis [k]: the other dimensions must agree. *)
Definition tconcat (k : nat) (A B : tensor) : res tensor :=
  let na := nth k (shp A) 0%nat in
  let nb := nth k (shp B) 0%nat in
  if (list_eqb (firstn k (shp A)) (firstn k (shp B)) &&
      list_eqb (skipn (S k) (shp A)) (skipn (S k) (shp B)))%bool
  then Ok (mkT (firstn k (shp A) ++ (na + nb)%nat :: skipn (S k) (shp A))
       (fun idx => let i := nth k idx 0%nat in
          if Nat.ltb i na then elt A idx
          else elt B (firstn k idx ++ (i - na)%nat :: skipn (S k) idx)))
  else Err EShape.

(** [v @ A] for a 1-d [v] of length [n] and a 2-d [A] of shape (n, m). *)
Definition tvm (n : nat) (v : vec) (A : tensor) : res tensor :=
  match shp A with
  | [p; m] => if Nat.eqb p n
              then Ok (mkT [m] (fun idx => rsum n (fun i => v i * elt A [i; hd 0%nat idx])))
              else Err EShape
  | _ => Err EShape
  end.

(** ** Lemmas *)

Lemma bdim_refl n : bdim n n = Some n.
Proof. unfold bdim; rewrite Nat.eqb_refl; auto. Qed.
Lemma bdim_1_l n : bdim 1 n = Some n.
Proof. unfold bdim. destruct (Nat.eqb_spec 1 n); subst; auto. Qed.
Lemma bdim_1_r n : bdim n 1 = Some n.
Proof. unfold bdim. destruct (Nat.eqb_spec n 1); subst; auto. Qed.
Lemma bdim_ne a b : a <> b -> a <> 1%nat -> b <> 1%nat -> bdim a b = None.
Proof. intros. unfold bdim. rewrite (proj2 (Nat.eqb_neq a b)), (proj2 (Nat.eqb_neq a 1)), (proj2 (Nat.eqb_neq b 1)); auto. Qed.
Lemma bi_lt n i : (i < n)%nat -> bi n i = i.
Proof. unfold bi. destruct (Nat.eqb_spec n 1); subst; auto; lia. Qed.
Lemma bi_1 i : bi 1 i = 0%nat.
Proof. reflexivity. Qed.
Lemma bi_S n i : bi (S (S n)) i = i.
Proof. reflexivity. Qed.

Lemma forallb_lt ids n : (forall i, In i ids -> (i < n)%nat) -> forallb (fun i => Nat.ltb i n) ids = true.
Proof. intros H. apply forallb_forall. intros i Hi. apply Nat.ltb_lt; auto. Qed.

Lemma list_eqb_refl s : list_eqb s s = true.
Proof. induction s; simpl; auto. rewrite Nat.eqb_refl; auto. Qed.

Lemma rmap_Ok {A B} (f : A -> res B) (g : A -> B) l :
  (forall x, In x l -> f x = Ok (g x)) -> rmap f l = Ok (map g l).
Proof.
  induction l; intros H; auto. simpl. rewrite H by (left; auto). simpl.
  rewrite IHl by (intros; apply H; right; auto). auto.
Qed.

Lemma bind_Ok {A B} (r : res A) (k : A -> res B) b :
  bind r k = Ok b -> exists a, r = Ok a /\ k a = Ok b.
Proof. destruct r; simpl; intros H; [eauto|discriminate]. Qed.

Lemma check_Ok c e u : check c e = Ok u -> c = true.
Proof. unfold check; destruct c; auto; discriminate. Qed.

Lemma cdiv_Ok a b c : cdiv a b = Ok c -> b <> 0 /\ c = a / b.
Proof. unfold cdiv. destruct (Req_EM_T b 0); intros H; inversion H; auto. Qed.
Lemma cdiv_ok a b : b <> 0 -> cdiv a b = Ok (a / b).
Proof. unfold cdiv. destruct (Req_EM_T b 0); tauto. Qed.
