(** Derivative rules for real functions, with plain real arithmetic in the statements. *)
From Coq Require Import Reals Lra Lia List Arith.
From Coquelicot Require Import Coquelicot.
From Verif Require Import Base Spec.
Local Open Scope R_scope.

Definition der (f : R -> R) (x l : R) : Prop := is_derive f x l.

Ltac req := match goal with |- @eq _ ?a ?b => change (@eq R a b) end.

Lemma der_ext (f g : R -> R) (x l : R) : (forall y, f y = g y) -> is_derive f x l -> is_derive g x l.
Proof. intros H; apply is_derive_ext; auto. Qed.
Lemma der_eq (f : R -> R) (x l l' : R) : l = l' -> is_derive f x l -> is_derive f x l'.
Proof. intros ->; auto. Qed.
Lemma der_const (c x : R) : is_derive (fun _ => c) x 0.
Proof. apply (is_derive_const (K:=R_AbsRing) (V:=R_NormedModule) c x). Qed.
Lemma der_id (x : R) : is_derive (fun y => y) x 1.
Proof. apply (is_derive_id (K:=R_AbsRing) x). Qed.
Lemma der_plus (f g : R -> R) (x a b : R) :
  is_derive f x a -> is_derive g x b -> is_derive (fun y => f y + g y) x (a + b).
Proof. intros; apply (is_derive_plus (K:=R_AbsRing) (V:=R_NormedModule) f g x a b); auto. Qed.
Lemma der_minus (f g : R -> R) (x a b : R) :
  is_derive f x a -> is_derive g x b -> is_derive (fun y => f y - g y) x (a - b).
Proof. intros; apply (is_derive_minus (K:=R_AbsRing) (V:=R_NormedModule) f g x a b); auto. Qed.
Lemma der_opp (f : R -> R) (x a : R) : is_derive f x a -> is_derive (fun y => - f y) x (- a).
Proof. intros; apply (is_derive_opp (K:=R_AbsRing) (V:=R_NormedModule) f x a); auto. Qed.
Lemma der_scal (f : R -> R) (c x a : R) : is_derive f x a -> is_derive (fun y => c * f y) x (c * a).
Proof. intros; apply (is_derive_scal f x c a); auto. Qed.
Lemma der_scal_r (f : R -> R) (c x a : R) : is_derive f x a -> is_derive (fun y => f y * c) x (a * c).
Proof.
  intros H. apply (der_ext (fun y => c * f y)); [intros; ring|].
  apply (der_eq _ _ (c * a)); [ring|]. apply der_scal; auto.
Qed.
Lemma der_div (f : R -> R) (c x a : R) : is_derive f x a -> is_derive (fun y => f y / c) x (a / c).
Proof. apply der_scal_r. Qed.
Lemma der_mult (f g : R -> R) (x a b : R) :
  is_derive f x a -> is_derive g x b -> is_derive (fun y => f y * g y) x (a * g x + f x * b).
Proof.
  intros; apply (is_derive_mult (K:=R_AbsRing) f g x a b); auto. intros; apply Rmult_comm.
Qed.
Lemma der_comp (f g : R -> R) (x a b : R) :
  is_derive g x b -> is_derive f (g x) a -> is_derive (fun y => f (g y)) x (b * a).
Proof. intros; apply (is_derive_comp (K:=R_AbsRing) (V:=R_NormedModule) f g x a b); auto. Qed.
Lemma der_exp (g : R -> R) (x b : R) : is_derive g x b -> is_derive (fun y => exp (g y)) x (b * exp (g x)).
Proof. intros. apply der_comp; auto. apply is_derive_exp. Qed.
Lemma der_sum n (f : nat -> R -> R) (x : R) (a : nat -> R) :
  (forall i, (i < n)%nat -> is_derive (f i) x (a i)) ->
  is_derive (fun y => rsum n (fun i => f i y)) x (rsum n a).
Proof.
  induction n; intros H; simpl.
  - apply der_const.
  - apply der_plus; auto.
Qed.
Lemma der_pow n x : is_derive (fun y => y ^ n) x (INR n * x ^ (pred n)).
Proof. auto_derive; auto. rewrite Rmult_1_l. reflexivity. Qed.

(** Equality near a point. *)
Lemma der_ext_loc (f g : R -> R) (x l lo hi : R) :
  lo < x < hi -> (forall y, lo < y < hi -> f y = g y) -> is_derive f x l -> is_derive g x l.
Proof.
  intros Hx H D. apply (is_derive_ext_loc f); auto.
  assert (He : 0 < Rmin (x - lo) (hi - x)) by (apply Rmin_pos; lra).
  exists (mkposreal _ He). intros y Hy. apply H.
  unfold ball in Hy; simpl in Hy; unfold AbsRing_ball, abs, minus, plus, opp in Hy; simpl in Hy.
  apply Rabs_lt_between in Hy.
  pose proof (Rmin_l (x - lo) (hi - x)); pose proof (Rmin_r (x - lo) (hi - x)). lra.
Qed.
