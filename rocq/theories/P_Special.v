(** Parity of associated Legendre functions. *)
From Coq Require Import String Reals Lra Lia List Bool Arith ZArith.
From Coquelicot Require Import Coquelicot.
From Verif Require Import Base Tensor Spec Calc M_LinAlg.
Import ListNotations.
Local Open Scope R_scope.

Lemma peval_padd0 p q x : peval (padd0 p q) x = peval p x + peval q x.
Proof.
  revert q; induction p as [|a p IH]; intros [|b q]; simpl; try lra. rewrite IH; ring.
Qed.
Lemma peval_smul c p x : peval (map (Rmult c) p) x = c * peval p x.
Proof. induction p; simpl; [lra|]. rewrite IHp; ring. Qed.

Lemma legendre_rec k x :
  legendre (S (S k)) x = (2 * INR k + 3) / (INR k + 2) * (x * legendre (S k) x) - (INR k + 1) / (INR k + 2) * legendre k x.
Proof.
  unfold legendre, legendre_poly. cbn [leg2]. destruct (leg2 k) as [a b]. cbn [fst].
  rewrite peval_padd0, !peval_smul. cbn [peval].
  pose proof (pos_INR k). field. lra.
Qed.
Lemma legendre_0 x : legendre 0 x = 1. Proof. unfold legendre; simpl; ring. Qed.
Lemma legendre_1 x : legendre 1 x = x. Proof. unfold legendre; simpl; ring. Qed.

Lemma legendre_parity2 k x : legendre k (- x) = (-1) ^ k * legendre k x /\
   legendre (S k) (- x) = (-1) ^ (S k) * legendre (S k) x.
Proof.
  induction k as [|k [IH1 IH2]].
  - rewrite !legendre_0, !legendre_1. split; simpl; ring.
  - split; auto. rewrite !legendre_rec, IH1, IH2. pose proof (pos_INR k). simpl pow. field. lra.
Qed.
Lemma legendre_parity k x : legendre k (- x) = (-1) ^ k * legendre k x.
Proof. apply legendre_parity2. Qed.

Lemma legendre_at_1 k : legendre k 1 = 1.
Proof.
  enough (legendre k 1 = 1 /\ legendre (S k) 1 = 1) by tauto.
  induction k as [|k [IH1 IH2]].
  - rewrite legendre_0, legendre_1. auto.
  - split; auto. rewrite legendre_rec, IH1, IH2. pose proof (pos_INR k). field. lra.
Qed.

Lemma pderiv_from_rec n p x : peval (pderiv_from (S n) p) x = peval (pderiv_from n p) x + peval p x.
Proof.
  revert n; induction p as [|c p IH]; intros n; [simpl; ring|].
  cbn [pderiv_from peval]. rewrite (IH (S n)), S_INR. ring.
Qed.
Lemma pderiv_from_0 p x : peval (pderiv_from 0 p) x = x * peval (pderiv p) x.
Proof. destruct p as [|c p]; cbn [pderiv_from pderiv tl peval]; simpl; ring. Qed.

Lemma pderiv_correct p x : is_derive (peval p) x (peval (pderiv p) x).
Proof.
  induction p as [|c p IH].
  - apply der_const.
  - apply (der_ext (fun y => c + y * peval p y)); [reflexivity|].
    eapply der_eq; [|apply der_plus; [apply der_const|apply der_mult; [apply der_id|exact IH]]].
    unfold pderiv at 2. cbn [tl]. rewrite pderiv_from_rec, pderiv_from_0. ring.
Qed.

Lemma pderiv_parity p s : (forall x, peval p (- x) = s * peval p x) ->
  forall x, peval (pderiv p) (- x) = - s * peval (pderiv p) x.
Proof.
  intros H x.
  assert (D1 : is_derive (fun y => peval p (- y)) x (-1 * peval (pderiv p) (- x))).
  { apply der_comp; [|apply pderiv_correct]. eapply der_eq; [|apply der_opp, der_id]. ring. }
  assert (D2 : is_derive (fun y => peval p (- y)) x (s * peval (pderiv p) x)).
  { apply (der_ext (fun y => s * peval p y)); [intros; auto|]. apply der_scal, pderiv_correct. }
  apply is_derive_unique in D1. apply is_derive_unique in D2. rewrite D1 in D2. lra.
Qed.

Lemma pderiv_n_parity m k x : peval (pderiv_n m (legendre_poly k)) (- x)
  = (-1) ^ (m + k) * peval (pderiv_n m (legendre_poly k)) x.
Proof.
  revert x; induction m; intros x.
  - apply legendre_parity.
  - cbn [pderiv_n]. rewrite (pderiv_parity _ _ IHm x). simpl pow. ring.
Qed.

Lemma lpmv_parity m l x : lpmv m l (- x) = (-1) ^ (m + l) * lpmv m l x.
Proof.
  unfold lpmv. rewrite pderiv_n_parity. replace ((- x) ^ 2) with (x ^ 2) by ring. ring.
Qed.

Lemma lpmv_0 l x : lpmv 0 l x = legendre l x.
Proof. unfold lpmv. simpl. unfold legendre. ring. Qed.
Lemma poch_0 l : poch_term 0 l = 1.
Proof. unfold poch_term. rewrite Nat.sub_0_r, Nat.add_0_r. field. apply INR_fact_neq_0. Qed.
