(** Fourier coefficients of a finite cosine series. *)
From Coq Require Import Reals Lra Lia List Bool Arith.
From Coquelicot Require Import Coquelicot.
From Verif Require Import Base Calc.
Local Open Scope R_scope.

Lemma is_RInt_rsum n (f : nat -> R -> R) a b (v : nat -> R) :
  (forall i, (i < n)%nat -> is_RInt (f i) a b (v i)) -> is_RInt (fun x => rsum n (fun i => f i x)) a b (rsum n v).
Proof.
  induction n; intros H; cbn.
  - assert (X : is_RInt (V:=R_NormedModule) (fun _ => 0) a b (scal (b - a) 0)) by apply (is_RInt_const (V:=R_NormedModule)).
    eapply (eq_ind _ (fun z : R => is_RInt _ _ _ z) X). unfold scal; simpl. unfold mult; simpl. ring.
  - apply (is_RInt_plus (V:=R_NormedModule)); auto.
Qed.
Lemma sin_2kPI k : sin (INR k * (2 * PI)) = 0.
Proof.
  induction k; [cbn; rewrite Rmult_0_l; apply sin_0|].
  rewrite S_INR. replace ((INR k + 1) * (2 * PI)) with (INR k * (2 * PI) + 2 * PI) by ring.
  rewrite sin_plus, IHk, sin_2PI, cos_2PI. ring.
Qed.
Lemma cos_2kPI k : cos (INR k * (2 * PI)) = 1.
Proof.
  induction k; [cbn; rewrite Rmult_0_l; apply cos_0|].
  rewrite S_INR. replace ((INR k + 1) * (2 * PI)) with (INR k * (2 * PI) + 2 * PI) by ring.
  rewrite cos_plus, IHk, sin_2PI, cos_2PI. ring.
Qed.
Lemma sin_shift k x : sin (INR k * (x - 2 * PI)) = sin (INR k * x).
Proof. rewrite Rmult_minus_distr_l, sin_minus, sin_2kPI, cos_2kPI. ring. Qed.
Lemma cos_shift k x : cos (INR k * (x - 2 * PI)) = cos (INR k * x).
Proof. rewrite Rmult_minus_distr_l, cos_minus, sin_2kPI, cos_2kPI. ring. Qed.

(** Mean of cos (k (c - x)) over a period. *)
Lemma int_cos k c : is_RInt (fun x => cos (INR k * (c - x))) 0 (2 * PI) (if Nat.eqb k 0 then 2 * PI else 0).
Proof.
  destruct k as [|k].
  - cbn [Nat.eqb]. apply (is_RInt_ext (V:=R_NormedModule) (fun _ => 1)).
    { intros x _. cbn. rewrite Rmult_0_l, cos_0. reflexivity. }
    assert (X : is_RInt (V:=R_NormedModule) (fun _ => 1) 0 (2 * PI) (scal (2 * PI - 0) 1)) by apply (is_RInt_const (V:=R_NormedModule)).
    eapply (eq_ind _ (fun z : R => is_RInt _ _ _ z) X). unfold scal; simpl. unfold mult; simpl. ring.
  - cbn [Nat.eqb]. assert (Hk : INR (S k) <> 0) by (apply not_0_INR; lia). set (q := INR (S k)) in *.
    assert (HI : is_RInt (fun x => cos (q * (c - x))) 0 (2 * PI)
       (minus ((fun x => - sin (q * (c - x)) / q) (2 * PI)) ((fun x => - sin (q * (c - x)) / q) 0))).
    { apply (is_RInt_derive (V:=R_CompleteNormedModule) (fun x => - sin (q * (c - x)) / q)).
      - intros x _. auto_derive; auto. unfold Rminus. field. auto.
      - intros x _. apply (ex_derive_continuous (K:=R_AbsRing) (V:=R_NormedModule)). auto_derive; auto. }
    eapply (eq_ind _ (fun z : R => is_RInt _ _ _ z) HI). unfold minus, plus, opp; simpl. unfold q. rewrite sin_shift.
    replace (c - 0) with c by ring. ring.
Qed.

Lemma cos_prod m k y : cos (INR m * y) * cos (INR k * y) = (cos (INR (m + k) * y) + cos (INR (Nat.max m k - Nat.min m k) * y)) / 2.
Proof.
  rewrite plus_INR. assert (E : cos (INR (Nat.max m k - Nat.min m k) * y) = cos (INR m * y - INR k * y)).
  { rewrite minus_INR by lia. destruct (Nat.le_ge_cases m k) as [H|H].
    - rewrite Nat.max_r, Nat.min_l by auto. rewrite <- cos_neg. f_equal. ring.
    - rewrite Nat.max_l, Nat.min_r by auto. f_equal. ring. }
  rewrite E. replace ((INR m + INR k) * y) with (INR m * y + INR k * y) by ring. rewrite cos_plus, cos_minus. field.
Qed.
Lemma int_cos_cos m k c : is_RInt (fun x => cos (INR m * (c - x)) * cos (INR k * (c - x))) 0 (2 * PI)
  (if Nat.eqb m k then (if Nat.eqb m 0 then 2 * PI else PI) else 0).
Proof.
  apply (is_RInt_ext (V:=R_NormedModule) (fun x => / 2 * (cos (INR (m + k) * (c - x)) + cos (INR (Nat.max m k - Nat.min m k) * (c - x))))).
  { intros x _. rewrite cos_prod. unfold Rdiv. simpl. ring. }
  pose proof (int_cos (m + k) c) as H1. pose proof (int_cos (Nat.max m k - Nat.min m k) c) as H2.
  pose proof (is_RInt_scal (V:=R_NormedModule) _ _ _ (/2) _ (is_RInt_plus (V:=R_NormedModule) _ _ _ _ _ _ H1 H2)) as H3.
  eapply (eq_ind _ (fun z : R => is_RInt _ _ _ z) H3). unfold scal, plus; simpl. unfold mult; simpl.
  destruct (Nat.eqb_spec m k) as [->|Hne].
  - rewrite Nat.max_id, Nat.min_id, Nat.sub_diag. cbn [Nat.eqb].
    destruct (Nat.eqb_spec k 0) as [->|Hk]; [cbn; field|]. rewrite (proj2 (Nat.eqb_neq (k + k) 0)) by lia. field.
  - rewrite (proj2 (Nat.eqb_neq (m + k) 0)) by lia. rewrite (proj2 (Nat.eqb_neq (Nat.max m k - Nat.min m k) 0)) by lia. field.
Qed.

(** Coefficient [k] of the series. *)
Lemma series_coeff n (u : nat -> R) c k : (k < n)%nat ->
  is_RInt (fun x => rsum n (fun m => u m * cos (INR m * (c - x))) * cos (INR k * (c - x))) 0 (2 * PI)
    (u k * (if Nat.eqb k 0 then 2 * PI else PI)).
Proof.
  intros Hk.
  apply (is_RInt_ext (V:=R_NormedModule) (fun x => rsum n (fun m => u m * (cos (INR m * (c - x)) * cos (INR k * (c - x)))))).
  { intros x _. simpl. rewrite <- rsum_scal_r. apply rsum_ext. intros; ring. }
  assert (E : u k * (if Nat.eqb k 0 then 2 * PI else PI) = rsum n (fun m => u m * (if Nat.eqb m k then (if Nat.eqb m 0 then 2 * PI else PI) else 0))).
  { rewrite (rsum_single n k); auto.
    - rewrite Nat.eqb_refl. reflexivity.
    - intros i _ Hi. rewrite (proj2 (Nat.eqb_neq i k)) by auto. ring. }
  rewrite E. apply (is_RInt_rsum n (fun m x => u m * (cos (INR m * (c - x)) * cos (INR k * (c - x))))).
  intros m Hm. apply (is_RInt_scal (V:=R_NormedModule)). apply int_cos_cos.
Qed.
Lemma series_unique n (u v : nat -> R) c :
  (forall x, rsum n (fun m => u m * cos (INR m * (c - x))) = rsum n (fun m => v m * cos (INR m * (c - x)))) ->
  forall k, (k < n)%nat -> u k = v k.
Proof.
  intros H k Hk. pose proof (series_coeff n u c k Hk) as H1. pose proof (series_coeff n v c k Hk) as H2.
  assert (H3 : is_RInt (fun x => rsum n (fun m => u m * cos (INR m * (c - x))) * cos (INR k * (c - x))) 0 (2 * PI) (v k * (if Nat.eqb k 0 then 2 * PI else PI))).
  { eapply (is_RInt_ext (V:=R_NormedModule)); [|exact H2]. intros x _. simpl. rewrite H. reflexivity. }
  pose proof (is_RInt_unique (V:=R_CompleteNormedModule) _ _ _ _ H1) as H4. pose proof (is_RInt_unique (V:=R_CompleteNormedModule) _ _ _ _ H3) as H5. rewrite H4 in H5. pose proof PI_RGT_0.
  destruct (Nat.eqb k 0); nra.
Qed.
