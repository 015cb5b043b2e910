(** Proofs about the quadrature helpers (C02-C04). *)
From Coq Require Import String Reals Lra Lia List Bool Arith ZArith.
From Coquelicot Require Import Coquelicot.
From Verif Require Import Base Tensor Spec Calc M_Subroutines.
Import ListNotations.
Local Open Scope R_scope.

(** ** Polynomials *)
Lemma peval_continuous p x : continuous (peval p) x.
Proof.
  induction p as [|c p IH]; simpl.
  - apply continuous_const.
  - apply (continuous_plus (fun _ => c) (fun y => y * peval p y)); [apply continuous_const|].
    apply (continuous_mult (fun y => y) (peval p)); auto. apply continuous_id.
Qed.

Lemma peval_ex_RInt p a b : ex_RInt (peval p) a b.
Proof. apply (ex_RInt_continuous (V:=R_CompleteNormedModule)). intros; apply peval_continuous. Qed.

Fixpoint padd (p q : list R) : list R :=
  match p, q with
  | [], q => q
  | p, [] => p
  | a :: p', b :: q' => (a + b) :: padd p' q'
  end.
Definition pscal (c : R) (p : list R) : list R := map (Rmult c) p.

Lemma peval_padd p q x : peval (padd p q) x = peval p x + peval q x.
Proof.
  revert q; induction p as [|a p IH]; intros [|b q]; simpl; try lra. rewrite IH; ring.
Qed.
Lemma peval_pscal c p x : peval (pscal c p) x = c * peval p x.
Proof. induction p; simpl; [lra|]. rewrite IHp; ring. Qed.
Lemma length_padd p q : length (padd p q) = Nat.max (length p) (length q).
Proof. revert q; induction p; intros [|b q]; simpl; auto. Qed.

(** Composition with [y -> u*y + v]. *)
Fixpoint pcomp (p : list R) (u v : R) : list R :=
  match p with
  | [] => []
  | c :: t => padd [c] (padd (pscal v (pcomp t u v)) (0 :: pscal u (pcomp t u v)))
  end.
Lemma peval_pcomp p u v y : peval (pcomp p u v) y = peval p (u * y + v).
Proof.
  induction p as [|c t IH]; auto.
  cbn [pcomp]. rewrite !peval_padd. cbn [peval]. rewrite !peval_pscal, IH. ring.
Qed.
Lemma length_pcomp p u v : length (pcomp p u v) = length p.
Proof.
  induction p as [|c t IH]; auto. cbn [pcomp]. rewrite !length_padd. cbn [length].
  unfold pscal. rewrite !map_length, IH. lia.
Qed.

(** ** Interval transformation *)
Lemma transform_interval_length arr c d a b : length (transform_interval arr c d a b) = length arr.
Proof. apply map_length. Qed.
Lemma transform_weights_length w c d a b : length (transform_weights w c d a b) = length w.
Proof. apply map_length. Qed.
Lemma transform_interval_nth arr c d a b i :
  (i < length arr)%nat ->
  nth i (transform_interval arr c d a b) 0 = (nth i arr 0 - a) * (d - c) / (b - a) + c.
Proof. intros. unfold transform_interval. rewrite (nth_map_d _ _ _ 0); auto. Qed.
Lemma transform_weights_nth arr c d a b i :
  (i < length arr)%nat ->
  nth i (transform_weights arr c d a b) 0 = nth i arr 0 * (d - c) / (b - a).
Proof. intros. unfold transform_weights. rewrite (nth_map_d _ _ _ 0); auto. Qed.

Lemma RInt_affine p c d a b : a <> b ->
  RInt (peval p) c d = (d - c) / (b - a) * RInt (peval (pcomp p ((d - c) / (b - a)) (c - a * ((d - c) / (b - a))))) a b.
Proof.
  intros Hab. set (u := (d - c) / (b - a)). set (v := c - a * u).
  assert (Hc : u * a + v = c) by (unfold v; ring).
  assert (Hd : u * b + v = d) by (unfold v, u; field; lra).
  transitivity (RInt (fun y => u * peval (pcomp p u v) y) a b).
  - rewrite <- Hc at 1. rewrite <- Hd at 1. symmetry.
    rewrite <- (RInt_comp_lin (V:=R_CompleteNormedModule) (peval p)) by apply peval_ex_RInt.
    apply RInt_ext. intros x _. rewrite peval_pcomp. reflexivity.
  - apply is_RInt_unique. apply (is_RInt_scal (peval (pcomp p u v))).
    apply (RInt_correct (V:=R_CompleteNormedModule)). apply peval_ex_RInt.
Qed.

Lemma transform_exact xs ws a b c d k :
  a <> b -> exact_rule xs ws a b k ->
  exact_rule (transform_interval xs c d a b) (transform_weights ws c d a b) c d k.
Proof.
  intros Hab [Hl He]. split.
  - rewrite transform_interval_length, transform_weights_length; auto.
  - intros p Hp. rewrite (RInt_affine p c d a b) by auto.
    rewrite <- He by (rewrite length_pcomp; auto).
    unfold quadsum. rewrite transform_interval_length, <- rsum_scal.
    apply rsum_ext. intros i Hi.
    rewrite transform_interval_nth, transform_weights_nth, peval_pcomp by lia.
    replace ((nth i xs 0 - a) * (d - c) / (b - a) + c)
      with ((d - c) / (b - a) * nth i xs 0 + (c - a * ((d - c) / (b - a)))) by (field; lra).
    field; lra.
Qed.

(** Sum of the weights of a rule exact for constants. *)
Lemma exact_weights_sum xs ws a b k :
  (0 < k)%nat -> exact_rule xs ws a b k -> lsum ws = b - a.
Proof.
  intros Hk [Hl He]. specialize (He [1] Hk). rewrite lsum_rsum, <- Hl.
  transitivity (quadsum xs ws (peval [1])).
  - unfold quadsum. apply rsum_ext; intros; simpl; ring.
  - rewrite He. rewrite (RInt_ext _ (fun _ => 1)).
    + rewrite RInt_const. unfold scal; simpl. unfold mult; simpl. ring.
    + intros x _. simpl. ring.
Qed.

Lemma pow_m1_even q : (-1) ^ (2 * q) = 1.
Proof. rewrite pow_mult. replace ((-1) ^ 2) with 1 by (simpl; ring). apply pow1. Qed.
Lemma pow_m1_odd q : (-1) ^ (2 * q + 1) = -1.
Proof. rewrite pow_add, pow_m1_even. simpl; ring. Qed.

(** ** Chebyshev polynomials *)
Fixpoint ChT2 (k : nat) (x : R) : R * R := (* (T_k, T_{k+1}) *)
  match k with
  | O => (1, x)
  | S k' => let (a, b) := ChT2 k' x in (b, 2 * x * b - a)
  end.
Definition ChT k x := fst (ChT2 k x).
Fixpoint ChU2 (k : nat) (x : R) : R * R :=
  match k with
  | O => (1, 2 * x)
  | S k' => let (a, b) := ChU2 k' x in (b, 2 * x * b - a)
  end.
Definition ChU k x := fst (ChU2 k x).

Lemma ChT_SS k x : ChT (S (S k)) x = 2 * x * ChT (S k) x - ChT k x.
Proof. unfold ChT; simpl. destruct (ChT2 k x); auto. Qed.
Lemma ChU_SS k x : ChU (S (S k)) x = 2 * x * ChU (S k) x - ChU k x.
Proof. unfold ChU; simpl. destruct (ChU2 k x); auto. Qed.

Lemma pair_ind (P : nat -> Prop) : P 0%nat -> P 1%nat -> (forall k, P k -> P (S k) -> P (S (S k))) -> forall k, P k.
Proof.
  intros H0 H1 HS. assert (forall k, P k /\ P (S k)) by (induction k; intuition). intros k; apply H.
Qed.

Lemma ChT_cos k t : ChT k (cos t) = cos (INR k * t).
Proof.
  induction k as [| |k IH0 IH1] using pair_ind.
  - unfold ChT; simpl. rewrite Rmult_0_l, cos_0; auto.
  - unfold ChT; simpl. rewrite Rmult_1_l; auto.
  - rewrite ChT_SS, IH0, IH1.
    replace (INR (S (S k)) * t) with (INR (S k) * t + t) by (rewrite (S_INR (S k)); ring).
    replace (INR k * t) with (INR (S k) * t - t) by (rewrite S_INR; ring).
    rewrite cos_plus, cos_minus. ring.
Qed.

Lemma ChT_neg k x : ChT k (- x) = (-1) ^ k * ChT k x.
Proof.
  induction k as [| |k IH0 IH1] using pair_ind.
  - unfold ChT; simpl; ring.
  - unfold ChT; simpl; ring.
  - rewrite !ChT_SS, IH0, IH1. simpl. ring.
Qed.

Lemma ChT_1 k : ChT k 1 = 1.
Proof. rewrite <- cos_0, ChT_cos, Rmult_0_r; reflexivity. Qed.

Lemma ChT_m1 k : ChT k (-1) = (-1) ^ k.
Proof.
  assert (H : -1 = - (1)) by lra. rewrite H at 1. rewrite ChT_neg, ChT_1. ring.
Qed.

Lemma ChU_T k x : ChU (S (S k)) x - ChU k x = 2 * ChT (S (S k)) x.
Proof.
  induction k as [| |k IH0 IH1] using pair_ind.
  - unfold ChU, ChT; simpl; ring.
  - unfold ChU, ChT; simpl; ring.
  - rewrite (ChU_SS (S (S k))), (ChT_SS (S (S k))). pose proof (ChU_SS k x).
    pose proof (ChT_SS (S k) x). nra.
Qed.

Lemma ChT_derive k x : is_derive (ChT (S k)) x (INR (S k) * ChU k x).
Proof.
  induction k as [| |k IH0 IH1] using pair_ind.
  - unfold ChT, ChU; simpl. auto_derive; auto; ring.
  - unfold ChT, ChU; simpl. auto_derive; auto; ring.
  - apply (is_derive_ext (fun y => 2 * y * ChT (S (S k)) y - ChT (S k) y)).
    { intros y; rewrite (ChT_SS (S k)); auto. }
    replace (INR (S (S (S k))) * ChU (S (S k)) x) with
      ((2 * ChT (S (S k)) x + 2 * x * (INR (S (S k)) * ChU (S k) x)) - INR (S k) * ChU k x).
    2:{ rewrite <- (ChU_T k x), ChU_SS, (S_INR (S (S k))), (S_INR (S k)). ring. }
    apply der_minus; auto. apply der_mult; auto.
    apply (der_eq _ _ (2 * 1)); [ring|]. apply der_scal, der_id.
Qed.

Lemma ChT_continuous k x : continuous (ChT k) x.
Proof.
  destruct k.
  - apply (continuous_ext (fun _ => 1)); [intros; reflexivity|apply continuous_const].
  - apply (ex_derive_continuous (ChT (S k))). eexists; apply ChT_derive.
Qed.

Lemma ChT_RInt k :
  RInt (ChT k) (-1) 1 = if Nat.even k then 2 / (1 - INR k ^ 2) else 0.
Proof.
  destruct k as [|[|k]].
  - simpl. rewrite (RInt_ext _ (fun _ => 1)).
    + rewrite RInt_const. unfold scal; simpl; unfold mult; simpl. field.
    + intros; reflexivity.
  - simpl. apply is_RInt_unique.
    replace 0 with (minus (1 * 1 / 2) ((-1) * (-1) / 2)) by (unfold minus, plus, opp; simpl; field).
    apply (is_RInt_derive (fun x => x * x / 2)).
    + intros x _. unfold ChT; simpl. auto_derive; auto; field.
    + intros x _. apply ChT_continuous.
  - apply is_RInt_unique.
    set (F := fun x => (ChT (S (S (S k))) x / INR (S (S (S k))) - ChT (S k) x / INR (S k)) / 2).
    assert (HI : is_RInt (ChT (S (S k))) (-1) 1 (minus (F 1) (F (-1)))).
    { apply (is_RInt_derive F).
      - intros x _. unfold F.
        replace (ChT (S (S k)) x) with
          ((INR (S (S (S k))) * ChU (S (S k)) x / INR (S (S (S k))) - INR (S k) * ChU k x / INR (S k)) / 2).
        2:{ replace (INR (S (S (S k))) * ChU (S (S k)) x / INR (S (S (S k)))) with (ChU (S (S k)) x)
              by (field; apply not_0_INR; lia).
            replace (INR (S k) * ChU k x / INR (S k)) with (ChU k x) by (field; apply not_0_INR; lia).
            rewrite ChU_T. field. }
        apply der_div. apply der_minus; apply der_div; apply ChT_derive.
      - intros x _; apply ChT_continuous. }
    enough (E : F 1 - F (-1) = if Nat.even (S (S k)) then 2 / (1 - INR (S (S k)) ^ 2) else 0)
      by (eapply (fun e => eq_ind _ (fun z => is_RInt _ _ _ z) HI _ e); exact E).
    unfold F.
    rewrite !ChT_m1, !ChT_1.
    rewrite (Nat.even_succ_succ k).
    replace ((-1) ^ S (S (S k))) with (- (-1) ^ k) by (simpl; ring).
    replace ((-1) ^ S k) with (- (-1) ^ k) by (simpl; ring).
    assert (Hk : 0 <= INR k) by apply pos_INR.
    assert ((1 - INR (S (S k)) ^ 2) <> 0) by (rewrite !S_INR; nra).
    assert (E3 : INR (S (S (S k))) = INR k + 3) by (rewrite !S_INR; ring).
    assert (E2 : INR (S (S k)) = INR k + 2) by (rewrite !S_INR; ring).
    assert (E1 : INR (S k) = INR k + 1) by (rewrite !S_INR; ring).
    rewrite E3, E1, E2 in *.
    destruct (Nat.even k) eqn:Ev.
    + replace ((-1) ^ k) with 1; [field; lra|].
      apply Nat.even_spec in Ev. destruct Ev as [q ->]. rewrite pow_mult.
      replace ((-1) ^ 2) with 1 by (simpl; ring). rewrite pow1; auto.
    + replace ((-1) ^ k) with (-1); [field; lra|].
      assert (Od : Nat.odd k = true) by (unfold Nat.odd; rewrite Ev; auto).
      apply Nat.odd_spec in Od. destruct Od as [q ->].
      rewrite pow_m1_odd. reflexivity.
Qed.

(** Every polynomial is a combination of Chebyshev polynomials. *)
Lemma ChT_mul_x k x : x * ChT (S k) x = (ChT (S (S k)) x + ChT k x) / 2.
Proof. rewrite ChT_SS. field. Qed.

Lemma cheb_span p : exists a : nat -> R, forall x, peval p x = rsum (length p) (fun k => a k * ChT k x).
Proof.
  induction p as [|c p [a Ha]].
  - exists (fun _ => 0). reflexivity.
  - assert (G : forall n (b : nat -> R), exists b', forall x, x * rsum n (fun k => b k * ChT k x) = rsum (S n) (fun k => b' k * ChT k x)).
    { induction n; intros b.
      - exists (fun _ => 0). intros x. cbn [rsum]. ring.
      - destruct (IHn b) as [b' Hb'].
        destruct n.
        + exists (fun k => if Nat.eqb k 1 then b 0%nat else 0). intros x. unfold ChT; simpl. ring.
        + exists (fun k => (if Nat.ltb k (S (S n)) then b' k else 0) + (if Nat.eqb k (S (S n)) then b (S n) / 2 else 0)
                     + (if Nat.eqb k n then b (S n) / 2 else 0)).
          intros x. rewrite rsum_S, Rmult_plus_distr_l, Hb'.
          rewrite (rsum_S (S (S n))).
          match goal with |- _ = rsum _ ?f + _ =>
            assert (HR : rsum (S (S n)) f = rsum (S (S n)) (fun k => b' k * ChT k x + delta n k * (b (S n) / 2 * ChT k x))) end.
          { apply rsum_ext. intros i Hi. unfold delta. rewrite (Nat.eqb_sym n i).
              destruct (Nat.ltb_spec i (S (S n))); [|lia].
              destruct (Nat.eqb_spec i (S (S n))); [lia|].
              destruct (Nat.eqb i n); ring. }
          rewrite HR. clear HR.
          rewrite rsum_plus, rsum_delta_l by lia.
          rewrite Nat.ltb_irrefl, Nat.eqb_refl, (proj2 (Nat.eqb_neq (S (S n)) n)) by lia.
          replace (x * (b (S n) * ChT (S n) x)) with (b (S n) * (x * ChT (S n) x)) by ring.
          rewrite ChT_mul_x. field. }
    destruct (G (length p) a) as [b' Hb'].
    exists (fun k => if Nat.eqb k 0 then c + b' 0%nat else b' k). intros x.
    cbn [peval length]. rewrite Ha, Hb', !rsum_S_l. simpl Nat.eqb.
    replace (ChT 0 x) with 1 by reflexivity. ring_simplify.
    cbn [Nat.eqb]. ring.
Qed.

(** ** DCT-I inversion *)
(** 2 sin(x/2) * (1/2 + sum_{0<k<M} cos kx + 1/2 cos Mx) = sin(Mx) cos(x/2). *)
Definition dsum (M : nat) (f : nat -> R) : R :=
  f 0%nat / 2 + rsum (M - 1) (fun k => f (S k)) + f M / 2.

Lemma dsum_S M f : (0 < M)%nat -> dsum (S M) f = dsum M f + f M / 2 + f (S M) / 2.
Proof.
  intros H. unfold dsum. destruct M; [lia|].
  replace (S (S M) - 1)%nat with (S M) by lia. replace (S M - 1)%nat with M by lia.
  rewrite rsum_S. field.
Qed.

Lemma dsum_cos M x : (0 < M)%nat ->
  2 * sin (x / 2) * dsum M (fun k => cos (INR k * x)) = sin (INR M * x) * cos (x / 2).
Proof.
  intros H. induction M as [|M IH]; [lia|].
  destruct (Nat.eq_dec M 0) as [->|HM].
  - unfold dsum. simpl. rewrite Rmult_0_l, Rmult_1_l, cos_0.
    assert (Hc : cos x = cos (x / 2) * cos (x / 2) - sin (x / 2) * sin (x / 2))
      by (rewrite <- cos_2a; f_equal; field).
    assert (Hs : sin x = 2 * sin (x / 2) * cos (x / 2)) by (rewrite <- sin_2a; f_equal; field).
    rewrite Hc, Hs. pose proof (sin2_cos2 (x / 2)) as H0. unfold Rsqr in H0.
    replace (cos (x / 2) * cos (x / 2)) with (1 - sin (x / 2) * sin (x / 2)) by lra.
    replace (2 * sin (x / 2) * cos (x / 2) * cos (x / 2)) with
      (2 * sin (x / 2) * (cos (x / 2) * cos (x / 2))) by ring.
    replace (cos (x / 2) * cos (x / 2)) with (1 - sin (x / 2) * sin (x / 2)) by lra. field.
  - rewrite dsum_S by lia. specialize (IH ltac:(lia)).
    rewrite !Rmult_plus_distr_l, IH. rewrite S_INR.
    replace ((INR M + 1) * x) with (INR M * x + 2 * (x / 2)) by field.
    rewrite cos_plus, sin_plus, cos_2a, sin_2a.
    pose proof (sin2_cos2 (x / 2)). unfold Rsqr in H0.
    set (s := sin (x / 2)) in *. set (c := cos (x / 2)) in *.
    set (A := cos (INR M * x)). set (B := sin (INR M * x)).
    replace (c * c) with (1 - s * s) by lra.
    replace (2 * s * ((A * (1 - s * s - s * s) - B * (2 * s * c)) / 2)) with
      (s * A * (1 - 2 * (s * s)) - 2 * B * s * s * c) by field.
    replace (2 * s * (A / 2)) with (s * A) by field.
    replace ((B * (1 - s * s - s * s) + A * (2 * s * c)) * c) with
      (B * c - 2 * B * s * s * c + 2 * A * s * (c * c)) by ring.
    replace (c * c) with (1 - s * s) by lra. ring.
Qed.

Lemma dsum_cos_zero M r : (0 < M)%nat -> (0 < r < 2 * M)%nat ->
  dsum M (fun k => cos (PI * INR k * INR r / INR M)) = 0.
Proof.
  intros HM Hr.
  assert (Hm : 0 < INR M) by (apply lt_0_INR; auto).
  set (x := PI * INR r / INR M).
  rewrite <- (Rmult_0_r (/ (2 * sin (x / 2)))).
  assert (Hs : 0 < sin (x / 2)).
  { apply sin_gt_0; unfold x.
    - assert (0 < INR r) by (apply lt_0_INR; lia). pose proof PI_RGT_0.
      apply Rmult_lt_0_compat; [|lra]. apply Rdiv_lt_0_compat; nra.
    - assert (INR r < 2 * INR M).
      { replace 2 with (INR 2) by reflexivity. rewrite <- mult_INR. apply lt_INR; lia. }
      pose proof PI_RGT_0.
      apply (Rmult_lt_reg_r (2 * INR M)); [lra|].
      replace (PI * INR r / INR M / 2 * (2 * INR M)) with (PI * INR r) by (field; lra).
      nra. }
  transitivity (/ (2 * sin (x / 2)) * (2 * sin (x / 2) * dsum M (fun k => cos (INR k * x)))).
  - rewrite <- Rmult_assoc, Rinv_l, Rmult_1_l by lra.
    unfold dsum. unfold x.
    f_equal; [f_equal|]; try (do 2 f_equal; field; lra); try (apply rsum_ext; intros; f_equal; field; lra).
  - rewrite dsum_cos by auto. f_equal.
    replace (INR M * x) with (INR r * PI) by (unfold x; field; lra).
    replace (sin (INR r * PI)) with 0; [ring|].
    symmetry. clear. induction r.
    + simpl; rewrite Rmult_0_l; apply sin_0.
    + rewrite S_INR, Rmult_plus_distr_r, Rmult_1_l, neg_sin, IHr. ring.
Qed.

Lemma dsum_ext M f g : (forall k, (k <= M)%nat -> f k = g k) -> dsum M f = dsum M g.
Proof.
  intros H. unfold dsum. rewrite !(H 0%nat), !(H M) by lia.
  f_equal. f_equal. destruct M; auto. apply rsum_ext; intros. apply H; lia.
Qed.
Lemma dsum_plus M f g : dsum M (fun k => f k + g k) = dsum M f + dsum M g.
Proof. unfold dsum. rewrite rsum_plus. field. Qed.
Lemma dsum_scal M c f : dsum M (fun k => c * f k) = c * dsum M f.
Proof. unfold dsum. rewrite rsum_scal. field. Qed.
Lemma rsum_dsum_swap n M F : rsum n (fun j => dsum M (fun k => F j k)) = dsum M (fun k => rsum n (fun j => F j k)).
Proof.
  unfold dsum. rewrite !rsum_plus, !rsum_div.
  rewrite (rsum_swap n (M - 1)). reflexivity.
Qed.
Lemma dsum_swap n M F : dsum n (fun j => dsum M (fun k => F j k)) = dsum M (fun k => dsum n (fun j => F j k)).
Proof.
  unfold dsum at 1. rewrite rsum_dsum_swap.
  unfold dsum. rewrite !rsum_plus, !rsum_div. field.
Qed.

Lemma cos_nat_PI k : cos (INR k * PI) = (-1) ^ k.
Proof.
  induction k.
  - simpl; rewrite Rmult_0_l; apply cos_0.
  - rewrite S_INR, Rmult_plus_distr_r, Rmult_1_l, neg_cos, IHk. simpl; ring.
Qed.

(** Discrete orthogonality. *)
Lemma dsum_ones M : (0 < M)%nat -> dsum M (fun _ => 1) = INR M.
Proof.
  intros H. unfold dsum. rewrite rsum_const. rewrite minus_INR by lia. simpl. field.
Qed.

Definition dct_norm (M q : nat) : R := if (Nat.eqb q 0 || Nat.eqb q M)%bool then INR M else INR M / 2.

Lemma dsum_orth M j q : (0 < M)%nat -> (j <= M)%nat -> (q <= M)%nat ->
  dsum M (fun k => cos (PI * INR k * INR j / INR M) * cos (PI * INR k * INR q / INR M))
  = if Nat.eqb j q then dct_norm M q else 0.
Proof.
  intros HM Hj Hq.
  assert (Hm : 0 < INR M) by (apply lt_0_INR; auto).
  (* WLOG q <= j *)
  assert (W : forall j q, (j <= M)%nat -> (q <= M)%nat -> (q <= j)%nat ->
    dsum M (fun k => cos (PI * INR k * INR j / INR M) * cos (PI * INR k * INR q / INR M))
    = if Nat.eqb j q then dct_norm M q else 0).
  { clear j q Hj Hq. intros j q Hj Hq Hqj.
    transitivity (/ 2 * dsum M (fun k => cos (PI * INR k * INR (j - q) / INR M))
                  + / 2 * dsum M (fun k => cos (PI * INR k * INR (j + q) / INR M))).
    { rewrite <- !dsum_scal, <- dsum_plus. apply dsum_ext. intros k Hk.
      rewrite minus_INR, plus_INR by lia.
      replace (PI * INR k * (INR j - INR q) / INR M) with
        (PI * INR k * INR j / INR M - PI * INR k * INR q / INR M) by (field; lra).
      replace (PI * INR k * (INR j + INR q) / INR M) with
        (PI * INR k * INR j / INR M + PI * INR k * INR q / INR M) by (field; lra).
      rewrite cos_plus, cos_minus. field. }
    assert (Z0 : dsum M (fun k => cos (PI * INR k * INR 0 / INR M)) = INR M).
    { etransitivity; [|apply (dsum_ones M HM)]. apply dsum_ext; intros.
      simpl INR. replace (PI * INR k * 0 / INR M) with 0 by (field; lra). apply cos_0. }
    destruct (Nat.eqb_spec j q) as [->|Hne].
    - rewrite Nat.sub_diag, Z0. unfold dct_norm.
      destruct (Nat.eqb_spec q 0) as [->|Hq0].
      + simpl Nat.add. rewrite Z0. simpl. field.
      + destruct (Nat.eqb_spec q M) as [->|HqM]; cbn [orb].
        * replace (dsum M (fun k => cos (PI * INR k * INR (M + M) / INR M))) with (INR M); [field|].
          symmetry. etransitivity; [|apply (dsum_ones M HM)]. apply dsum_ext; intros.
          rewrite plus_INR. replace (PI * INR k * (INR M + INR M) / INR M) with (INR k * PI + INR k * PI) by (field; lra).
          rewrite cos_plus. rewrite cos_nat_PI.
          replace (sin (INR k * PI)) with 0.
          2:{ clear. induction k. simpl; rewrite Rmult_0_l; rewrite sin_0; auto.
              rewrite S_INR, Rmult_plus_distr_r, Rmult_1_l, neg_sin, <- IHk. ring. }
          rewrite <- pow_add. replace (k + k)%nat with (2 * k)%nat by lia. rewrite pow_mult.
          replace ((-1) ^ 2) with 1 by (simpl; ring). rewrite pow1. ring.
        * rewrite dsum_cos_zero by lia. field.
    - rewrite !dsum_cos_zero by lia. field. }
  destruct (le_lt_dec q j).
  - apply W; auto.
  - rewrite Nat.eqb_sym. transitivity (if Nat.eqb q j then dct_norm M j else 0).
    + rewrite <- W by (auto; lia). apply dsum_ext; intros; ring.
    + destruct (Nat.eqb_spec q j); subst; auto.
Qed.

(** Evaluating the DCT-I of the inverse DCT-I. *)
Lemma dct_inverse M d q : (0 < M)%nat -> (q <= M)%nat ->
  2 * dsum M (fun k => (2 * dsum M (fun j => d j * cos (PI * INR k * INR j / INR M))) / (2 * INR M)
                 * cos (PI * INR k * INR q / INR M)) = d q.
Proof.
  intros HM Hq. assert (Hm : 0 < INR M) by (apply lt_0_INR; auto).
  transitivity (2 / INR M * dsum M (fun j => d j * (if Nat.eqb j q then dct_norm M q else 0))).
  - transitivity (2 / INR M * dsum M (fun k => dsum M (fun j => d j * (cos (PI * INR k * INR j / INR M) * cos (PI * INR k * INR q / INR M))))).
    + rewrite <- !dsum_scal. apply dsum_ext; intros k Hk.
      rewrite (dsum_ext M (fun j => d j * (cos (PI * INR k * INR j / INR M) * cos (PI * INR k * INR q / INR M)))
                 (fun j => cos (PI * INR k * INR q / INR M) * (d j * cos (PI * INR k * INR j / INR M)))).
      2:{ intros; ring. }
      rewrite dsum_scal. field. lra.
    + f_equal. rewrite dsum_swap. apply dsum_ext; intros j Hj.
      rewrite dsum_scal, dsum_orth by auto. reflexivity.
  - unfold dsum, dct_norm.
    destruct (Nat.eqb_spec q 0) as [->|Hq0]; [|destruct (Nat.eqb_spec q M) as [->|HqM]]; cbn [orb].
    + rewrite (proj2 (Nat.eqb_neq M 0)) by lia.
      rewrite rsum_0; [simpl; field; lra|]. intros; simpl; ring.
    + rewrite (proj2 (Nat.eqb_neq 0 M)), Nat.eqb_refl by lia.
      rewrite rsum_0; [field; lra|]. intros i Hi. rewrite (proj2 (Nat.eqb_neq (S i) M)) by lia. ring.
    + rewrite (proj2 (Nat.eqb_neq 0 q)), (proj2 (Nat.eqb_neq M q)) by lia.
      rewrite (rsum_single _ (q - 1)); try lia.
      * replace (S (q - 1)) with q by lia. rewrite Nat.eqb_refl. field. lra.
      * intros i Hi Hne. rewrite (proj2 (Nat.eqb_neq (S i) q)) by lia. ring.
Qed.

(** ** Clenshaw-Curtis on [-1, 1] *)
Section CC.
  Variable M : nat.
  Hypothesis HM : (0 < M)%nat.
  Let n := (2 * M)%nat.
  Let Mpos : 0 < INR M. Proof. apply lt_0_INR; auto. Qed.

  Definition cc_nodes : list R :=
    map Ropp (map (fun i => cos (PI * INR i / INR n)) (seq 0 M)) ++ [0]
      ++ rev (map (fun i => cos (PI * INR i / INR n)) (seq 0 M)).
  Definition cc_diff : list R := 2 :: map (fun j => 2 / (1 - 4 * INR j ^ 2)) (seq 1 M).
  Definition cc_wpos : list R := match idct1 cc_diff with [] => [] | w :: t => w / 2 :: t end.
  Definition cc_weights : list R := cc_wpos ++ rev (removelast cc_wpos).

  Lemma cc_nodes_length : length cc_nodes = S n.
  Proof. unfold cc_nodes. rewrite !app_length, rev_length, !map_length, seq_length. simpl. unfold n. lia. Qed.

  Lemma cc_diff_length : length cc_diff = S M.
  Proof. unfold cc_diff. simpl. rewrite map_length, seq_length. auto. Qed.
  Lemma cc_diff_nth j : (j <= M)%nat -> nth j cc_diff 0 = 2 / (1 - INR (2 * j) ^ 2).
  Proof.
    intros H. unfold cc_diff. destruct j.
    - simpl. field.
    - cbn [nth]. rewrite nth_seq_map by lia. rewrite mult_INR. simpl (1 + j)%nat. simpl (INR 2). f_equal. ring.
  Qed.

  (** unhalved weights *)
  Definition cc_v (k : nat) : R :=
    (2 * dsum M (fun j => nth j cc_diff 0 * cos (PI * INR k * INR j / INR M))) / (2 * INR M).

  Lemma idct1_length x : length (idct1 x) = length x.
  Proof. unfold idct1. rewrite map_length, seq_length; auto. Qed.

  Lemma idct1_nth k : (k <= M)%nat -> nth k (idct1 cc_diff) 0 = cc_v k.
  Proof.
    intros H. unfold idct1. rewrite nth_seq_map by (rewrite cc_diff_length; lia).
    rewrite cc_diff_length. unfold cc_v. replace (S M - 1)%nat with M by lia.
    replace (S M - 2)%nat with (M - 1)%nat by lia. rewrite Nat.add_0_l. f_equal.
    unfold dsum.
    replace (PI * INR k * INR 0 / INR M) with 0 by (simpl; field; lra).
    replace (PI * INR k * INR M / INR M) with (INR k * PI) by (field; lra).
    rewrite cos_0, cos_nat_PI. field.
  Qed.

  Lemma cc_wpos_length : length cc_wpos = S M.
  Proof.
    unfold cc_wpos. pose proof (idct1_length cc_diff) as H. rewrite cc_diff_length in H.
    destruct (idct1 cc_diff); simpl in *; auto.
  Qed.
  Lemma cc_wpos_nth k : (k <= M)%nat -> nth k cc_wpos 0 = if Nat.eqb k 0 then cc_v 0 / 2 else cc_v k.
  Proof.
    intros H. pose proof (idct1_nth k H) as Hk. unfold cc_wpos.
    pose proof (idct1_length cc_diff) as Hl. rewrite cc_diff_length in Hl.
    destruct (idct1 cc_diff) as [|w t]; [simpl in Hl; lia|].
    destruct k; simpl in *; auto. rewrite Hk; auto.
  Qed.

  Lemma removelast_length {A} (l : list A) : length (removelast l) = (length l - 1)%nat.
  Proof. induction l as [|a [|b l] IH]; auto. simpl in *. lia. Qed.
  Lemma removelast_nth {A} (l : list A) d i : (i < length l - 1)%nat -> nth i (removelast l) d = nth i l d.
  Proof.
    revert i; induction l as [|a [|b l] IH]; intros i Hi; simpl in *; try lia.
    destruct i; auto. apply IH. simpl. lia.
  Qed.

  Lemma cc_weights_length : length cc_weights = S n.
  Proof. unfold cc_weights. rewrite app_length, rev_length, removelast_length, cc_wpos_length. unfold n. lia. Qed.

  Lemma cc_weights_lo k : (k <= M)%nat -> nth k cc_weights 0 = nth k cc_wpos 0.
  Proof. intros. unfold cc_weights. rewrite app_nth1 by (rewrite cc_wpos_length; lia). auto. Qed.
  Lemma cc_weights_hi k : (M < k <= n)%nat -> nth k cc_weights 0 = nth (n - k) cc_wpos 0.
  Proof.
    intros. unfold cc_weights. unfold n in *. rewrite app_nth2 by (rewrite cc_wpos_length; lia).
    rewrite rev_nth by (rewrite removelast_length, !cc_wpos_length; lia).
    rewrite removelast_length, !cc_wpos_length.
    rewrite removelast_nth by (rewrite cc_wpos_length; lia). f_equal. lia.
  Qed.
  Lemma cc_weights_sym k : (k <= n)%nat -> nth k cc_weights 0 = nth (n - k) cc_weights 0.
  Proof.
    intros H. unfold n in *. destruct (lt_eq_lt_dec k M) as [[Hl|He]|Hg].
    - rewrite cc_weights_lo, (cc_weights_hi (2 * M - k)) by (unfold n; lia). f_equal. unfold n; lia.
    - subst. f_equal; lia.
    - rewrite cc_weights_hi, (cc_weights_lo (2 * M - k)) by (unfold n; lia). f_equal.
  Qed.

  Lemma cc_nodes_nth k : (k <= n)%nat -> nth k cc_nodes 0 = - cos (PI * INR k / INR n).
  Proof.
    intros H. unfold cc_nodes. unfold n in *.
    assert (Hn : INR (2 * M) = 2 * INR M) by (rewrite mult_INR; simpl; ring).
    destruct (lt_eq_lt_dec k M) as [[Hl|He]|Hg].
    - rewrite app_nth1 by (rewrite !map_length, seq_length; auto).
      rewrite map_map, nth_seq_map by auto. reflexivity.
    - subst k. rewrite app_nth2 by (rewrite !map_length, seq_length; auto).
      rewrite !map_length, seq_length, Nat.sub_diag. simpl nth.
      rewrite Hn. replace (PI * INR M / (2 * INR M)) with (PI / 2) by (field; lra).
      rewrite cos_PI2. ring.
    - rewrite app_nth2 by (rewrite !map_length, seq_length; lia).
      rewrite !map_length, seq_length. cbn [app].
      destruct (k - M)%nat as [|r] eqn:Er; [lia|]. cbn [nth].
      rewrite rev_nth by (rewrite map_length, seq_length; lia).
      rewrite map_length, seq_length, nth_seq_map by lia.
      replace (0 + (M - S r))%nat with (2 * M - k)%nat by lia.
      rewrite minus_INR, Hn by lia.
      replace (PI * (2 * INR M - INR k) / (2 * INR M)) with (- (PI * INR k / (2 * INR M)) + PI) by (field; lra).
      rewrite neg_cos, cos_neg. reflexivity.
  Qed.

  (** The rule on a function. *)
  Lemma cc_sum f : quadsum cc_nodes cc_weights f
    = rsum M (fun k => nth k cc_wpos 0 * (f (- cos (PI * INR k / INR n)) + f (cos (PI * INR k / INR n))))
      + nth M cc_wpos 0 * f 0.
  Proof.
    unfold quadsum. rewrite cc_nodes_length. replace (S n) with (M + S M)%nat by (unfold n; lia).
    rewrite rsum_split, rsum_S_l.
    rewrite (rsum_ext M (fun i => nth i cc_weights 0 * f (nth i cc_nodes 0))
               (fun k => nth k cc_wpos 0 * f (- cos (PI * INR k / INR n)))).
    2:{ intros i Hi. rewrite cc_weights_lo, cc_nodes_nth by (unfold n; lia). auto. }
    rewrite (rsum_ext M (fun i => nth (M + S i) cc_weights 0 * f (nth (M + S i) cc_nodes 0))
               (fun i => (fun k => nth k cc_wpos 0 * f (cos (PI * INR k / INR n))) (M - 1 - i)%nat)).
    2:{ intros i Hi. cbn beta. rewrite cc_weights_hi, cc_nodes_nth by (unfold n; lia).
        replace (n - (M + S i))%nat with (M - 1 - i)%nat by (unfold n; lia).
        f_equal. f_equal.
        assert (Hn : INR n = 2 * INR M) by (unfold n; rewrite mult_INR; simpl; ring).
        replace (M - 1 - i)%nat with (2 * M - (M + S i))%nat by lia.
        rewrite (minus_INR (2 * M)) by lia. fold n. rewrite Hn.
        replace (PI * (2 * INR M - INR (M + S i)) / (2 * INR M)) with
          (- (PI * INR (M + S i) / (2 * INR M)) + PI) by (field; lra).
        rewrite neg_cos, cos_neg. reflexivity. }
    rewrite <- (rsum_rev M (fun k => nth k cc_wpos 0 * f (cos (PI * INR k / INR n)))).
    rewrite Nat.add_0_r, cc_weights_lo, cc_nodes_nth by (unfold n; lia).
    replace (- cos (PI * INR M / INR n)) with 0.
    2:{ unfold n. rewrite mult_INR. simpl INR. replace (PI * INR M / ((1 + 1) * INR M)) with (PI / 2) by (field; lra).
        rewrite cos_PI2; ring. }
    rewrite (rsum_ext M (fun k => nth k cc_wpos 0 * (f (- cos (PI * INR k / INR n)) + f (cos (PI * INR k / INR n))))
       (fun k => nth k cc_wpos 0 * f (- cos (PI * INR k / INR n)) + nth k cc_wpos 0 * f (cos (PI * INR k / INR n))))
      by (intros; ring).
    rewrite rsum_plus. ring.
  Qed.

  Lemma cc_cheb m : (m <= n)%nat -> quadsum cc_nodes cc_weights (ChT m) = RInt (ChT m) (-1) 1.
  Proof.
    intros Hm. rewrite cc_sum, ChT_RInt.
    assert (Hn : INR n = 2 * INR M) by (unfold n; rewrite mult_INR; simpl; ring).
    assert (H0 : ChT m 0 = cos (INR m * (PI / 2))) by (rewrite <- cos_PI2; apply ChT_cos).
    destruct (Nat.even m) eqn:Ev.
    - apply Nat.even_spec in Ev. destruct Ev as [q ->].
      assert (Hq : (q <= M)%nat) by (unfold n in Hm; lia).
      rewrite <- cc_diff_nth by auto.
      rewrite <- (dct_inverse M (fun j => nth j cc_diff 0) q HM Hq). unfold dsum at 1.
      fold (cc_v 0) (cc_v M).
      rewrite (rsum_ext M _ (fun k => 2 * (nth k cc_wpos 0 * cos (PI * INR k * INR q / INR M)))).
      2:{ intros k Hk. rewrite ChT_neg, ChT_cos, pow_m1_even.
          replace (INR (2 * q) * (PI * INR k / INR n)) with (PI * INR k * INR q / INR M)
            by (rewrite Hn, mult_INR; simpl; field; lra). ring. }
      rewrite rsum_scal.
      rewrite H0. replace (INR (2 * q) * (PI / 2)) with (PI * INR M * INR q / INR M)
        by (rewrite mult_INR; simpl; field; lra).
      rewrite cc_wpos_nth by lia. rewrite (proj2 (Nat.eqb_neq M 0)) by lia.
      rewrite (rsum_first M) by auto.
      rewrite cc_wpos_nth by lia. simpl Nat.eqb. cbv iota.
      rewrite (rsum_ext (M - 1) (fun i => nth (S i) cc_wpos 0 * _) (fun k => cc_v (S k) * cos (PI * INR (S k) * INR q / INR M))).
      2:{ intros k Hk. rewrite cc_wpos_nth by lia. simpl Nat.eqb. cbv iota. reflexivity. }
      unfold cc_v. field. lra.
    - assert (Od : Nat.odd m = true) by (unfold Nat.odd; rewrite Ev; auto).
      apply Nat.odd_spec in Od. destruct Od as [q ->].
      rewrite rsum_0.
      2:{ intros k Hk. rewrite ChT_neg, pow_m1_odd. ring. }
      rewrite H0. replace (INR (2 * q + 1) * (PI / 2)) with (INR q * PI + PI / 2)
        by (rewrite plus_INR, mult_INR; simpl; field).
      rewrite cos_plus, cos_PI2.
      replace (sin (INR q * PI)) with 0; [ring|].
      clear. induction q. simpl; rewrite Rmult_0_l, sin_0; auto.
      rewrite S_INR, Rmult_plus_distr_r, Rmult_1_l, neg_sin, <- IHq. ring.
  Qed.

  Lemma quadsum_lin xs ws m (a : nat -> R) (F : nat -> R -> R) :
    quadsum xs ws (fun x => rsum m (fun k => a k * F k x)) = rsum m (fun k => a k * quadsum xs ws (F k)).
  Proof.
    unfold quadsum.
    transitivity (rsum (length xs) (fun i => rsum m (fun k => a k * (nth i ws 0 * F k (nth i xs 0))))).
    - apply rsum_ext; intros. rewrite <- rsum_scal. apply rsum_ext; intros; ring.
    - rewrite rsum_swap. apply rsum_ext; intros. rewrite rsum_scal. auto.
  Qed.

  Lemma RInt_lin m (a : nat -> R) (F : nat -> R -> R) x y :
    (forall k z, continuous (F k) z) ->
    RInt (fun z => rsum m (fun k => a k * F k z)) x y = rsum m (fun k => a k * RInt (F k) x y).
  Proof.
    intros HF.
    assert (HI : forall k, is_RInt (F k) x y (RInt (F k) x y)).
    { intros k. apply (RInt_correct (V:=R_CompleteNormedModule)).
      apply (ex_RInt_continuous (V:=R_CompleteNormedModule)). intros; apply HF. }
    apply is_RInt_unique. induction m; simpl.
    - pose proof (is_RInt_const (V:=R_NormedModule) x y 0) as H.
      change (scal (y - x) 0) with ((y - x) * 0) in H.
      apply (eq_ind _ (fun z : R => is_RInt (fun _ : R => 0) x y z) H _ (Rmult_0_r (y - x))).
    - apply (is_RInt_plus (V:=R_NormedModule)); auto.
      apply (is_RInt_scal (V:=R_NormedModule)). auto.
  Qed.

  Lemma cc_exact : exact_rule cc_nodes cc_weights (-1) 1 (S n).
  Proof.
    split; [rewrite cc_nodes_length, cc_weights_length; auto|].
    intros p Hp. destruct (cheb_span p) as [a Ha].
    transitivity (quadsum cc_nodes cc_weights (fun x => rsum (length p) (fun k => a k * ChT k x))).
    { unfold quadsum. apply rsum_ext; intros; rewrite Ha; auto. }
    rewrite quadsum_lin.
    rewrite (RInt_ext _ (fun x => rsum (length p) (fun k => a k * ChT k x))) by (intros; apply Ha).
    rewrite RInt_lin by (intros; apply ChT_continuous).
    apply rsum_ext; intros k Hk. rewrite cc_cheb by lia. auto.
  Qed.
End CC.

Lemma Clenshaw_Curtis_ok Nphi c d M :
  (0 < M)%nat -> Nphi = (2 * Z.of_nat M + 1)%Z ->
  Clenshaw_Curtis_quad Nphi c d
  = Ok (transform_interval (cc_nodes M) c d (-1) 1, transform_weights (cc_weights M) c d (-1) 1).
Proof.
  intros HM ->. unfold Clenshaw_Curtis_quad.
  replace (2 <? 2 * Z.of_nat M + 1)%Z with true by (symmetry; apply Z.ltb_lt; lia).
  replace ((2 * Z.of_nat M + 1) mod 2 =? 1)%Z with true.
  2:{ symmetry. apply Z.eqb_eq. rewrite Z.add_comm, Z.mul_comm, Z_mod_plus_full. reflexivity. }
  cbn [andb].
  replace (Z.to_nat (2 * Z.of_nat M + 1 - 1)) with (2 * M)%nat by lia.
  replace (2 * M / 2)%nat with M by (rewrite Nat.mul_comm, Nat.div_mul; lia).
  unfold prepend at 1. rewrite map_length, seq_length, Nat.eqb_refl. simpl bind.
  reflexivity.
Qed.

Lemma Clenshaw_Curtis_err Nphi c d :
  ~ (2 < Nphi /\ Nphi mod 2 = 1)%Z ->
  exists msg, Clenshaw_Curtis_quad Nphi c d = Err (EValue msg).
Proof.
  intros H. unfold Clenshaw_Curtis_quad.
  destruct (2 <? Nphi)%Z eqn:E1; destruct (Nphi mod 2 =? 1)%Z eqn:E2; cbn [andb]; eauto.
  exfalso; apply H. split; [apply Z.ltb_lt|apply Z.eqb_eq]; auto.
Qed.

Lemma cc_nodes_increasing M c d : (0 < M)%nat -> c < d ->
  increasing (transform_interval (cc_nodes M) c d (-1) 1).
Proof.
  intros HM Hcd i j Hij. rewrite transform_interval_length, cc_nodes_length in Hij by auto.
  rewrite !transform_interval_nth by (rewrite cc_nodes_length by auto; lia).
  rewrite !cc_nodes_nth by (auto; lia).
  assert (Hm : 0 < INR (2 * M)) by (apply lt_0_INR; lia).
  assert (cos (PI * INR j / INR (2 * M)) < cos (PI * INR i / INR (2 * M))).
  { pose proof PI_RGT_0.
    assert (Hle : forall k, (k <= 2 * M)%nat -> 0 <= PI * INR k / INR (2 * M) <= PI).
    { intros k Hk. split.
      - apply Rmult_le_pos; [apply Rmult_le_pos; [lra|apply pos_INR]|left; apply Rinv_0_lt_compat; auto].
      - apply (Rmult_le_reg_r (INR (2 * M))); auto.
        replace (PI * INR k / INR (2 * M) * INR (2 * M)) with (PI * INR k) by (field; lra).
        apply Rmult_le_compat_l; [lra|]. apply le_INR; auto. }
    apply cos_decreasing_1; try apply Hle; try lia.
    unfold Rdiv. apply Rmult_lt_compat_r; [apply Rinv_0_lt_compat; auto|].
    apply Rmult_lt_compat_l; auto. apply lt_INR; lia. }
  assert ((d - c) / (1 - -1) > 0) by lra.
  unfold Rdiv. nra.
Qed.

Lemma cc_nodes_ends M c d : (0 < M)%nat ->
  nth 0 (transform_interval (cc_nodes M) c d (-1) 1) 0 = c /\
  nth (2 * M) (transform_interval (cc_nodes M) c d (-1) 1) 0 = d.
Proof.
  intros HM. rewrite !transform_interval_nth by (rewrite cc_nodes_length by auto; lia).
  rewrite !cc_nodes_nth by (auto; lia).
  assert (Hm : 0 < INR (2 * M)) by (apply lt_0_INR; lia).
  replace (PI * INR 0 / INR (2 * M)) with 0 by (simpl INR at 1; field; lra).
  replace (PI * INR (2 * M) / INR (2 * M)) with PI by (field; lra).
  rewrite cos_0, cos_PI. split; field.
Qed.
