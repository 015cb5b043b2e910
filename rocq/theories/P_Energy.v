(** Double-Gauss quadrature of Legendre polynomials and the balance of the net flux. *)
From Coq Require Import Reals Lra Lia List Bool Arith.
From Coquelicot Require Import Coquelicot.
From Verif Require Import Base Tensor Spec Calc M_LinAlg P_Special Spec_RTE.
Import ListNotations.
Local Open Scope R_scope.

Definition dleg (k : nat) (x : R) : R := peval (pderiv (legendre_poly k)) x.
Lemma dleg_der k x : is_derive (legendre k) x (dleg k x).
Proof. apply pderiv_correct. Qed.
Lemma dleg_0 x : dleg 0 x = 0. Proof. unfold dleg; cbn; ring. Qed.
Lemma dleg_1 x : dleg 1 x = 1. Proof. unfold dleg; cbn; ring. Qed.
Lemma dleg_rec k x : dleg (S (S k)) x = (2 * INR k + 3) / (INR k + 2) * (legendre (S k) x + x * dleg (S k) x) - (INR k + 1) / (INR k + 2) * dleg k x.
Proof.
  assert (H : is_derive (legendre (S (S k))) x ((2 * INR k + 3) / (INR k + 2) * (1 * legendre (S k) x + x * dleg (S k) x) - (INR k + 1) / (INR k + 2) * dleg k x)).
  { apply (der_ext (fun y => (2 * INR k + 3) / (INR k + 2) * (y * legendre (S k) y) - (INR k + 1) / (INR k + 2) * legendre k y)).
    - intros y. rewrite legendre_rec. reflexivity.
    - apply der_minus; apply der_scal; [|apply dleg_der]. apply der_mult; [apply der_id|apply dleg_der]. }
  pose proof (is_derive_unique _ _ _ (dleg_der (S (S k)) x)) as E1. pose proof (is_derive_unique _ _ _ H) as E2. rewrite E1 in E2. rewrite E2. ring.
Qed.
Lemma dleg_AB n x : dleg (S n) x = x * dleg n x + (INR n + 1) * legendre n x /\
  x * dleg (S n) x - dleg n x = (INR n + 1) * legendre (S n) x.
Proof.
  induction n as [|n [A B]].
  - rewrite dleg_0, dleg_1, legendre_0, legendre_1. cbn. split; ring.
  - pose proof (pos_INR n) as Hn. rewrite S_INR.
    assert (A' : dleg (S (S n)) x = x * dleg (S n) x + (INR n + 1 + 1) * legendre (S n) x).
    { rewrite dleg_rec. replace (dleg n x) with (x * dleg (S n) x - (INR n + 1) * legendre (S n) x) by lra. field. lra. }
    split; [exact A'|]. rewrite A', legendre_rec.
    assert (C : x * x * dleg (S n) x - dleg (S n) x = (INR n + 1) * (x * legendre (S n) x - legendre n x)).
    { replace (x * x * dleg (S n) x) with (x * (x * dleg (S n) x)) by ring. replace (x * dleg (S n) x) with (dleg n x + (INR n + 1) * legendre (S n) x) by lra. rewrite A. ring. }
    replace (x * (x * dleg (S n) x + (INR n + 1 + 1) * legendre (S n) x) - dleg (S n) x) with
      ((x * x * dleg (S n) x - dleg (S n) x) + (INR n + 1 + 1) * x * legendre (S n) x) by ring. rewrite C. field. lra.
Qed.
Lemma leg_int_der n x : is_derive (fun y => (legendre (S (S n)) y - legendre n y) / (2 * INR n + 3)) x (legendre (S n) x).
Proof.
  pose proof (pos_INR n). refine (der_eq _ _ _ _ _ (der_div _ (2 * INR n + 3) _ _ (der_minus _ _ _ _ _ (dleg_der (S (S n)) x) (dleg_der n x)))).
  destruct (dleg_AB (S n) x) as [A _]. destruct (dleg_AB n x) as [_ B]. rewrite A, S_INR.
  replace (dleg n x) with (x * dleg (S n) x - (INR n + 1) * legendre (S n) x) by lra. field. lra.
Qed.
Lemma leg_odd_0 n : Nat.odd n = true -> legendre n 0 = 0.
Proof.
  intros H. pose proof (legendre_parity n 0) as E. rewrite Ropp_0 in E. apply Nat.odd_spec in H as [k ->].
  assert (S1 : (-1) ^ (2 * k + 1) = -1) by (rewrite Nat.add_1_r; apply pow_1_odd). rewrite S1 in E. lra.
Qed.
Lemma leg_even_int n : (0 < n)%nat -> Nat.even n = true -> RInt (legendre n) 0 1 = 0.
Proof.
  intros Hn He. destruct n as [|n]; [lia|].
  assert (HI : is_RInt (legendre (S n)) 0 1 (minus ((fun y => (legendre (S (S n)) y - legendre n y) / (2 * INR n + 3)) 1) ((fun y => (legendre (S (S n)) y - legendre n y) / (2 * INR n + 3)) 0))).
  { apply (is_RInt_derive (V:=R_CompleteNormedModule) (fun y => (legendre (S (S n)) y - legendre n y) / (2 * INR n + 3))).
    - intros x _. apply leg_int_der.
    - intros x _. apply (ex_derive_continuous (K:=R_AbsRing) (V:=R_NormedModule)). eexists. apply dleg_der. }
  rewrite (is_RInt_unique (V:=R_CompleteNormedModule) _ _ _ _ HI). unfold minus, plus, opp; simpl.
  rewrite !legendre_at_1. rewrite Nat.even_succ in He. rewrite (leg_odd_0 n He), (leg_odd_0 (S (S n))).
  - unfold Rdiv. ring.
  - exact He.
Qed.
Lemma padd0_len p q n : (length p <= n)%nat -> (length q <= n)%nat -> (length (padd0 p q) <= n)%nat.
Proof.
  revert q n; induction p as [|a p IH]; intros [|b q] n; cbn; intros; try lia. destruct n; [lia|]. apply le_n_S, IH; lia.
Qed.
Lemma leg_poly_len k : (length (legendre_poly k) <= S k)%nat.
Proof.
  unfold legendre_poly. enough (length (fst (leg2 k)) <= S k /\ length (snd (leg2 k)) <= S (S k))%nat by tauto.
  induction k as [|k [A B]]; [cbn; lia|]. cbn [leg2]. destruct (leg2 k) as [a b]. cbn [fst snd] in *. split; [lia|].
  apply padd0_len; rewrite map_length; cbn [length]; lia.
Qed.

Section Quad.
  Variables (N : nat) (mu : list R) (w : nat -> R).
  Hypothesis HN : (1 <= N)%nat.
  Hypothesis Hlen : length mu = (2 * N)%nat.
  Hypothesis Hneg : forall i, (i < N)%nat -> nth (N + i) mu 0 = - nth i mu 0.
  Hypothesis Hex : exact_rule (firstn N mu) (map w (seq 0 N)) 0 1 (2 * N).

  Lemma half_quad p : (length p <= 2 * N)%nat -> rsum N (fun i => w i * peval p (nth i mu 0)) = RInt (peval p) 0 1.
  Proof.
    intros Hp. destruct Hex as [_ H]. rewrite <- (H p Hp). unfold quadsum. rewrite firstn_length, Nat.min_l by lia.
    apply rsum_ext. intros i Hi. rewrite (nth_indep (map w (seq 0 N)) 0 (w 0%nat)) by (rewrite map_length, seq_length; auto).
    rewrite map_nth, seq_nth by auto. f_equal. f_equal. rewrite <- (firstn_skipn N mu) at 1. apply app_nth1. rewrite firstn_length. lia.
  Qed.
  Lemma both_halves f : rsum (2 * N) (fun i => wnode N w i * f (nth i mu 0)) = rsum N (fun i => w i * (f (nth i mu 0) + f (- nth i mu 0))).
  Proof.
    replace (2 * N)%nat with (N + N)%nat by lia. rewrite rsum_split, <- rsum_plus. apply rsum_ext. intros i Hi. unfold wnode.
    rewrite (proj2 (Nat.ltb_lt i N)) by auto. rewrite (proj2 (Nat.ltb_ge (N + i) N)) by lia.
    rewrite Hneg by auto. replace (N + i - N)%nat with i by lia. ring.
  Qed.
  Lemma leg_quad k : (k < 2 * N)%nat -> rsum (2 * N) (fun i => wnode N w i * legendre k (nth i mu 0)) = if Nat.eqb k 0 then 2 else 0.
  Proof.
    intros Hk. rewrite both_halves. rewrite (rsum_ext N _ (fun i => (1 + (-1) ^ k) * (w i * peval (legendre_poly k) (nth i mu 0)))).
    2:{ intros i Hi. rewrite legendre_parity. unfold legendre. ring. }
    rewrite rsum_scal. rewrite half_quad by (pose proof (leg_poly_len k); lia).
    destruct (Nat.eqb_spec k 0) as [->|H0].
    - cbn [pow]. replace (RInt (peval (legendre_poly 0)) 0 1) with 1; [ring|]. symmetry.
      assert (HI : is_RInt (V:=R_NormedModule) (fun _ => 1) 0 1 (scal (1 - 0) 1)) by apply (is_RInt_const (V:=R_NormedModule)).
      apply (is_RInt_ext (V:=R_NormedModule) _ (peval (legendre_poly 0))) in HI.
      + rewrite (is_RInt_unique (V:=R_CompleteNormedModule) _ _ _ _ HI). unfold scal; simpl; unfold mult; simpl. ring.
      + intros x _. cbn. ring.
    - destruct (Nat.even k) eqn:E.
      + fold (legendre k). change (peval (legendre_poly k)) with (legendre k). rewrite leg_even_int by (auto; lia). ring.
      + assert (Ho : Nat.odd k = true) by (unfold Nat.odd; rewrite E; reflexivity). apply Nat.odd_spec in Ho as [q ->].
        rewrite Nat.add_1_r, pow_1_odd. ring.
  Qed.
  (** Scattering conserves energy: the kernel of mode 0 integrates to the albedo. *)
  Lemma D_sum om wg n y : (1 <= n <= 2 * N)%nat ->
    rsum (2 * N) (fun i => wnode N w i * D_spec om wg n 0 (nth i mu 0) y) = om * wg 0%nat.
  Proof.
    intros Hn. unfold D_spec.
    rewrite (rsum_ext (2 * N) _ (fun i => om / 2 * rsum n (fun e => (wnode N w i * legendre e (nth i mu 0)) * (wg e * legendre e y)))).
    2:{ intros i Hi. rewrite (rsum_ext n _ (fun e => wg e * legendre e (nth i mu 0) * legendre e y)).
        - rewrite <- !rsum_scal. apply rsum_ext. intros e He. ring.
        - intros e He. cbn [Nat.leb]. rewrite poch_0, !lpmv_0. ring. }
    rewrite rsum_scal, rsum_swap. rewrite (rsum_ext n _ (fun e => (if Nat.eqb e 0 then 2 else 0) * (wg e * legendre e y))).
    2:{ intros e He. rewrite rsum_scal_r, leg_quad by lia. reflexivity. }
    rewrite (rsum_single n 0) by (try lia; intros i _ Hi; rewrite (proj2 (Nat.eqb_neq i 0)) by auto; ring).
    cbn [Nat.eqb]. rewrite legendre_0. field.
  Qed.
  Lemma X_sum c om wg n mu0 : (1 <= n <= 2 * N)%nat ->
    rsum (2 * N) (fun i => wnode N w i * X_spec c om wg n 0 mu0 (nth i mu 0)) = 2 * c * om * wg 0%nat.
  Proof.
    intros Hn. rewrite (rsum_ext (2 * N) _ (fun i => 2 * c * (wnode N w i * D_spec om wg n 0 (nth i mu 0) (- mu0)))).
    - rewrite rsum_scal, D_sum by auto. ring.
    - intros i Hi. unfold X_spec, D_spec. cbn [Nat.eqb]. set (S0 := rsum n _). field.
  Qed.
  Lemma one_sum : rsum (2 * N) (fun i => wnode N w i) = 2.
  Proof.
    pose proof (leg_quad 0 ltac:(lia)) as E. cbn [Nat.eqb] in E. rewrite <- E. apply rsum_ext. intros i _. rewrite legendre_0. ring.
  Qed.
End Quad.
