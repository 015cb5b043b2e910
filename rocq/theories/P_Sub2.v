(** Proofs about emissivity, interpolation and the diagonal ordered form. *)
From Coq Require Import String Reals Lra Lia List Bool Arith ZArith.
From Coquelicot Require Import Coquelicot.
From Verif Require Import Base Tensor Spec Calc M_Subroutines P_Quad P_Sub.
Import ListNotations.
Local Open Scope R_scope.

(** ** Emissivity *)
Lemma GL_first_moment lg N : (0 < N)%nat -> leggauss_ok N (lg N) ->
  rsum N (fun j => nth j (snd (Gauss_Legendre_quad lg N 0 1)) 0 * nth j (fst (Gauss_Legendre_quad lg N 0 1)) 0) = / 2.
Proof.
  intros HN H. destruct (GL_exact lg N 0 1 H) as [Hl He].
  specialize (He [0; 1] ltac:(simpl; lia)).
  unfold quadsum in He. rewrite (proj1 (GL_lengths lg N 0 1 H)) in He.
  transitivity (RInt (peval [0; 1]) 0 1).
  - rewrite <- He. apply rsum_ext; intros; simpl; ring.
  - apply is_RInt_unique.
    assert (HI : is_RInt (peval [0; 1]) 0 1 (minus (1 * 1 / 2) (0 * 0 / 2))).
    { apply (is_RInt_derive (fun x => x * x / 2)).
      - intros x _. simpl. auto_derive; auto; field.
      - intros x _. apply peval_continuous. }
    change (minus (1 * 1 / 2) (0 * 0 / 2)) with (1 * 1 / 2 - 0 * 0 / 2) in HI.
    eapply (eq_ind _ (fun z : R => is_RInt _ _ _ z) HI). field.
Qed.

Lemma emissivity_fun lg N f rho :
  leggauss_ok N (lg N) ->
  let mu := fst (Gauss_Legendre_quad lg N 0 1) in
  let W := snd (Gauss_Legendre_quad lg N 0 1) in
  f mu mu = VArr (tmat N N rho) ->
  exists e, generate_emissivity_from_BDRF lg N (MFun f) = Ok e /\ shp e = [N] /\
    forall i, (i < N)%nat -> elt e [i] = 1 - 2 * rsum N (fun j => rho i j * nth j mu 0 * nth j W 0).
Proof.
  intros H mu W Hf. destruct (GL_lengths lg N 0 1 H) as [L1 L2].
  unfold generate_emissivity_from_BDRF. fold mu in L1. fold W in L2.
  rewrite (surjective_pairing (Gauss_Legendre_quad lg N 0 1)). fold mu W. rewrite Hf.
  unfold tmul, bcast2. cbn. rewrite L1, bdim_1_r, bdim_refl. cbn.
  rewrite L2, Nat.eqb_refl. eexists. split; [reflexivity|]. split; [reflexivity|].
  intros i Hi. cbn. f_equal. rewrite <- rsum_scal. apply rsum_ext. intros j Hj.
  rewrite !bi_lt by auto. ring.
Qed.

(** ** Lagrange interpolation *)
Lemma rprod_0 n f k : (k < n)%nat -> f k = 0 -> rprod n f = 0.
Proof.
  induction n; intros H E; [lia|]. simpl. destruct (Nat.eq_dec k n) as [->|]; [rewrite E; ring|].
  rewrite IHn by (auto; lia). ring.
Qed.
Lemma rprod_1 n f : (forall k, (k < n)%nat -> f k = 1) -> rprod n f = 1.
Proof. induction n; intros H; auto. simpl. rewrite IHn, H; auto; ring. Qed.

Lemma lagrange_at_node nodes j k : distinct nodes -> (j < length nodes)%nat -> (k < length nodes)%nat ->
  lagrange_basis nodes j (nth k nodes 0) = delta j k.
Proof.
  intros Hd Hj Hk. unfold lagrange_basis, delta. destruct (Nat.eqb_spec j k) as [->|Hne].
  - apply rprod_1. intros i Hi. destruct (Nat.eqb_spec i k); auto.
    field. intros E. apply (Hd k i); auto; lra.
  - apply (rprod_0 _ _ k); auto. destruct (Nat.eqb_spec k j); [congruence|].
    replace (nth k nodes 0 - nth k nodes 0) with 0 by ring. unfold Rdiv; ring.
Qed.

Lemma barycentric_at_node nodes yi k : distinct nodes -> (k < length nodes)%nat ->
  barycentric nodes yi (nth k nodes 0) = yi k.
Proof.
  intros Hd Hk. unfold barycentric.
  rewrite (rsum_ext _ _ (fun j => yi j * delta j k)).
  - apply rsum_delta_r; auto.
  - intros j Hj. rewrite lagrange_at_node; auto.
Qed.

(** synthetic division *)
Lemma poly_factor p r : exists q, (length q <= length p - 1)%nat /\ forall x, peval p x = peval p r + (x - r) * peval q x.
Proof.
  induction p as [|c p [q [Hl Hq]]].
  - exists []. split; auto. intros; simpl; ring.
  - destruct p as [|d p].
    + exists []. split; auto. intros; simpl; ring.
    + exists (padd [peval (d :: p) r] (0 :: q)) . split.
      * rewrite length_padd. simpl in *. lia.
      * intros x. rewrite peval_padd. cbn [peval] in *.
        rewrite (Hq x). cbn [peval]. 
        set (P := d + r * peval p r) in *. ring_simplify.
        specialize (Hq x). nra.
Qed.

Lemma poly_zero_roots n p (roots : nat -> R) :
  (length p <= n)%nat ->
  (forall i j, (i < n)%nat -> (j < n)%nat -> i <> j -> roots i <> roots j) ->
  (forall i, (i < n)%nat -> peval p (roots i) = 0) -> forall x, peval p x = 0.
Proof.
  revert p. induction n; intros p Hl Hd Hr x.
  - destruct p; simpl in *; auto; lia.
  - destruct (poly_factor p (roots n)) as (q & Hql & Hq).
    rewrite (Hq x), (Hr n) by auto.
    rewrite (IHn q); [ring|lia| |].
    + intros; apply Hd; lia.
    + intros i Hi. pose proof (Hr i ltac:(lia)) as E. rewrite (Hq (roots i)), (Hr n) in E by auto.
      assert (roots i - roots n <> 0) by (intros F; apply (Hd i n); try lia; lra).
      apply (Rmult_eq_reg_l (roots i - roots n)); auto. lra.
Qed.

(** the interpolant is a polynomial of degree < length nodes *)
Definition pmul_lin (u v : R) (p : list R) : list R := padd (pscal v p) (0 :: pscal u p).
Lemma peval_pmul_lin u v p x : peval (pmul_lin u v p) x = (u * x + v) * peval p x.
Proof. unfold pmul_lin. rewrite peval_padd. cbn [peval]. rewrite !peval_pscal. ring. Qed.
Lemma length_pmul_lin u v p : length (pmul_lin u v p) = S (length p).
Proof. unfold pmul_lin. rewrite length_padd. simpl. unfold pscal. rewrite !map_length. lia. Qed.

Lemma lagrange_poly nodes j n : (forall k, (k < n)%nat -> k <> j -> nth j nodes 0 <> nth k nodes 0) ->
  exists p, (length p <= S n)%nat /\ ((j < n)%nat -> (length p <= n)%nat) /\ forall x, peval p x =
    rprod n (fun k => if Nat.eqb k j then 1 else (x - nth k nodes 0) / (nth j nodes 0 - nth k nodes 0)).
Proof.
  induction n; intros H.
  - exists [1]. simpl. repeat split; auto; [lia|]. intros; ring.
  - destruct IHn as (p & L1 & L2 & E); [intros; apply H; auto|].
    simpl rprod. destruct (Nat.eqb_spec n j) as [->|Hne].
    + exists p. repeat split; try lia. intros; rewrite E; ring.
    + set (dd := nth j nodes 0 - nth n nodes 0).
      assert (dd <> 0) by (unfold dd; intros F; apply (H n); auto; lra).
      exists (pmul_lin (/ dd) (- nth n nodes 0 / dd) p). rewrite length_pmul_lin. repeat split; try lia.
      intros x. rewrite peval_pmul_lin, E. fold dd. field. auto.
Qed.

Lemma poly_sum n (F : nat -> list R) (y : nat -> R) m :
  (forall j, (j < n)%nat -> (length (F j) <= m)%nat) ->
  exists p, (length p <= m)%nat /\ forall x, peval p x = rsum n (fun j => y j * peval (F j) x).
Proof.
  induction n; intros H.
  - exists []. split; [simpl; lia|]. reflexivity.
  - destruct IHn as (p & L & E); [auto|].
    exists (padd p (pscal (y n) (F n))). split.
    + rewrite length_padd. unfold pscal. rewrite map_length. specialize (H n ltac:(lia)). lia.
    + intros x. rewrite peval_padd, peval_pscal, E. reflexivity.
Qed.

Lemma barycentric_poly nodes yi : distinct nodes ->
  exists p, (length p <= length nodes)%nat /\ forall x, peval p x = barycentric nodes yi x.
Proof.
  intros Hd.
  assert (HF : forall n, (n <= length nodes)%nat -> exists F : nat -> list R, forall j, (j < n)%nat ->
     (length (F j) <= length nodes)%nat /\ forall x, peval (F j) x = lagrange_basis nodes j x).
  { induction n; intros Hn.
    - exists (fun _ => []). intros; lia.
    - destruct IHn as [F HF]; [lia|].
      destruct (lagrange_poly nodes n (length nodes)) as (p & _ & L & E).
      { intros k Hk Hne. apply Hd; auto; lia. }
      exists (fun j => if Nat.eqb j n then p else F j). intros j Hj.
      destruct (Nat.eqb_spec j n) as [->|].
      + split; auto. 
      + apply HF. lia. }
  destruct (HF (length nodes) (le_n _)) as [F HF'].
  destruct (poly_sum (length nodes) F yi (length nodes)) as (p & L & E).
  { intros j Hj. apply HF'; auto. }
  exists p. split; auto. intros x. rewrite E. unfold barycentric. apply rsum_ext.
  intros j Hj. rewrite (proj2 (HF' j Hj)). reflexivity.
Qed.

Lemma barycentric_exact nodes yi p : distinct nodes -> (length p <= length nodes)%nat ->
  (forall k, (k < length nodes)%nat -> yi k = peval p (nth k nodes 0)) ->
  forall x, barycentric nodes yi x = peval p x.
Proof.
  intros Hd Hl Hy x. destruct (barycentric_poly nodes yi Hd) as (q & Lq & Eq).
  assert (Z : forall x, peval (padd q (pscal (-1) p)) x = 0).
  { apply (poly_zero_roots (length nodes) _ (fun k => nth k nodes 0)).
    - rewrite length_padd. unfold pscal. rewrite map_length. lia.
    - intros; apply Hd; auto.
    - intros k Hk. rewrite peval_padd, peval_pscal, Eq, barycentric_at_node, Hy by auto. ring. }
  specialize (Z x). rewrite peval_padd, peval_pscal, Eq in Z. lra.
Qed.

Lemma map_opp_distinct l : distinct l -> distinct (map Ropp l).
Proof.
  intros H i j Hi Hj Hne. rewrite map_length in *.
  rewrite !(nth_map_d Ropp l _ 0 0) by auto. intros E. apply (H i j); auto. lra.
Qed.
Lemma GL_distinct' lg N : leggauss_ok N (lg N) -> distinct (fst (Gauss_Legendre_quad lg N 0 1)).
Proof.
  intros H i j Hi Hj Hne. destruct (GL_lengths lg N 0 1 H) as [L _]. rewrite L in *.
  apply GL_distinct; auto. lra.
Qed.

(** ** Diagonal ordered form *)
Lemma wrap_nonneg n z : (0 <= z < Z.of_nat n)%Z -> wrap n z = Ok (Z.to_nat z).
Proof.
  intros H. unfold wrap. replace (0 <=? z)%Z with true by (symmetry; apply Z.leb_le; lia).
  replace (z <? Z.of_nat n)%Z with true by (symmetry; apply Z.ltb_lt; lia). auto.
Qed.
Lemma wrap_neg n z : (- Z.of_nat n <= z < 0)%Z -> wrap n z = Ok (Z.to_nat (z + Z.of_nat n)).
Proof.
  intros H. unfold wrap. replace (0 <=? z)%Z with false by (symmetry; apply Z.leb_gt; lia).
  replace (- Z.of_nat n <=? z)%Z with true by (symmetry; apply Z.leb_le; lia).
  replace (z <? 0)%Z with true by (symmetry; apply Z.ltb_lt; lia). auto.
Qed.

(** index read by row with shift [s], column [j] *)
Definition wrapped (n : nat) (z : Z) : nat := if (0 <=? z)%Z then Z.to_nat z else Z.to_nat (z + Z.of_nat n).

Lemma diag_row_ok {V} n (A : nat -> nat -> V) s :
  (0 <= s <= Z.of_nat n)%Z ->
  diag_row n A s = Ok (map (fun j => A (wrapped n (Z.of_nat j - s)) j) (seq 0 n)).
Proof.
  intros Hs. unfold diag_row. apply rmap_Ok. intros j Hj. apply in_seq in Hj.
  unfold wrapped. destruct (Z.leb_spec 0 (Z.of_nat j - s)).
  - rewrite wrap_nonneg by lia. reflexivity.
  - rewrite wrap_neg by lia. reflexivity.
Qed.

Lemma diag_ordered_ok {V} n (A : nat -> nat -> V) u l (d : V) :
  (u <= n)%nat -> (l <= n)%nat ->
  exists ab, to_diag_ordered_form n A u l = Ok ab /\ length ab = (u + l + 1)%nat /\
   (forall r, (r < u + l + 1)%nat -> length (nth r ab []) = n) /\
   (forall i j, (i < n)%nat -> (j < n)%nat -> (j <= i + u)%nat -> (i <= j + l)%nat ->
      nth j (nth (u + i - j) ab []) d = A i j).
Proof.
  intros Hu Hl. unfold to_diag_ordered_form.
  rewrite (rmap_Ok _ (fun r => map (fun j => A (wrapped n (Z.of_nat j - Z.of_nat (u - r))) j) (seq 0 n))).
  2:{ intros r Hr. apply in_seq in Hr. apply diag_row_ok. lia. }
  cbn [bind].
  rewrite (rmap_Ok _ (fun r => map (fun j => A (wrapped n (Z.of_nat j - (Z.of_nat n - 1 - Z.of_nat r))) j) (seq 0 n))).
  2:{ intros r Hr. apply in_seq in Hr. apply diag_row_ok. lia. }
  cbn [bind]. eexists. split; [reflexivity|]. split; [|split].
  - rewrite app_length, !map_length, !seq_length. lia.
  - intros r Hr. destruct (lt_dec r (S u)).
    + rewrite app_nth1 by (rewrite map_length, seq_length; auto).
      rewrite nth_seq0_map, map_length, seq_length; auto.
    + rewrite app_nth2 by (rewrite map_length, seq_length; lia).
      rewrite map_length, seq_length, nth_seq0_map, map_length, seq_length; auto; lia.
  - intros i j Hi Hj H1 H2. destruct (le_lt_dec i j) as [Hij|Hij].
    + rewrite app_nth1 by (rewrite map_length, seq_length; lia).
      rewrite nth_seq0_map by lia. rewrite nth_seq0_map by lia. f_equal.
      unfold wrapped. destruct (Z.leb_spec 0 (Z.of_nat j - Z.of_nat (u - (u + i - j)))); lia.
    + rewrite app_nth2 by (rewrite map_length, seq_length; lia).
      rewrite map_length, seq_length. rewrite nth_seq0_map by lia. rewrite nth_seq0_map by lia. f_equal.
      unfold wrapped.
      destruct (Z.leb_spec 0 (Z.of_nat j - (Z.of_nat n - 1 - Z.of_nat (u + i - j - S u)))); lia.
Qed.
