(** Uniqueness of the quadrature and of the reported modes; independence of the linear algebra. *)
From Coq Require Import Classical String Reals Lra Lia List Bool Arith ZArith.
From Coquelicot Require Import Coquelicot.
From Verif Require Import Base Tensor Spec M_LinAlg Spec_RTE Calc M_Subroutines M_GenPart M_MathscrV M_Coeffs M_Assemble M_Pydisort
  P_Quad P_Sub P_Sub2 P_GenPart3 P_Tensor P_Teq P_MathscrV P_Coeffs P_Coeffs2 P_Coeffs3 P_Assemble P_Solve Spec_Sol P_Valid P_Pydisort P_Pydisort2 P_Pydisort3 P_Pydisort4 P_Pydisort5
  Spec_Calls P_Same P_Whole P_NT3 P_LinA P_Unique Spec_Unique.
Import ListNotations.
Local Open Scope R_scope.

(** ** Quadrature *)
Lemma dg_rule n mu w f : double_gauss n mu w -> (length f <= 2 * n)%nat -> rsum n (fun i => w i * peval f (nth i mu 0)) = RInt (peval f) 0 1.
Proof.
  intros (L & _ & _ & _ & H) Hf. rewrite <- (H f Hf). unfold quadsum. rewrite firstn_length, Nat.min_l by lia.
  apply rsum_ext. intros i Hi. rewrite (nth_seq0_map w) by auto. f_equal. f_equal.
  rewrite <- (firstn_skipn n mu) at 1. rewrite app_nth1; auto. rewrite firstn_length, Nat.min_l; lia.
Qed.
Lemma dg_distinct n mu w : double_gauss n mu w -> distinct (firstn n mu).
Proof.
  intros (L & _ & D & _) i j Hi Hj Hne. rewrite firstn_length, Nat.min_l in Hi, Hj by lia.
  assert (E : forall k, (k < n)%nat -> nth k (firstn n mu) 0 = nth k mu 0).
  { intros k Hk. rewrite <- (firstn_skipn n mu) at 2. rewrite app_nth1; auto. rewrite firstn_length, Nat.min_l; lia. }
  rewrite !E by auto. apply D; lia.
Qed.
Lemma dg_weights n mu w w' : double_gauss n mu w -> double_gauss n mu w' -> forall i, (i < n)%nat -> w i = w' i.
Proof.
  intros H H' i Hi. pose proof (dg_distinct n mu w H) as Hd. pose proof H as (L & _).
  assert (Ln : length (firstn n mu) = n) by (rewrite firstn_length, Nat.min_l; lia).
  destruct (barycentric_poly (firstn n mu) (fun k => delta k i) Hd) as (f & Lf & Ef).
  assert (E : forall k, (k < n)%nat -> peval f (nth k mu 0) = delta k i).
  { intros k Hk. rewrite Ef. replace (nth k mu 0) with (nth k (firstn n mu) 0).
    - refine (barycentric_at_node _ (fun k => delta k _) k _ _); auto; lia.
    - rewrite <- (firstn_skipn n mu) at 2. rewrite app_nth1; auto. lia. }
  assert (S : forall v, rsum n (fun k => v k * peval f (nth k mu 0)) = v i).
  { intros v. rewrite (rsum_ext n _ (fun k => v k * delta k i)) by (intros; rewrite E by auto; reflexivity). apply rsum_delta_r; auto. }
  rewrite <- (S w), <- (S w'). rewrite !(dg_rule n mu); auto; lia.
Qed.

(** Nodal polynomial times a polynomial. *)
Lemma nodal_mul (x : nat -> R) n f : exists g, (length g <= n + length f)%nat /\ forall t, peval g t = rprod n (fun i => t - x i) * peval f t.
Proof.
  induction n.
  - exists f. split; [lia|]. intros t. cbn. ring.
  - destruct IHn as (g & L & E). exists (pmul_lin 1 (- x n) g). split; [rewrite length_pmul_lin; lia|].
    intros t. rewrite peval_pmul_lin, E. cbn [rprod]. ring.
Qed.
Lemma nodal_monic (x : nat -> R) n : exists c, (length c <= n)%nat /\ forall t, rprod n (fun i => t - x i) = t ^ n + peval c t.
Proof.
  induction n.
  - exists []. split; [cbn; lia|]. intros t. cbn. ring.
  - destruct IHn as (c & L & E). exists (padd (pmul_lin 1 (- x n) c) (pscal (- x n) (repeat 0 n ++ [1]))). split.
    + rewrite length_padd, length_pmul_lin. unfold pscal. rewrite map_length, app_length, repeat_length. change (length [1]) with 1%nat. lia.
    + intros t. assert (P : peval (repeat 0 n ++ [1]) t = t ^ n).
      { clear. induction n; cbn; [ring|]. rewrite IHn. ring. }
      rewrite peval_padd, peval_pmul_lin, peval_pscal, P. cbn [rprod pow]. rewrite E. ring.
Qed.
Lemma rsum_sq_0 n (w q : nat -> R) : (forall i, (i < n)%nat -> 0 < w i) -> rsum n (fun i => w i * (q i * q i)) = 0 -> forall i, (i < n)%nat -> q i = 0.
Proof.
  intros Hw H i Hi. assert (Hp : forall k, (k < n)%nat -> 0 <= w k * (q k * q k)).
  { intros k Hk. apply Rmult_le_pos; [apply Rlt_le; auto|]. apply (Rle_0_sqr (q k)). }
  assert (Hle : w i * (q i * q i) <= 0).
  { rewrite <- H. clear H Hw. revert i Hi. induction n; intros i Hi; [lia|]. cbn [rsum].
    assert (P0 : forall m, (m <= n)%nat -> 0 <= rsum m (fun i => w i * (q i * q i))).
    { induction m; intros Hm; cbn; [lra|]. specialize (IHm ltac:(lia)). specialize (Hp m ltac:(lia)). lra. }
    destruct (Nat.eq_dec i n) as [->|]; [specialize (P0 n ltac:(lia)); lra|].
    specialize (IHn (fun k Hk => Hp k ltac:(lia)) i ltac:(lia)). specialize (Hp n ltac:(lia)). lra. }
  specialize (Hw i Hi). assert (Z : q i * q i <= 0) by (apply (Rmult_le_reg_l (w i)); auto; lra).
  pose proof (Rle_0_sqr (q i)) as Hs. unfold Rsqr in Hs. assert (Z0 : q i * q i = 0) by lra. apply Rmult_integral in Z0 as [?|?]; auto.
Qed.
Lemma rprod_root n (f : nat -> R) : rprod n f = 0 -> exists k, (k < n)%nat /\ f k = 0.
Proof.
  induction n; cbn; intros H; [lra|]. apply Rmult_integral in H as [H|H].
  - destruct (IHn H) as (k & Hk & E). exists k. split; auto.
  - exists n. auto.
Qed.

Theorem dg_nodes n mu w mu' w' : double_gauss n mu w -> double_gauss n mu' w' ->
  forall i, (i < n)%nat -> exists j, (j < n)%nat /\ nth i mu 0 = nth j mu' 0 /\ w i = w' j.
Proof.
  intros H H'. set (x := fun i => nth i mu 0). set (y := fun i => nth i mu' 0).
  destruct (nodal_monic x n) as (c & Lc & Ec). destruct (nodal_monic y n) as (d & Ld & Ed).
  set (q := padd c (pscal (-1) d)). assert (Lq : (length q <= n)%nat) by (unfold q; rewrite length_padd; unfold pscal; rewrite map_length; lia).
  assert (Eq : forall t, peval q t = rprod n (fun i => t - x i) - rprod n (fun i => t - y i)) by (intros t; unfold q; rewrite peval_padd, peval_pscal, Ec, Ed; ring).
  destruct (nodal_mul x n q) as (P & LP & EP). destruct (nodal_mul y n q) as (Q & LQ & EQ).
  assert (Z : forall z k, (k < n)%nat -> rprod n (fun i => z k - z i) = 0) by (intros z k Hk; apply (rprod_0 _ _ k); auto; ring).
  assert (I1 : RInt (peval P) 0 1 = 0).
  { rewrite <- (dg_rule n mu w P H) by lia. apply rsum_0. intros i Hi. rewrite EP. change (nth i mu 0) with (x i). rewrite (Z x i Hi). ring. }
  assert (I2 : RInt (peval Q) 0 1 = 0).
  { rewrite <- (dg_rule n mu' w' Q H') by lia. apply rsum_0. intros i Hi. rewrite EQ. change (nth i mu' 0) with (y i). rewrite (Z y i Hi). ring. }
  assert (I3 : rsum n (fun i => w i * (peval q (x i) * peval q (x i))) = 0).
  { transitivity (rsum n (fun i => w i * peval P (x i)) - rsum n (fun i => w i * peval Q (x i))).
    - rewrite <- rsum_minus. apply rsum_ext. intros i Hi. rewrite EP, EQ. rewrite (Eq (x i)) at 1. ring.
    - unfold x. rewrite !(dg_rule n mu w) by (auto; lia). rewrite I1, I2. ring. }
  assert (R1 : forall i, (i < n)%nat -> exists j, (j < n)%nat /\ x i = y j).
  { intros i Hi. pose proof (rsum_sq_0 n w (fun i => peval q (x i)) (fun k Hk => proj2 (proj2 (proj1 (proj2 H) k Hk))) I3 i Hi) as E.
    cbv beta in E. rewrite Eq, (Z x i Hi) in E. assert (E' : rprod n (fun k => x i - y k) = 0) by lra.
    apply rprod_root in E' as (j & Hj & E'). exists j. split; auto. lra. }
  intros i Hi. destruct (R1 i Hi) as (j & Hj & E). exists j. split; auto. split; [exact E|].
  (* the Lagrange polynomial of the second rule *)
  pose proof (dg_distinct n mu' w' H') as Hd. pose proof H' as (L & _).
  assert (Ln : length (firstn n mu') = n) by (rewrite firstn_length, Nat.min_l; lia).
  destruct (barycentric_poly (firstn n mu') (fun k => delta k j) Hd) as (f & Lf & Ef).
  assert (Ey : forall k, (k < n)%nat -> peval f (y k) = delta k j).
  { intros k Hk. rewrite Ef. unfold y. replace (nth k mu' 0) with (nth k (firstn n mu') 0).
    - refine (barycentric_at_node _ (fun k => delta k _) k _ _); auto; lia.
    - rewrite <- (firstn_skipn n mu') at 2. rewrite app_nth1; auto. lia. }
  transitivity (RInt (peval f) 0 1).
  - rewrite <- (dg_rule n mu w f H) by lia. symmetry. rewrite (rsum_single n i).
    + change (nth i mu 0) with (x i). rewrite E, Ey by auto. rewrite delta_eq. ring.
    + auto.
    + intros k Hk Hne. change (nth k mu 0) with (x k). destruct (R1 k Hk) as (j' & Hj' & E'). rewrite E', Ey by auto.
      rewrite delta_ne; [ring|]. intros ->. pose proof H as (_ & _ & D & _). destruct H as (LL & _). apply (D i k); try lia. unfold x in *. congruence.
  - rewrite <- (dg_rule n mu' w' f H') by lia. rewrite (rsum_single n j).
    + change (nth j mu' 0) with (y j). rewrite Ey by auto. rewrite delta_eq. ring.
    + auto.
    + intros k Hk Hne. change (nth k mu' 0) with (y k). rewrite Ey, delta_ne by auto. ring.
Qed.
(** Increasing nodes are the same nodes. *)
Lemma inc_id n (f : nat -> nat) : (forall i, (i < n)%nat -> (f i < n)%nat) -> (forall i, (S i < n)%nat -> (f i < f (S i))%nat) -> forall i, (i < n)%nat -> f i = i.
Proof.
  intros Hf Hm. assert (L : forall i, (i < n)%nat -> (i <= f i)%nat).
  { induction i; intros Hi; [lia|]. specialize (IHi ltac:(lia)). specialize (Hm i Hi). lia. }
  assert (U : forall k i, (i + k < n)%nat -> (f i + k <= f (i + k))%nat).
  { induction k; intros i Hi; [rewrite !Nat.add_0_r; lia|]. specialize (IHk i ltac:(lia)). specialize (Hm (i + k)%nat ltac:(lia)). replace (i + S k)%nat with (S (i + k)) by lia. lia. }
  intros i Hi. specialize (L i Hi). specialize (U (n - 1 - i)%nat i ltac:(lia)). replace (i + (n - 1 - i))%nat with (n - 1)%nat in U by lia.
  specialize (Hf (n - 1)%nat ltac:(lia)). lia.
Qed.
Theorem dg_sorted n mu w mu' w' : double_gauss n mu w -> double_gauss n mu' w' ->
  (forall i, (S i < n)%nat -> nth i mu 0 < nth (S i) mu 0) -> (forall i, (S i < n)%nat -> nth i mu' 0 < nth (S i) mu' 0) ->
  mu = mu' /\ forall i, (i < n)%nat -> w i = w' i.
Proof.
  intros H H' I I'. 
  assert (Mono : forall i j, (i < n)%nat -> (j < n)%nat -> nth i mu' 0 < nth j mu' 0 -> (i < j)%nat).
  { intros i j Hi Hj Hlt. destruct (Nat.lt_ge_cases i j) as [|Hge]; auto. exfalso.
    assert (Hle : forall k, (j + k < n)%nat -> nth j mu' 0 <= nth (j + k) mu' 0).
    { induction k; intros Hk; [rewrite Nat.add_0_r; lra|]. specialize (IHk ltac:(lia)). specialize (I' (j + k)%nat ltac:(lia)). replace (j + S k)%nat with (S (j + k)) by lia. lra. }
    specialize (Hle (i - j)%nat ltac:(lia)). replace (j + (i - j))%nat with i in Hle by lia. lra. }
  destruct (fin_choice 0%nat (fun i j => (j < n)%nat /\ nth i mu 0 = nth j mu' 0 /\ w i = w' j) n (dg_nodes n mu w mu' w' H H')) as (f & Hf).
  assert (Fid : forall i, (i < n)%nat -> f i = i).
  { apply inc_id; [intros i Hi; apply Hf; auto|]. intros i Hi. apply Mono; [apply Hf; lia|apply Hf; lia|].
    destruct (Hf i ltac:(lia)) as (_ & <- & _). destruct (Hf (S i) Hi) as (_ & <- & _). apply I; auto. }
  assert (E : forall i, (i < n)%nat -> nth i mu 0 = nth i mu' 0 /\ w i = w' i) by (intros i Hi; destruct (Hf i Hi) as (_ & E1 & E2); rewrite (Fid i Hi) in *; auto).
  split; [|intros i Hi; apply E; auto]. destruct H as (L & M & _). destruct H' as (L' & M' & _). apply (nth_ext _ _ 0 0); [lia|].
  intros i Hi. destruct (Nat.lt_ge_cases i n); [apply E; auto|].
  destruct (M (i - n)%nat ltac:(lia)) as (_ & E1 & _). destruct (M' (i - n)%nat ltac:(lia)) as (_ & E2 & _).
  replace (n + (i - n))%nat with i in * by lia. rewrite E1, E2. f_equal. apply E. lia.
Qed.

(** ** The reported modes *)
Lemma wnode_w n w w' j : (forall i, (i < n)%nat -> w i = w' i) -> (j < 2 * n)%nat -> wnode n w j = wnode n w' j.
Proof. intros H Hj. unfold wnode. destruct (Nat.ltb_spec j n); apply H; lia. Qed.
Lemma rte_w p mu w w' wg m l i t V : streams p = (2 * half p)%nat -> (forall i, (i < half p)%nat -> w i = w' i) -> rte p mu w wg m l i t V = rte p mu w' wg m l i t V.
Proof.
  intros Hs H. unfold rte. rewrite Hs. f_equal. f_equal. f_equal. f_equal. apply rsum_ext. intros j Hj. rewrite (wnode_w _ w w') by auto. reflexivity.
Qed.
Lemma rte_diff p mu w wg m l i t V U : rte p mu w wg m l i t V / nth i mu 0 - rte p mu w wg m l i t U / nth i mu 0 =
  scl p l * ((V i - U i) - rsum (streams p) (fun j => wnode (half p) w j * D_spec (albedo_s p l) wg (ncoeffs p) m (nth i mu 0) (nth j mu 0) * (V j - U j))) / nth i mu 0.
Proof.
  unfold rte. rewrite (rsum_ext _ (fun j => wnode (half p) w j * D_spec (albedo_s p l) wg (ncoeffs p) m (nth i mu 0) (nth j mu 0) * (V j - U j))
    (fun j => wnode (half p) w j * D_spec (albedo_s p l) wg (ncoeffs p) m (nth i mu 0) (nth j mu 0) * V j - wnode (half p) w j * D_spec (albedo_s p l) wg (ncoeffs p) m (nth i mu 0) (nth j mu 0) * U j)) by (intros; ring).
  rewrite rsum_minus. unfold Rdiv. ring.
Qed.
Lemma bvp_w p mu w w' vn vp rho m V : streams p = (2 * half p)%nat -> (forall i, (i < half p)%nat -> w i = w' i) -> bvp p mu w vn vp rho m V -> bvp p mu w' vn vp rho m V.
Proof.
  intros Hs H [A B C D]. constructor; auto.
  - intros l i wg t Hl Hi Ht Hc. rewrite <- (rte_w p mu w w') by auto. apply A; auto.
  - intros i Hi. rewrite (D i Hi). f_equal. destruct (Nat.ltb _ _); [|reflexivity]. f_equal. f_equal. apply rsum_ext. intros j Hj. rewrite H by auto. reflexivity.
Qed.

Section Call.
  Variables (p : py_in) (lg : leggauss_t) (la : linalg) (jk : junk) (out : py_out).
  Hypothesis Hla : linalg_ok la.
  Hypothesis Hlu : linalg_unique la.
  Hypothesis Hlg : leggauss_ok (half p) (lg (half p)).
  Hypothesis Hok : pydisort p lg la jk = Ok out.

  (** The problem has at most one solution. *)
  Theorem bvp_unique w vn vp rho m V U : double_gauss (half p) (po_mu out) w -> (m < nmodes p)%nat ->
    ((m < length (p_BDRF p))%nat -> mode_is (nth m (p_BDRF p) (MScal 0)) rho) ->
    bvp p (po_mu out) w vn vp rho m V -> bvp p (po_mu out) w vn vp rho m U ->
    forall i t, (i < streams p)%nat -> 0 <= t <= bottom p -> V i t = U i t.
  Proof.
    intros Hw Hm Hrho HV HU. destruct (pydisort_parts _ _ _ _ _ Hok) as (Val & ss & r & sv & Hs & Hr & Hsv & Emu & _).
    pose proof (mu_arr_gauss p lg Hlg) as HQ.
    rewrite Emu in *. pose proof (dg_weights _ _ _ _ Hw HQ) as Ew.
    pose proof (bvp_w _ _ _ _ _ _ _ _ _ (streams_eq p Val) Ew HV) as [V1 V2 V3 V4]. pose proof (bvp_w _ _ _ _ _ _ _ _ _ (streams_eq p Val) Ew HU) as [U1 U2 U3 U4].
    intros i t Hi Ht. enough (V i t - U i t = 0) by lra.
    refine (hom_unique p Val lg Hlg ss r la Hla Hlu jk sv Hsv m Hm rho Hrho (fun i t => V i t - U i t) _ _ _ _ i t Hi Ht).
    - intros l k wg x Hl Hk Hx Hc. refine (der_eq _ _ _ _ _ (der_minus _ _ _ _ _ (V1 l k wg x Hl Hk Hx Hc) (U1 l k wg x Hl Hk Hx Hc))). apply rte_diff.
    - intros k Hk. apply (cont_on_ext _ _ (fun x => V k x + (-1) * U k x)); [intros; ring|]. apply cont_on_plus; [auto|apply cont_on_scal; auto].
    - intros k Hk. rewrite V3, U3 by auto. ring.
    - intros k Hk. rewrite V4, U4 by auto. destruct (Nat.ltb _ _); [|ring].
      rewrite (rsum_ext _ (fun j => rho (nth k (mu_arr p lg) 0) (nth j (mu_arr p lg) 0) * nth j (mu_arr p lg) 0 * quad_W p lg j * (V (half p + j)%nat (bottom p) - U (half p + j)%nat (bottom p)))
        (fun j => rho (nth k (mu_arr p lg) 0) (nth j (mu_arr p lg) 0) * nth j (mu_arr p lg) 0 * quad_W p lg j * V (half p + j)%nat (bottom p)
                  - rho (nth k (mu_arr p lg) 0) (nth j (mu_arr p lg) 0) * nth j (mu_arr p lg) 0 * quad_W p lg j * U (half p + j)%nat (bottom p))) by (intros; ring).
      rewrite rsum_minus. ring.
  Qed.

  (** The reported modes solve it. *)
  Theorem call_bvp U w vn vp rho : modes_of p out U -> double_gauss (half p) (po_mu out) w ->
    (nonneg (p_bneg p) \/ some_source p) -> (nonneg (p_bpos p) \/ some_source p) ->
    bc_values (p_bneg p) (half p) vn -> bc_values (p_bpos p) (half p) vp ->
    (forall m, (m < length (p_BDRF p))%nat -> mode_is (nth m (p_BDRF p) (MScal 0)) (rho m)) ->
    forall m, seen p m -> bvp p (po_mu out) w vn vp (rho m) m (U m).
  Proof.
    intros HU Hw Hn Hp Hvn Hvp Hrho m Hm. destruct (pydisort_parts _ _ _ _ _ Hok) as (Val & _).
    destruct (call_rte p lg la jk out Hla Hlg Hok U HU) as (w1 & D1 & H1). destruct (call_bottom p lg la jk out Hla Hlg Hok U HU Hp) as (w2 & D2 & H2).
    constructor.
    - intros l i wg t Hl Hi Ht Hc. rewrite (rte_w p _ w w1); [|apply streams_eq; auto|apply (dg_weights _ _ _ _ Hw D1)]. apply H1; auto.
    - intros i Hi. apply (call_continuous p lg la jk out Hla Hlg Hok U HU); auto.
    - intros i Hi. apply (call_top p lg la jk out Hla Hlg Hok U HU vn Hn Hvn); auto.
    - intros i Hi. rewrite (H2 vp rho Hvp Hrho m i Hm Hi). f_equal. destruct (Nat.ltb _ _); [|reflexivity]. f_equal. f_equal. apply rsum_ext. intros j Hj.
      rewrite (dg_weights _ _ _ _ D2 Hw) by auto. reflexivity.
  Qed.
End Call.

Theorem dg_determined n mu w mu' w' : double_gauss n mu w -> double_gauss n mu' w' ->
  (forall i, (i < n)%nat -> exists j, (j < n)%nat /\ nth i mu 0 = nth j mu' 0 /\ w i = w' j) /\
  ((forall i, (S i < n)%nat -> nth i mu 0 < nth (S i) mu 0) -> (forall i, (S i < n)%nat -> nth i mu' 0 < nth (S i) mu' 0) ->
   mu = mu' /\ forall i, (i < n)%nat -> w i = w' i).
Proof. intros H H'. split; [apply dg_nodes; auto|apply dg_sorted; auto]. Qed.
Theorem call_directions p q lg lg' la la' jk jk' out out' : leggauss_ok (half p) (lg (half p)) -> leggauss_ok (half q) (lg' (half q)) ->
  pydisort p lg la jk = Ok out -> pydisort q lg' la' jk' = Ok out' -> p_NQuad p = p_NQuad q ->
  forall i, (i < streams p)%nat -> exists j, (j < streams q)%nat /\ nth i (po_mu out) 0 = nth j (po_mu out') 0.
Proof.
  intros Hlg Hlg' H H' E i Hi. destruct (pydisort_parts _ _ _ _ _ H) as (V & ss & r & sv & _ & _ & _ & Emu & _).
  destruct (pydisort_parts _ _ _ _ _ H') as (V' & ss' & r' & sv' & _ & _ & _ & Emu' & _).
  pose proof (mu_arr_gauss p lg Hlg) as D. pose proof (mu_arr_gauss q lg' Hlg') as D'. rewrite <- Emu in D. rewrite <- Emu' in D'.
  assert (Eh : half q = half p) by (unfold half; rewrite E; reflexivity). rewrite Eh in D'.
  rewrite (streams_eq p V) in Hi. rewrite (streams_eq q V'), Eh. pose proof (dg_nodes _ _ _ _ _ D D') as N.
  destruct D as (_ & M & _). destruct D' as (_ & M' & _). destruct (Nat.lt_ge_cases i (half p)) as [Hh|Hh].
  - destruct (N i Hh) as (j & Hj & Ej & _). exists j. split; [lia|exact Ej].
  - destruct (N (i - half p)%nat ltac:(lia)) as (j & Hj & Ej & _). exists (half p + j)%nat. split; [lia|].
    destruct (M (i - half p)%nat ltac:(lia)) as (_ & E1 & _). destruct (M' j Hj) as (_ & E2 & _). replace (half p + (i - half p))%nat with i in E1 by lia. congruence.
Qed.
Theorem call_only p lg la jk out : linalg_ok la -> linalg_unique la -> leggauss_ok (half p) (lg (half p)) -> pydisort p lg la jk = Ok out ->
  forall U, modes_of p out U -> forall w, double_gauss (half p) (po_mu out) w ->
  (nonneg (p_bneg p) \/ some_source p) -> (nonneg (p_bpos p) \/ some_source p) ->
  forall vn vp, bc_values (p_bneg p) (half p) vn -> bc_values (p_bpos p) (half p) vp ->
  forall rho, (forall m, (m < length (p_BDRF p))%nat -> mode_is (nth m (p_BDRF p) (MScal 0)) (rho m)) ->
  forall m, seen p m ->
  bvp p (po_mu out) w vn vp (rho m) m (U m) /\
  forall V, bvp p (po_mu out) w vn vp (rho m) m V -> forall i t, (i < streams p)%nat -> 0 <= t <= bottom p -> V i t = U m i t.
Proof.
  intros Hla Hlu Hlg Hok U HU w Hw Hn Hp vn vp Hvn Hvp rho Hrho m Hm.
  pose proof (call_bvp p lg la jk out Hla Hlg Hok U w vn vp rho HU Hw Hn Hp Hvn Hvp Hrho m Hm) as B. split; [exact B|].
  intros V HV. apply (bvp_unique p lg la jk out Hla Hlu Hlg Hok w vn vp (rho m) m V (U m) Hw (proj1 Hm) (Hrho m) HV B).
Qed.
