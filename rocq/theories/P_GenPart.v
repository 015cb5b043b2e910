(** Proofs about _solve_for_gen_and_part_sols. *)
From Coq Require Import String Reals Lra Lia List Bool Arith ZArith.
From Verif Require Import Base Tensor Spec M_LinAlg Spec_RTE P_Special M_GenPart.
Import ListNotations.
Local Open Scope R_scope.

(** ** Block and segment writes *)
Lemma setblk_in M i0 j0 nr nc V i j : (i0 <= i < i0 + nr)%nat -> (j0 <= j < j0 + nc)%nat ->
  setblk M i0 j0 nr nc V i j = V (i - i0)%nat (j - j0)%nat.
Proof.
  intros H1 H2. unfold setblk.
  rewrite (proj2 (Nat.leb_le i0 i)), (proj2 (Nat.ltb_lt i (i0 + nr))), (proj2 (Nat.leb_le j0 j)), (proj2 (Nat.ltb_lt j (j0 + nc))) by lia.
  reflexivity.
Qed.
Lemma setblk_out M i0 j0 nr nc V i j : ~ ((i0 <= i < i0 + nr)%nat /\ (j0 <= j < j0 + nc)%nat) ->
  setblk M i0 j0 nr nc V i j = M i j.
Proof.
  intros H. unfold setblk.
  destruct (Nat.leb_spec i0 i); destruct (Nat.ltb_spec i (i0 + nr)); destruct (Nat.leb_spec j0 j);
    destruct (Nat.ltb_spec j (j0 + nc)); auto. exfalso; apply H; lia.
Qed.
Lemma setseg_in v i0 n w i : (i0 <= i < i0 + n)%nat -> setseg v i0 n w i = w (i - i0)%nat.
Proof.
  intros H. unfold setseg. rewrite (proj2 (Nat.leb_le _ _)), (proj2 (Nat.ltb_lt _ _)) by lia. reflexivity.
Qed.
Lemma setseg_out v i0 n w i : ~ (i0 <= i < i0 + n)%nat -> setseg v i0 n w i = v i.
Proof.
  intros H. unfold setseg. destruct (Nat.leb_spec i0 i); destruct (Nat.ltb_spec i (i0 + n)); auto. exfalso; lia.
Qed.
Lemma upd_eq {V} (a : nat -> V) k v : upd a k v k = v.
Proof. unfold upd. rewrite Nat.eqb_refl; auto. Qed.
Lemma upd_ne {V} (a : nat -> V) k v i : i <> k -> upd a k v i = a i.
Proof. intros. unfold upd. rewrite (proj2 (Nat.eqb_neq _ _)); auto. Qed.

(** ** Fancy-index assignment *)
Lemma scatter_out {V U} (f : V -> U -> V) ids vals arr i : ~ In i ids -> scatter f ids vals arr i = arr i.
Proof.
  revert vals arr; induction ids as [|k ids IH]; intros [|v vals] arr H; simpl; auto.
  rewrite IH by (intros C; apply H; right; auto). apply upd_ne. intros ->. apply H; left; auto.
Qed.
Lemma scatter_in {V U} (f : V -> U -> V) ids vals arr q d (dv : U) :
  NoDup ids -> length vals = length ids -> (q < length ids)%nat ->
  scatter f ids vals arr (nth q ids d) = f (arr (nth q ids d)) (nth q vals dv).
Proof.
  revert vals arr q; induction ids as [|k ids IH]; intros [|v vals] arr q Hn Hl Hq; simpl in *; try lia.
  inversion Hn; subst. destruct q as [|q].
  - rewrite scatter_out by auto. rewrite upd_eq. reflexivity.
  - rewrite IH by (auto; lia). rewrite upd_ne; [reflexivity|].
    intros E. apply H1. rewrite <- E. apply nth_In. lia.
Qed.

Lemma rmap_spec {A B} (f : A -> res B) l r : rmap f l = Ok r ->
  length r = length l /\ forall q da db, (q < length l)%nat -> f (nth q l da) = Ok (nth q r db).
Proof.
  revert r; induction l as [|x l IH]; intros r H; simpl in H.
  - inversion H; subst. split; auto. intros; simpl in *; lia.
  - apply bind_Ok in H as (y & E1 & H). apply bind_Ok in H as (ys & E2 & H). inversion H; subst; clear H.
    destruct (IH ys E2) as [L Hq]. split; [simpl; auto|].
    intros [|q] da db Hlt; simpl in *; auto. apply Hq; lia.
Qed.
Lemma rmap_ext {A B} (f g : A -> res B) l : (forall x, In x l -> f x = g x) -> rmap f l = rmap g l.
Proof.
  induction l; intros H; auto. simpl. rewrite H by (left; auto).
  rewrite IHl by (intros; apply H; right; auto). auto.
Qed.
Lemma rmap_map {A B C} (f : B -> res C) (h : A -> B) l : rmap f (map h l) = rmap (fun x => f (h x)) l.
Proof. induction l; simpl; auto. rewrite IHl. auto. Qed.

Lemma in_nth_ex {A} (l : list A) x d : In x l -> exists q, (q < length l)%nat /\ nth q l d = x.
Proof. intros H. destruct (In_nth l x d H) as (q & H1 & H2). eauto. Qed.

(** ** Loops over a counted range *)
Lemma fold_seq_inv {S} (P : nat -> S -> Prop) (f : S -> nat -> S) a n s :
  P a s -> (forall k s, (a <= k < a + n)%nat -> P k s -> P (Datatypes.S k) (f s k)) ->
  P (a + n)%nat (fold_left f (seq a n) s).
Proof.
  revert a s; induction n; intros a s H0 Hs; simpl.
  - rewrite Nat.add_0_r. auto.
  - replace (a + Datatypes.S n)%nat with (Datatypes.S a + n)%nat by lia. apply IHn.
    + apply Hs; auto; lia.
    + intros; apply Hs; auto; lia.
Qed.

Lemma seq_S_r n : seq 0 (S n) = seq 0 n ++ [n].
Proof. rewrite seq_S. reflexivity. Qed.
Lemma filter_seq_S f n : filter f (seq 0 (S n)) = filter f (seq 0 n) ++ (if f n then [n] else []).
Proof. rewrite seq_S_r, filter_app. simpl. destruct (f n); auto. Qed.

Lemma rows_ext n m A B : (forall i j, (i < n)%nat -> (j < m)%nat -> A i j = B i j) -> rows n m A = rows n m B.
Proof.
  intros H. unfold rows. apply map_ext_in. intros i Hi. apply map_ext_in. intros j Hj.
  apply in_seq in Hi. apply in_seq in Hj. apply H; lia.
Qed.
Lemma vlist_ext n v w : (forall i, (i < n)%nat -> v i = w i) -> vlist n v = vlist n w.
Proof. intros H. unfold vlist. apply map_ext_in. intros i Hi. apply in_seq in Hi. apply H; lia. Qed.
Lemma of_rows_rows n m A i j : (i < n)%nat -> (j < m)%nat -> of_rows (rows n m A) i j = A i j.
Proof.
  intros Hi Hj. unfold of_rows, rows.
  rewrite (nth_map_d _ _ _ 0%nat) by (rewrite seq_length; auto).
  rewrite (nth_map_d _ _ _ 0%nat) by (rewrite seq_length; auto).
  rewrite !seq_nth by auto. reflexivity.
Qed.
Lemma of_list_vlist n v i : (i < n)%nat -> of_list (vlist n v) i = v i.
Proof.
  intros Hi. unfold of_list, vlist.
  rewrite (nth_map_d _ _ _ 0%nat) by (rewrite seq_length; auto). rewrite seq_nth by auto. reflexivity.
Qed.

Section GP.
  Variable g : gp_in.
  Let N := gp_N g.
  Let NQ := (2 * gp_N g)%nat.
  Let NL := gp_NLayers g.
  Let NF := gp_NFourier g.

  (** *** The trivial eigenvector matrix *)
  Lemma existsb_seq_iff (f : nat -> bool) n : existsb f (seq 0 n) = true <-> exists t, (t < n)%nat /\ f t = true.
  Proof.
    rewrite existsb_exists. split.
    - intros (t & Ht & E). apply in_seq in Ht. exists t. split; auto; lia.
    - intros (t & Ht & E). exists t. split; auto. apply in_seq. lia.
  Qed.

  Lemma G_trivial_spec i j : (i < NQ)%nat -> (j < NQ)%nat ->
    G_trivial g i j = if Nat.ltb i N then delta (N + i)%nat j else delta (i - N)%nat j.
  Proof.
    intros Hi Hj. unfold G_trivial. fold N.
    set (q := (i * (2 * N) + j)%nat).
    assert (Hq : forall s t, Nat.eqb q (s + t * (2 * N + 1)) = true <-> q = (s + t * (2 * N + 1))%nat)
      by (intros; apply Nat.eqb_eq).
    assert (U : forall a b, (b < 2 * N)%nat -> q = (a * (2 * N) + b)%nat -> a = i /\ b = j).
    { intros a b Hb E. unfold q in E. unfold NQ in Hj. fold N in Hj.
      assert (E1 : ((i * (2 * N) + j) / (2 * N) = (a * (2 * N) + b) / (2 * N))%nat) by congruence.
      rewrite !Nat.div_add_l, !Nat.div_small in E1 by lia. split; [lia|].
      assert (a = i) by lia. subst a. lia. }
    destruct (existsb (fun t => Nat.eqb q (N + t * (2 * N + 1))) (seq 0 N)) eqn:E1.
    - apply existsb_seq_iff in E1 as (t & Ht & E). apply Hq in E.
      destruct (U t (N + t)%nat) as [Ea Eb]; [lia|rewrite E; lia|]. subst i j.
      cbn [orb]. rewrite (proj2 (Nat.ltb_lt _ _)) by auto. unfold delta. rewrite Nat.eqb_refl. reflexivity.
    - destruct (existsb (fun t => Nat.eqb q (2 * N * N + t * (2 * N + 1))) (seq 0 N)) eqn:E2.
      + apply existsb_seq_iff in E2 as (t & Ht & E). apply Hq in E.
        destruct (U (N + t)%nat t) as [Ea Eb]; [lia|rewrite E; lia|]. subst i j.
        cbn [orb]. rewrite (proj2 (Nat.ltb_ge _ _)) by lia. unfold delta.
        replace (N + t - N)%nat with t by lia. rewrite Nat.eqb_refl. reflexivity.
      + cbn [orb]. destruct (Nat.ltb_spec i N) as [Hl|Hl]; unfold delta.
        * destruct (Nat.eqb_spec (N + i) j); auto. subst j. exfalso.
          assert (existsb (fun t => Nat.eqb q (N + t * (2 * N + 1))) (seq 0 N) = true); [|congruence].
          apply existsb_seq_iff. exists i. split; auto. apply Hq. unfold q. lia.
        * destruct (Nat.eqb_spec (i - N) j); auto. subst j. exfalso. unfold NQ in Hi. fold N in Hi.
          assert (existsb (fun t => Nat.eqb q (2 * N * N + t * (2 * N + 1))) (seq 0 N) = true); [|congruence].
          apply existsb_seq_iff. exists (i - N)%nat. split; [lia|]. apply Hq. unfold q.
          remember (i - N)%nat as t. assert (i = N + t)%nat by lia. subst i. lia.
  Qed.

  (** *** Loop invariant *)
  Definition sc (p : nat) : bool := scatters g (p / NL) (p mod NL).

  Definition Inv (p : nat) (s : gp_st) : Prop :=
    s_ind s = p /\
    s_nsi s = filter sc (seq 0 p) /\
    s_nsi0 s = (if gp_iso g then filter (scatters g 0) (seq 0 (Nat.min p NL)) else []) /\
    (forall k, sB s k = fun _ => 0) /\
    (forall m l, (l < NL)%nat -> (m * NL + l < p)%nat ->
      let k := (m * NL + l)%nat in
      if scatters g m l then
        (forall i j, (i < N)%nat -> (j < N)%nat ->
           sA s k (N + i)%nat j = beta g m l i j /\ sA s k (N + i)%nat (N + j)%nat = alpha g m l i j) /\
        (gp_beam g = true -> forall i, (i < N)%nat ->
           sX s k i = gp_M_inv g i * X_pos g m l i /\ sX s k (N + i)%nat = - gp_M_inv g i * X_neg g m l i)
      else
        sG s k = G_trivial g /\
        (forall i, (i < N)%nat -> sK s k i = - gp_M_inv g i /\ sK s k (N + i)%nat = gp_M_inv g i)) /\
    (gp_iso g = true -> forall l, (l < Nat.min p NL)%nat -> scatters g 0 l = false -> sGi s l = G_trivial g).

  Lemma divmod_k m l : (l < NL)%nat -> ((m * NL + l) / NL = m /\ (m * NL + l) mod NL = l)%nat.
  Proof.
    intros Hl. split.
    - rewrite Nat.div_add_l by lia. rewrite Nat.div_small by auto. lia.
    - rewrite Nat.add_comm, Nat.mod_add by lia. apply Nat.mod_small; auto.
  Qed.

  Lemma sc_k m l : (l < NL)%nat -> sc (m * NL + l) = scatters g m l.
  Proof. intros H. unfold sc. destruct (divmod_k m l H) as [-> ->]. reflexivity. Qed.

  Lemma k_inj m l m' l' : (l < NL)%nat -> (l' < NL)%nat -> (m * NL + l = m' * NL + l')%nat -> m = m' /\ l = l'.
  Proof.
    intros Hl Hl' E. pose proof (divmod_k m l Hl) as [A B]. pose proof (divmod_k m' l' Hl') as [A' B'].
    rewrite E in A, B. split; congruence.
  Qed.

  Lemma step_inv m l s : (l < NL)%nat -> Inv (m * NL + l) s -> Inv (S (m * NL + l)) (gp_step g m s l).
  Proof.
    intros Hl (I1 & I2 & I3 & I4 & I5 & I6).
    set (p := (m * NL + l)%nat) in *.
    assert (Hsc : sc p = scatters g m l) by (apply sc_k; auto).
    assert (Hmin : forall c, (if (Nat.eqb m 0)%bool then c = l else True) -> True) by auto.
    assert (Hm0 : (m = 0)%nat -> Nat.min (S p) NL = S l /\ Nat.min p NL = l) by (intros ->; unfold p; lia).
    assert (Hm1 : (m <> 0)%nat -> Nat.min (S p) NL = NL /\ Nat.min p NL = NL) by (unfold p; intros; nia).
    assert (Hlast : forall m' l', (l' < NL)%nat -> (m' * NL + l' < S p)%nat ->
       (m' = m /\ l' = l) \/ ((m' * NL + l' < p)%nat /\ (m' * NL + l' <> p)%nat)).
    { intros m' l' Hl' Hlt. destruct (Nat.eq_dec (m' * NL + l') p) as [E|E]; [left|right; lia].
      unfold p in E. apply k_inj in E; auto. }
    unfold gp_step. rewrite I1. fold N. destruct (scatters g m l) eqn:Es.
    - (* scattering *)
      unfold Inv. cbn [s_ind s_nsi s_nsi0 sB sA sX sG sK sGi].
      split; [reflexivity|]. split; [rewrite filter_seq_S, Hsc, I2; reflexivity|].
      split.
      { rewrite I3. destruct (Nat.eqb_spec m 0) as [E|E]; cbn [andb].
        - destruct (Hm0 E) as [-> ->]. destruct (gp_iso g); [|reflexivity].
          rewrite filter_seq_S. rewrite E in Es. rewrite Es. reflexivity.
        - destruct (Hm1 E) as [-> ->]. reflexivity. }
      split; [exact I4|]. split.
      { intros m' l' Hl' Hlt. destruct (Hlast m' l' Hl' Hlt) as [[-> ->]|[Hlt' Hne]].
        - rewrite Es. fold p. split.
          + intros i j Hi Hj. rewrite !upd_eq. split.
            * rewrite setblk_out by lia. rewrite setblk_in by lia. f_equal; lia.
            * rewrite setblk_in by lia. f_equal; lia.
          + intros Hb i Hi. rewrite Hb. rewrite upd_eq. split.
            * rewrite setseg_out by lia. rewrite setseg_in by lia. rewrite Nat.sub_0_r. reflexivity.
            * rewrite setseg_in by lia. replace (N + i - N)%nat with i by lia. reflexivity.
        - specialize (I5 m' l' Hl' Hlt'). cbv zeta in *. destruct (scatters g m' l'); auto.
          rewrite (upd_ne (sA s)) by auto. destruct I5 as [I5a I5b]. split; auto.
          intros Hb i Hi. rewrite Hb. rewrite upd_ne by auto. apply I5b; auto. }
      { intros Hiso l' Hl' Es'. apply I6; auto.
        destruct (Nat.eq_dec m 0) as [E|E].
        - destruct (Hm0 E) as [A B]. rewrite A in Hl'. rewrite B. rewrite E in Es.
          destruct (Nat.eq_dec l' l); [exfalso; congruence|lia].
        - destruct (Hm1 E) as [A B]. lia. }
    - (* shortcut *)
      unfold Inv. cbn [s_ind s_nsi s_nsi0 sB sA sX sG sK sGi].
      split; [reflexivity|]. split; [rewrite filter_seq_S, Hsc, I2, app_nil_r; reflexivity|].
      split.
      { rewrite I3. destruct (gp_iso g); [|reflexivity].
        destruct (Nat.eq_dec m 0) as [E|E].
        - destruct (Hm0 E) as [-> ->]. rewrite filter_seq_S. rewrite E in Es. rewrite Es, app_nil_r. reflexivity.
        - destruct (Hm1 E) as [-> ->]. reflexivity. }
      split; [exact I4|]. split.
      { intros m' l' Hl' Hlt. destruct (Hlast m' l' Hl' Hlt) as [[-> ->]|[Hlt' Hne]].
        - rewrite Es. fold p. rewrite !upd_eq. split; auto. intros i Hi. split.
          + rewrite setseg_out by lia. rewrite setseg_in by lia. rewrite Nat.sub_0_r. reflexivity.
          + rewrite setseg_in by lia. f_equal. lia.
        - specialize (I5 m' l' Hl' Hlt'). cbv zeta in *. rewrite !upd_ne by auto. auto. }
      { intros Hiso l' Hl' Es'. rewrite Hiso, andb_true_r. destruct (Nat.eqb_spec m 0) as [E|E].
        - destruct (Hm0 E) as [A B]. rewrite A in Hl'. destruct (Nat.eq_dec l' l).
          + subst l'. rewrite upd_eq. reflexivity.
          + rewrite upd_ne by auto. apply I6; auto. lia.
        - destruct (Hm1 E) as [A B]. apply I6; auto. lia. }
  Qed.

  Lemma loop_inv jG jK jA jX jGi : Inv (NF * NL) (gp_loop g (gp_init jG jK jA jX jGi)).
  Proof.
    unfold gp_loop. fold NF NL.
    apply (fold_seq_inv (fun m s => Inv (m * NL) s) _ 0 NF).
    - unfold Inv, gp_init. cbn. repeat split; auto.
      + destruct (gp_iso g); auto.
      + intros; lia.
      + intros; lia.
    - intros m s _ H. replace (S m * NL)%nat with (m * NL + NL)%nat by lia.
      apply (fold_seq_inv (fun l s => Inv (m * NL + l) s) _ 0 NL).
      + rewrite Nat.add_0_r. auto.
      + intros l s' Hl H'. replace (m * NL + S l)%nat with (S (m * NL + l)) by lia. apply step_inv; auto. lia.
  Qed.

  Variable la : linalg.

  (** *** Index lists *)
  Lemma nsi_in s k : Inv (NF * NL) s -> In k (s_nsi s) <-> (k < NF * NL)%nat /\ sc k = true.
  Proof.
    intros (_ & I2 & _). rewrite I2, filter_In, in_seq. split; intros [A B]; split; auto; lia.
  Qed.
  Lemma nsi_nodup s : Inv (NF * NL) s -> NoDup (s_nsi s).
  Proof. intros (_ & I2 & _). rewrite I2. apply NoDup_filter, seq_NoDup. Qed.
  Lemma filter_ext_in' (f h : nat -> bool) l : (forall x, In x l -> f x = h x) -> filter f l = filter h l.
  Proof. induction l; intros H; auto. simpl. rewrite H by (left; auto). rewrite IHl by (intros; apply H; right; auto). auto. Qed.

  Lemma nsi_split s : Inv (NF * NL) s ->
    s_nsi s = (s_nsi0 s ++ skipn (length (s_nsi0 s)) (s_nsi s))%list /\
    (forall k, In k (skipn (length (s_nsi0 s)) (s_nsi s)) <->
       (k < NF * NL)%nat /\ sc k = true /\ (gp_iso g = true -> (NL <= k)%nat)) /\
    (forall k, In k (s_nsi0 s) <-> gp_iso g = true /\ (k < NF * NL)%nat /\ (k < NL)%nat /\ sc k = true).
  Proof.
    intros (_ & I2 & I3 & _). rewrite I2, I3.
    destruct (gp_iso g).
    - set (a := Nat.min (NF * NL) NL).
      assert (Ea : filter (scatters g 0) (seq 0 a) = filter sc (seq 0 a)).
      { apply filter_ext_in'. intros x Hx. apply in_seq in Hx. symmetry.
        rewrite <- (Nat.add_0_l x) at 1. change 0%nat with (0 * NL)%nat at 1. apply sc_k. lia. }
      rewrite Ea.
      replace (seq 0 (NF * NL)) with (seq 0 a ++ seq a (NF * NL - a)).
      2:{ rewrite <- seq_app. f_equal. lia. }
      rewrite filter_app, skipn_app, skipn_all, Nat.sub_diag. cbn [app skipn].
      split; [reflexivity|]. split.
      + intros k. rewrite filter_In, in_seq. split.
        * intros [A B]. split; [lia|]. split; [exact B|]. intros _.
          assert (0 < NF)%nat by (destruct (Nat.eq_dec NF 0) as [E0|E0]; [rewrite E0 in A; lia|lia]).
          unfold a in A. nia.
        * intros (A & B & C). split; auto. specialize (C eq_refl). unfold a. lia.
      + intros k. rewrite filter_In, in_seq. split.
        * intros [A B]. repeat split; auto; lia.
        * intros (_ & A & B & C). split; auto. lia.
    - cbn [app length skipn]. split; [reflexivity|]. split.
      + intros k. rewrite filter_In, in_seq. split; [intros [A B]; repeat split; auto; try lia; discriminate|].
        intros (A & B & _). split; auto; lia.
      + intros k. split; [intros []|intros [H _]; discriminate].
  Qed.

  (** *** Dependence on the lower half only *)
  Definition low_eq (A A' : mat) : Prop := forall i j, (i < N)%nat -> (j < N)%nat ->
    A (N + i)%nat j = A' (N + i)%nat j /\ A (N + i)%nat (N + j)%nat = A' (N + i)%nat (N + j)%nat.

  Lemma gp_eig_ext A A' : low_eq A A' -> gp_eig g la A = gp_eig g la A'.
  Proof.
    intros H. unfold gp_eig. fold N.
    assert (E : rows N N (mmul N (fun i j => A (N + i)%nat (N + j)%nat - A (N + i)%nat j) (fun i j => A (N + i)%nat (N + j)%nat + A (N + i)%nat j))
          = rows N N (mmul N (fun i j => A' (N + i)%nat (N + j)%nat - A' (N + i)%nat j) (fun i j => A' (N + i)%nat (N + j)%nat + A' (N + i)%nat j))).
    { apply rows_ext. intros i j Hi Hj. unfold mmul. apply rsum_ext. intros k Hk.
      destruct (H i k Hi Hk) as [-> ->]. destruct (H k j Hk Hj) as [-> ->]. reflexivity. }
    rewrite E. reflexivity.
  Qed.

  Lemma gp_PQ_ext A A' kE i j : low_eq A A' -> (i < N)%nat -> (j < N)%nat ->
    gp_P g A kE i j = gp_P g A' kE i j /\ gp_Q g A kE i j = gp_Q g A' kE i j.
  Proof.
    intros H Hi Hj. unfold gp_P, gp_Q, mmul. fold N.
    rewrite (rsum_ext N _ (fun k => (A' (N + i)%nat (N + k)%nat + A' (N + i)%nat k) * (snd kE k j / 2 / fst kE j))).
    - auto.
    - intros k Hk. destruct (H i k Hi Hk) as [-> ->]. reflexivity.
  Qed.

  Lemma A_full_ext A A' i j : low_eq A A' -> (i < NQ)%nat -> (j < NQ)%nat -> A_full g A i j = A_full g A' i j.
  Proof.
    intros H Hi Hj. unfold A_full. fold N. unfold NQ in *. fold N in Hi, Hj. f_equal.
    assert (E : forall B : mat, setblk (setblk B 0 N N N (fun i j => - B (N + i)%nat j)) 0 0 N N
       (fun i j => - setblk B 0 N N N (fun i j => - B (N + i)%nat j) (N + i)%nat (N + j)%nat) i j
       = if Nat.ltb i N then if Nat.ltb j N then - B (N + i)%nat (N + j)%nat else - B (N + i)%nat (j - N)%nat else B i j).
    { intros B. destruct (Nat.ltb_spec i N).
      - destruct (Nat.ltb_spec j N).
        + rewrite setblk_in by lia. rewrite setblk_out by lia. rewrite !Nat.sub_0_r. reflexivity.
        + rewrite setblk_out by lia. rewrite setblk_in by lia. rewrite Nat.sub_0_r. reflexivity.
      - rewrite !setblk_out by lia. reflexivity. }
    rewrite !E. destruct (Nat.ltb_spec i N).
    - destruct (Nat.ltb_spec j N).
      + destruct (H i j) as [_ ->]; auto.
      + destruct (H i (j - N)%nat) as [-> _]; auto. lia.
    - destruct (Nat.lt_ge_cases j N).
      + destruct (H (i - N)%nat j) as [A1 _]; auto; try lia. replace (N + (i - N))%nat with i in A1 by lia. auto.
      + destruct (H (i - N)%nat (j - N)%nat) as [_ A1]; auto; try lia.
        replace (N + (i - N))%nat with i in A1 by lia. replace (N + (j - N))%nat with j in A1 by lia. auto.
  Qed.

  (** Canonical matrices *)
  Definition cA (m l : nat) : mat := fun i j =>
    if Nat.ltb i N then 0 else if Nat.ltb j N then beta g m l (i - N)%nat j else alpha g m l (i - N)%nat (j - N)%nat.
  Definition cX (m l : nat) : vec := fun i =>
    if Nat.ltb i N then gp_M_inv g i * X_pos g m l i else - gp_M_inv g (i - N)%nat * X_neg g m l (i - N).

  Lemma inv_A s m l : Inv (NF * NL) s -> (m < NF)%nat -> (l < NL)%nat -> scatters g m l = true ->
    low_eq (sA s (m * NL + l)%nat) (cA m l).
  Proof.
    intros (_ & _ & _ & _ & I5 & _) Hm Hl Hs i j Hi Hj.
    specialize (I5 m l Hl ltac:(nia)). cbv zeta in I5. rewrite Hs in I5. destruct I5 as [I5 _].
    destruct (I5 i j Hi Hj) as [-> ->]. unfold cA.
    rewrite !(proj2 (Nat.ltb_ge (N + _) N)) by lia. rewrite (proj2 (Nat.ltb_lt j N)) by auto.
    split; f_equal; lia.
  Qed.
  Lemma inv_X s m l i : Inv (NF * NL) s -> (m < NF)%nat -> (l < NL)%nat -> scatters g m l = true ->
    gp_beam g = true -> (i < NQ)%nat -> sX s (m * NL + l)%nat i = cX m l i.
  Proof.
    intros (_ & _ & _ & _ & I5 & _) Hm Hl Hs Hb Hi.
    specialize (I5 m l Hl ltac:(nia)). cbv zeta in I5. rewrite Hs in I5. destruct I5 as [_ I5].
    unfold cX. unfold NQ in Hi. fold N in Hi. destruct (Nat.ltb_spec i N).
    - apply I5; auto.
    - replace i with (N + (i - N))%nat at 1 by lia. apply I5; auto. lia.
  Qed.

  (** Every index below NF*NL is [m*NL+l]. *)
  Lemma k_decomp k : (k < NF * NL)%nat -> exists m l, (m < NF)%nat /\ (l < NL)%nat /\ k = (m * NL + l)%nat.
  Proof.
    intros H. assert (NL <> 0)%nat by (destruct NL; lia).
    exists (k / NL)%nat, (k mod NL)%nat. split; [apply Nat.div_lt_upper_bound; auto; lia|].
    split; [apply Nat.mod_upper_bound; auto|]. rewrite (Nat.div_mod k NL) at 1 by auto. lia.
  Qed.

  (** *** The two put functions, entrywise *)
  Lemma put_G_spec G PQ i j : (i < NQ)%nat -> (j < NQ)%nat ->
    put_G g G PQ i j =
      if Nat.ltb i N then if Nat.ltb j N then fst PQ i j else snd PQ i (j - N)%nat
      else if Nat.ltb j N then snd PQ (i - N)%nat j else fst PQ (i - N)%nat (j - N)%nat.
  Proof.
    intros Hi Hj. unfold NQ in *. fold N in Hi, Hj. unfold put_G. fold N.
    destruct (Nat.ltb_spec i N); destruct (Nat.ltb_spec j N).
    - rewrite !(setblk_out _ N) by lia. rewrite (setblk_out _ 0 N) by lia. rewrite !(setblk_out _ N) by lia.
      rewrite setblk_in by lia. rewrite !Nat.sub_0_r. reflexivity.
    - rewrite (setblk_out _ N) by lia. rewrite setblk_in by lia. rewrite !Nat.sub_0_r. reflexivity.
    - rewrite setblk_in by lia. rewrite !Nat.sub_0_r. reflexivity.
    - rewrite (setblk_out _ N 0) by lia. rewrite (setblk_out _ 0 N) by lia. rewrite setblk_in by lia. reflexivity.
  Qed.
  Lemma put_K_spec K k i : (i < NQ)%nat ->
    put_K g K k i = if Nat.ltb i N then - k i else k (i - N)%nat.
  Proof.
    intros Hi. unfold NQ in *. fold N in Hi. unfold put_K. fold N. destruct (Nat.ltb_spec i N).
    - rewrite setseg_out by lia. rewrite setseg_in by lia. rewrite Nat.sub_0_r. reflexivity.
    - rewrite setseg_in by lia. reflexivity.
  Qed.
End GP.
