(** Array operations respect equality of shape and in-range elements. *)
From Coq Require Import String Reals Lra Lia List Bool Arith.
From Verif Require Import Base Tensor P_Tensor M_MathscrV M_LinAlg M_Subroutines M_GenPart M_Coeffs M_Assemble.
Import ListNotations.
Local Open Scope R_scope.

Definition rteq (a b : res tensor) : Prop :=
  match a, b with Ok A, Ok B => teq A B | Err e, Err e' => e = e' | _, _ => False end.
Lemma teq_refl A : teq A A.
Proof. split; auto. Qed.
Lemma teq_sym A B : teq A B -> teq B A.
Proof. intros [HS E]. split; auto. intros idx H. symmetry. apply E. rewrite HS. exact H. Qed.
Lemma teq_trans A B C : teq A B -> teq B C -> teq A C.
Proof. intros [HS E] [HS' E']. split; [congruence|]. intros idx H. rewrite E by auto. apply E'. rewrite <- HS. exact H. Qed.
Lemma rteq_refl a : rteq a a.
Proof. destruct a; cbn; auto using teq_refl. Qed.
Lemma rteq_bind a b k k' : rteq a b -> (forall A B, teq A B -> rteq (k A) (k' B)) -> rteq (bind a k) (bind b k').
Proof. destruct a, b; cbn; try tauto; auto. Qed.

Lemma inb_length s : forall idx, inb s idx -> length idx = length s.
Proof. induction s; intros [|i idx]; cbn; try tauto. intros [_ H]. f_equal. auto. Qed.
Lemma bi_in_l a b d i : bdim a b = Some d -> (i < d)%nat -> (bi a i < a)%nat /\ (bi b i < b)%nat.
Proof. intros H Hi. apply bdim_bc in H. unfold bi. destruct H as [[-> ->]|[[-> ->]|[-> ->]]]; cbn; destruct (Nat.eqb_spec d 1); subst; lia. Qed.
Lemma bidx_in s : forall t r idx, bshape s t = Some r -> inb r idx -> inb s (bidx s idx) /\ inb t (bidx t idx).
Proof.
  induction s as [|a s IH]; intros [|b t] r idx H Hi; cbn in H; try discriminate.
  - injection H as <-. destruct idx; cbn in *; tauto.
  - destruct (bdim a b) as [d|] eqn:Ed; [|discriminate]. destruct (bshape s t) as [r'|] eqn:Er; [|discriminate]. injection H as <-.
    destruct idx as [|i idx]; cbn in Hi; [tauto|]. destruct Hi as [Hi Hr]. cbn.
    destruct (bi_in_l _ _ _ _ Ed Hi). destruct (IH _ _ _ Er Hr). tauto.
Qed.
Lemma inb_skipn n : forall s idx, inb s idx -> inb (skipn n s) (skipn n idx).
Proof. induction n; auto. intros [|a s] [|i idx]; cbn; try tauto. intros [_ H]. auto. Qed.
Lemma inb_firstn n : forall s idx, inb s idx -> inb (firstn n s) (firstn n idx).
Proof. induction n; cbn; auto. intros [|a s] [|i idx]; cbn; try tauto. intros [Hi H]. split; auto. Qed.
Lemma inb_app s idx : forall s' idx', inb s idx -> inb s' idx' -> inb (s ++ s') (idx ++ idx').
Proof. revert idx; induction s; intros [|i idx] s' idx' H H'; cbn in *; try tauto. destruct H. split; auto. Qed.
Lemma inb_nth s : forall idx k, inb s idx -> (k < length s)%nat -> (nth k idx 0 < nth k s 0)%nat.
Proof. induction s; intros [|i idx] [|k] H Hk; cbn in *; try tauto; try lia. apply IHs; [tauto|lia]. Qed.
Lemma skipn_padl k s : (length s <= k)%nat -> skipn (k - length s) (padl k s) = s.
Proof. intros H. unfold padl. rewrite skipn_app, repeat_length, Nat.sub_diag, skipn_all2 by (rewrite repeat_length; lia). reflexivity. Qed.

Lemma bcast2_cong f A A' B B' : teq A A' -> teq B B' -> rteq (bcast2 f A B) (bcast2 f A' B').
Proof.
  intros [SA EA] [SB EB]. unfold bcast2. rewrite <- SA, <- SB. set (k := Nat.max _ _).
  destruct (bshape _ _) as [s|] eqn:Es; [|reflexivity]. split; [reflexivity|]. cbn [elt shp]. intros idx Hi.
  destruct (bidx_in _ _ _ _ Es Hi) as [H1 H2]. f_equal.
  - apply EA. rewrite <- (skipn_padl k (shp A)) at 1 by (unfold k; lia). apply inb_skipn; exact H1.
  - apply EB. rewrite <- (skipn_padl k (shp B)) at 1 by (unfold k; lia). apply inb_skipn; exact H2.
Qed.
Lemma iop_cong f A A' B B' : teq A A' -> teq B B' -> rteq (iop f A B) (iop f A' B').
Proof.
  intros HA HB. unfold iop. apply rteq_bind; [apply bcast2_cong; auto|]. intros C C' HC.
  rewrite <- (proj1 HC), <- (proj1 HA). destruct (list_eqb _ _); [exact HC|reflexivity].
Qed.
Lemma tmap_cong f A A' : teq A A' -> teq (tmap f A) (tmap f A').
Proof. intros [HS E]. split; auto. intros idx H. cbn. f_equal. apply E. exact H. Qed.
Lemma tnew_cong k A A' : (k <= length (shp A))%nat -> teq A A' -> teq (tnew k A) (tnew k A').
Proof.
  intros Hk [HS E]. split; [unfold tnew; cbn; rewrite HS; reflexivity|]. intros idx H. cbn in *. apply E.
  rewrite <- (firstn_skipn k (shp A)). apply inb_app.
  - pose proof (inb_firstn k _ _ H) as X. rewrite firstn_app, firstn_length_le in X by lia. rewrite Nat.sub_diag in X. cbn [firstn] in X. rewrite app_nil_r, firstn_firstn, Nat.min_id in X. exact X.
  - pose proof (inb_skipn (S k) _ _ H) as X. rewrite skipn_app, (skipn_all2 (firstn k (shp A))), firstn_length_le in X by (rewrite ?firstn_length; lia).
    replace (S k - k)%nat with 1%nat in X by lia. exact X.
Qed.
(** Replacing the index on axis [k]. *)
Lemma inb_at k s n idx i : (k < length s)%nat -> inb (firstn k s ++ n :: skipn (S k) s) idx -> (i < nth k s 0)%nat ->
  inb s (firstn k idx ++ i :: skipn (S k) idx).
Proof.
  revert s idx. induction k; intros [|a s] idx Hk H Hi; cbn in Hk; try lia.
  - destruct idx as [|j idx]; cbn in H; [tauto|]. cbn in *. tauto.
  - destruct idx as [|j idx]; cbn in H; [tauto|]. cbn in Hi. cbn. split; [tauto|]. apply (IHk s idx); [lia| |exact Hi]. exact (proj2 H).
Qed.
Lemma nth_at k s n idx : (k < length s)%nat -> inb (firstn k s ++ n :: skipn (S k) s) idx -> (nth k idx 0 < n)%nat.
Proof.
  revert s idx. induction k; intros [|a s] idx Hk H; cbn in Hk; try lia; destruct idx as [|j idx]; cbn in H; try tauto; cbn.
  apply (IHk s idx); [lia|]. exact (proj2 H).
Qed.
Lemma ttake_cong k ids A A' : (k < length (shp A))%nat -> teq A A' -> rteq (ttake k ids A) (ttake k ids A').
Proof.
  intros Hk [HS E]. unfold ttake. rewrite <- HS. destruct (forallb _ ids) eqn:Ef; [|reflexivity]. split; [reflexivity|]. cbn [shp elt]. intros idx H.
  apply E. apply inb_at with (length ids); auto. pose proof (nth_at _ _ _ _ Hk H) as Hn.
  rewrite forallb_forall in Ef. specialize (Ef (nth (nth k idx 0%nat) ids 0%nat) (nth_In _ _ Hn)). apply Nat.ltb_lt in Ef. exact Ef.
Qed.
Lemma tslice_cong k a n A A' : (k < length (shp A))%nat -> (a + n <= nth k (shp A) 0)%nat -> teq A A' -> teq (tslice k a n A) (tslice k a n A').
Proof.
  intros Hk Hn [HS E]. split; [unfold tslice; cbn; rewrite HS; reflexivity|]. cbn [shp elt tslice]. intros idx H. apply E.
  apply inb_at with n; auto. pose proof (nth_at _ _ _ _ Hk H). lia.
Qed.
Lemma inb_unsq s : forall idx, inb (sq_shape s) idx -> inb s (unsq s idx).
Proof.
  induction s as [|n s IH]; intros idx H; cbn in *; [exact I|]. destruct (Nat.eqb_spec n 1) as [->|]; cbn in H.
  - split; [lia|auto].
  - destruct idx as [|i idx]; cbn in H; [tauto|]. split; [tauto|]. apply IH. tauto.
Qed.
Lemma tsqueeze_cong A A' : teq A A' -> teq (tsqueeze A) (tsqueeze A').
Proof. intros [HS E]. split; [unfold tsqueeze; cbn; rewrite HS; reflexivity|]. cbn. intros idx H. rewrite <- HS. apply E. apply inb_unsq. exact H. Qed.
Lemma tscal_cong c A A' : teq A A' -> teq (tscal c A) (tscal c A').
Proof. apply tmap_cong. Qed.
Lemma tconcat_cong k A A' B B' : (k < length (shp A))%nat -> (k < length (shp B))%nat -> teq A A' -> teq B B' -> rteq (tconcat k A B) (tconcat k A' B').
Proof.
  intros Hk Hk' [SA EA] [SB EB]. unfold tconcat. rewrite <- SA, <- SB. destruct (_ && _)%bool eqn:Eb; [|reflexivity].
  apply andb_prop in Eb as [E1 E2]. apply list_eqb_iff in E1. apply list_eqb_iff in E2.
  split; [reflexivity|]. cbn [shp elt]. intros idx H. pose proof (nth_at _ _ _ _ Hk H) as Hn. destruct (Nat.ltb_spec (nth k idx 0%nat) (nth k (shp A) 0%nat)) as [Hl|Hl].
  - apply EA. pose proof (inb_at k (shp A) _ idx (nth k idx 0%nat) Hk H Hl) as X.
    replace (firstn k idx ++ nth k idx 0%nat :: skipn (S k) idx) with idx in X; [exact X|].
    pose proof (inb_length _ _ H) as L. rewrite app_length in L. cbn [length] in L. rewrite firstn_length_le, skipn_length in L by lia.
    clear - L Hk. revert idx L Hk. generalize (length (shp A)) as n. induction k; intros n [|i idx] L Hk; cbn in L; try lia; cbn; [reflexivity|].
    f_equal. apply (IHk (n - 1)%nat); lia.
  - apply EB. rewrite E1, E2 in H. apply inb_at with (nth k (shp A) 0 + nth k (shp B) 0)%nat; auto. lia.
Qed.
Lemma tvm_cong n v A A' : teq A A' -> rteq (tvm n v A) (tvm n v A').
Proof.
  intros [HS E]. unfold tvm. rewrite <- HS. destruct (shp A) as [|p [|m [|]]] eqn:Es; try reflexivity.
  destruct (Nat.eqb_spec p n) as [->|]; [|reflexivity]. split; [reflexivity|]. cbn. intros idx H. apply rsum_ext. intros i Hi. f_equal. apply E.
  destruct idx as [|j [|]]; cbn in H |- *; try tauto.
Qed.
Lemma all_idx_in s : forall idx, In idx (all_idx s) -> inb s idx.
Proof.
  induction s as [|n s IH]; cbn; [intros idx [<-|[]]; exact I|]. intros idx H. apply in_flat_map in H as (i & Hi & H). apply in_map_iff in H as (r & <- & Hr).
  apply in_seq in Hi. split; [lia|auto].
Qed.
Lemma entries_cong A A' : teq A A' -> entries A = entries A'.
Proof. intros [HS E]. unfold entries. rewrite <- HS. apply map_ext_in. intros idx H. apply E. apply all_idx_in. exact H. Qed.
Lemma tmax_cong A A' : teq A A' -> tmax A = tmax A'.
Proof. intros H. unfold tmax. rewrite (entries_cong _ _ H). reflexivity. Qed.
