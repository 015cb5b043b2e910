(** Linear algebra that meets every contract: exact inverses and eigenvectors. *)
From Coq Require Import Classical String Reals Lra Lia List Bool Arith ZArith.
From Coquelicot Require Import Coquelicot.
From Verif Require Import Base Tensor Spec M_LinAlg Spec_RTE M_Subroutines P_Sub P_LinA P_GenPart Spec_Solved P_Spec1 P_Spec2 Examples.
Import ListNotations.
Local Open Scope R_scope.

Lemma fin_max n : forall (k : vec) (P : R -> Prop), (forall x, P x -> exists p, (p < n)%nat /\ x = k p) -> (exists x, P x) ->
  exists x, P x /\ forall y, P y -> y <= x.
Proof.
  induction n; intros k P HP (x & Hx); [destruct (HP x Hx) as (p & Hp & _); lia|].
  destruct (classic (exists y, P y /\ y <> k n)) as [(y & Hy & Hne)|H].
  - destruct (IHn k (fun y => P y /\ y <> k n)) as (z & (Hz & Hzn) & Hm).
    { intros u (Hu & Hun). destruct (HP u Hu) as (p & Hp & ->). exists p. split; [|reflexivity]. assert (p <> n) by congruence. lia. }
    { exists y. auto. }
    destruct (classic (P (k n) /\ z < k n)) as [(Hk & Hlt)|Hno].
    + exists (k n). split; [exact Hk|]. intros u Hu. destruct (Req_dec u (k n)) as [->|Hu']; [lra|]. specialize (Hm u (conj Hu Hu')). lra.
    + exists z. split; [exact Hz|]. intros u Hu. destruct (Req_dec u (k n)) as [->|Hu']; [|apply Hm; auto].
      destruct (Rle_lt_dec (k n) z); auto. exfalso. apply Hno. auto.
  - exists x. split; [exact Hx|]. intros y Hy. assert (E : forall u, P u -> u = k n) by (intros u Hu; apply NNPP; intros C; apply H; eauto).
    rewrite (E x Hx), (E y Hy). lra.
Qed.

Section Eig.
  Variables (n : nat) (A : mat).
  Definition in_W (prev : nat -> R * vec) (j : nat) (lam : R) (v : vec) : Prop :=
    (forall i, (i < n)%nat -> rsum n (fun q => A i q * v q) = lam * v i) /\
    (forall i, (i < j)%nat -> fst (prev i) = lam -> dot n (snd (prev i)) v = 0).
  Definition elig prev j lam : Prop := exists v, nz n v /\ in_W prev j lam v.
  Definition lead (W : vec -> Prop) (v : vec) : Prop :=
    W v /\ exists q, (q < n)%nat /\ (forall i, (i < q)%nat -> v i = 0) /\ v q = 1 /\
    forall w, W w -> (forall i, (i <= q)%nat -> w i = 0) -> forall i, (i < n)%nat -> w i = 0.
  Definition top prev j : R := the (fun lam => elig prev j lam /\ forall lam', elig prev j lam' -> lam' <= lam).
  Definition canon prev j : vec := fun i => the (fun x => exists v, lead (in_W prev j (top prev j)) v /\ v i = x).
  Fixpoint steps (j : nat) : nat -> R * vec :=
    match j with
    | O => fun _ => (0, fun _ => 0)
    | S j' => fun i => if Nat.ltb i j' then steps j' i else (top (steps j') j', canon (steps j') j')
    end.

  Lemma lead_unique (W : vec -> Prop) v v' : (forall a b, W a -> W b -> W (fun i => a i - b i)) -> lead W v -> lead W v' -> forall i, (i < n)%nat -> v i = v' i.
  Proof.
    intros HW (H & q & Hq & Hz & H1 & Hm) (H' & q' & Hq' & Hz' & H1' & Hm') i Hi.
    assert (q = q').
    { destruct (Nat.lt_trichotomy q q') as [L|[E|L]]; auto; exfalso.
      - specialize (Hm v' H' ltac:(intros; apply Hz'; lia) q' Hq'). lra.
      - specialize (Hm' v H ltac:(intros; apply Hz; lia) q Hq). lra. }
    subst q'. apply Rminus_diag_uniq. apply (Hm (fun i => v i - v' i)); auto. intros a Ha.
    destruct (Nat.eq_dec a q) as [->|]; [lra|]. rewrite Hz, Hz' by lia. ring.
  Qed.
  Lemma lead_ex (W : vec -> Prop) : (forall a c, W a -> W (fun i => c * a i)) -> (exists v, nz n v /\ W v) -> exists v, lead W v.
  Proof.
    intros Hs (v & Hnz & Hv).
    assert (P : forall d q w, (q + d = n)%nat -> W w -> nz n w -> (forall i, (i < q)%nat -> w i = 0) -> exists v, lead W v).
    { induction d as [|d IH]; intros q w E Hw (i0 & Hi0 & Hne) Hz.
      - exfalso. apply Hne. apply Hz. lia.
      - destruct (classic (exists u, W u /\ nz n u /\ forall i, (i <= q)%nat -> u i = 0)) as [(u & Hu & Hun & Huz)|Hno].
        + apply (IH (S q) u); auto; [lia|]. intros i Hi. apply Huz. lia.
        + assert (Hq : w q <> 0).
          { intros E0. apply Hno. exists w. split; [exact Hw|]. split; [exists i0; auto|]. intros i Hi. destruct (Nat.eq_dec i q) as [->|]; auto. apply Hz. lia. }
          exists (fun i => / w q * w i). split; [exact (Hs w (/ w q) Hw)|]. exists q. split; [lia|]. split; [intros i Hi; rewrite (Hz i Hi); ring|]. split; [field; exact Hq|].
          intros u Hu Huz. apply not_nz. intros Hun. apply Hno. exists u. auto. }
    apply (P n 0%nat v); auto. intros; lia.
  Qed.
  Lemma in_W_ext prev j lam v v' : (forall i, (i < n)%nat -> v i = v' i) -> in_W prev j lam v -> in_W prev j lam v'.
  Proof.
    intros E [H1 H2]. split.
    - intros i Hi. rewrite <- E by auto. rewrite <- (H1 i Hi). apply rsum_ext. intros q Hq. rewrite E by auto. reflexivity.
    - intros i Hi Hl. rewrite <- (H2 i Hi Hl). apply dot_ext; auto. intros; symmetry; auto.
  Qed.
  Lemma in_W_scal prev j lam v c : in_W prev j lam v -> in_W prev j lam (fun i => c * v i).
  Proof.
    intros [H1 H2]. split.
    - intros i Hi. rewrite (rsum_ext n _ (fun q => c * (A i q * v q))) by (intros; ring). rewrite rsum_scal, H1 by auto. ring.
    - intros i Hi Hl. rewrite dot_scal_r, H2 by auto. ring.
  Qed.
  Lemma in_W_minus prev j lam v w : in_W prev j lam v -> in_W prev j lam w -> in_W prev j lam (fun i => v i - w i).
  Proof.
    intros [H1 H2] [H3 H4]. split.
    - intros i Hi. rewrite (rsum_ext n _ (fun q => A i q * v q - A i q * w q)) by (intros; ring). rewrite rsum_minus, H1, H3 by auto. ring.
    - intros i Hi Hl. unfold dot in *. rewrite (rsum_ext n _ (fun q => snd (prev i) q * v q - snd (prev i) q * w q)) by (intros; ring). rewrite rsum_minus, H2, H4 by auto. ring.
  Qed.

  Variables (k : vec) (E : mat).
  Hypothesis HE : independent n E.
  Hypothesis Hk : forall i j, (i < n)%nat -> (j < n)%nat -> rsum n (fun p => A i p * E p j) = E i j * k j.

  Lemma AE c i : (i < n)%nat -> rsum n (fun q => A i q * rsum n (fun p => E q p * c p)) = rsum n (fun p => E i p * (k p * c p)).
  Proof.
    intros Hi. rewrite (rsum_ext n _ (fun q => rsum n (fun p => A i q * E q p * c p))) by (intros; rewrite <- rsum_scal; apply rsum_ext; intros; ring).
    rewrite rsum_swap. apply rsum_ext. intros p Hp. rewrite rsum_scal_r, Hk by auto. ring.
  Qed.
  Lemma elig_k prev j lam : elig prev j lam -> exists p, (p < n)%nat /\ lam = k p.
  Proof.
    intros (v & Hnz & HA & _). destruct (inj_surj n E HE v) as (c & Hc).
    assert (Z : forall p, (p < n)%nat -> (k p - lam) * c p = 0).
    { apply (HE (fun p => (k p - lam) * c p)). intros i Hi.
      rewrite (rsum_ext n _ (fun p => E i p * (k p * c p) - lam * (E i p * c p))) by (intros; ring). rewrite rsum_minus, rsum_scal, <- AE, Hc by auto.
      rewrite (rsum_ext n _ (fun q => A i q * v q)) by (intros q Hq; rewrite Hc by auto; reflexivity). rewrite HA by auto. ring. }
    apply NNPP. intros Hno. destruct Hnz as (i & Hi & Hne). apply Hne. rewrite <- (Hc i Hi). apply rsum_0. intros p Hp.
    specialize (Z p Hp). apply Rmult_integral in Z as [Z| ->]; [|ring]. exfalso. apply Hno. exists p. split; [exact Hp|lra].
  Qed.
  Lemma elig_ex prev j : (j < n)%nat -> exists lam, elig prev j lam.
  Proof.
    intros Hj.
    destruct (kernel_ex j n (fun i p => if dec (k p = fst (prev i)) then dot n (snd (prev i)) (fun q => E q p) else 0) Hj) as (c & (p0 & Hp0 & Hc0) & Hc).
    exists (k p0). set (c' := fun p => if dec (k p = k p0) then c p else 0). exists (fun q => rsum n (fun p => E q p * c' p)). split; [|split].
    - apply NNPP. intros Hz. pose proof (not_nz _ _ Hz) as Z. apply Hc0. pose proof (HE c' Z p0 Hp0) as E0. unfold c' in E0. destruct (dec (k p0 = k p0)); [exact E0|congruence].
    - intros i Hi. rewrite AE by auto. rewrite <- rsum_scal. apply rsum_ext. intros p Hp. unfold c'. destruct (dec (k p = k p0)) as [->|]; ring.
    - intros i Hi El. specialize (Hc i Hi). rewrite <- Hc. unfold dot.
      rewrite (rsum_ext n _ (fun q => rsum n (fun p => snd (prev i) q * (E q p * c' p)))) by (intros; rewrite rsum_scal; reflexivity).
      rewrite rsum_swap. apply rsum_ext. intros p Hp. unfold c'. rewrite El. destruct (dec (k p = k p0)); [|rewrite rsum_0 by (intros; ring); ring].
      rewrite <- rsum_scal_r. apply rsum_ext. intros; ring.
  Qed.
  Lemma top_ok prev j : (j < n)%nat -> elig prev j (top prev j).
  Proof.
    intros Hj. destruct (fin_max n k (elig prev j) (elig_k prev j) (elig_ex prev j Hj)) as (x & Hx & Hm).
    replace (top prev j) with x; [exact Hx|]. symmetry. apply the_spec; [auto|]. intros y [Hy Hym]. apply Rle_antisym; auto.
  Qed.
  Lemma canon_ok prev j : (j < n)%nat -> nz n (canon prev j) /\ in_W prev j (top prev j) (canon prev j).
  Proof.
    intros Hj. destruct (lead_ex (in_W prev j (top prev j)) (fun a c => in_W_scal prev j _ a c) (top_ok prev j Hj)) as (v & Hv).
    assert (Ev : forall i, (i < n)%nat -> canon prev j i = v i).
    { intros i Hi. apply the_spec; [eauto|]. intros y (v' & Hv' & <-). apply (lead_unique (in_W prev j (top prev j))); auto. intros; apply in_W_minus; auto. }
    destruct Hv as (HW & q & Hq & _ & H1 & _). split.
    - exists q. split; [exact Hq|]. rewrite Ev by auto. lra.
    - apply (in_W_ext prev j _ v); auto. intros; symmetry; auto.
  Qed.
  Lemma steps_stable j : forall i, (i < j)%nat -> forall j', (j <= j')%nat -> steps j' i = steps j i.
  Proof.
    intros i Hi j' Hj. induction Hj as [|j' Hj IH]; [reflexivity|]. cbn [steps]. rewrite (proj2 (Nat.ltb_lt i j')) by lia. exact IH.
  Qed.
  Let lam i := fst (steps n i).
  Let g i := snd (steps n i).
  Lemma steps_ok i : (i < n)%nat -> nz n (g i) /\ (forall a, (a < n)%nat -> rsum n (fun q => A a q * g i q) = lam i * g i a) /\
    (forall i', (i' < i)%nat -> lam i' = lam i -> dot n (g i') (g i) = 0).
  Proof.
    intros Hi. assert (Es : steps n i = (top (steps i) i, canon (steps i) i)).
    { rewrite (steps_stable (S i) i) by lia. cbn [steps]. rewrite Nat.ltb_irrefl. reflexivity. }
    destruct (canon_ok (steps i) i Hi) as (H1 & H2 & H3). unfold g, lam. rewrite Es. cbn [fst snd]. split; [exact H1|]. split; [exact H2|].
    intros i' Hi' El. rewrite (steps_stable i i' Hi' n) in * by lia. apply H3; auto.
  Qed.
  Lemma steps_indep : independent n (fun a j => g j a).
  Proof.
    apply (eig_inj n A (fun a j => g j a) lam).
    - intros i j Hi Hj. destruct (steps_ok j Hj) as (_ & H & _). rewrite H by auto. ring.
    - intros l v Hv Hsup j Hj. destruct (classic (v j = 0)) as [|Hne]; [assumption|]. exfalso. pose proof (Hsup j Hj Hne) as Ej.
      destruct (steps_ok j Hj) as (Hnz & _ & Horth). pose proof (dot_nz n _ Hnz) as Hpos.
      assert (Z : dot n (g j) (fun a => rsum n (fun q => g q a * v q)) = 0) by (unfold dot; apply rsum_0; intros a Ha; rewrite Hv by auto; ring).
      assert (Z2 : dot n (g j) (fun a => rsum n (fun q => g q a * v q)) = v j * dot n (g j) (g j)).
      { unfold dot. rewrite (rsum_ext n _ (fun a => rsum n (fun q => g j a * (g q a * v q)))) by (intros; rewrite rsum_scal; reflexivity).
        rewrite rsum_swap. rewrite (rsum_single n j); [|exact Hj|].
        - rewrite <- rsum_scal. apply rsum_ext. intros; ring.
        - intros q Hq Hqj. rewrite (rsum_ext n _ (fun a => g j a * g q a * v q)) by (intros; ring). rewrite rsum_scal_r. change (rsum n (fun a => g j a * g q a)) with (dot n (g j) (g q)).
          destruct (Req_dec (v q) 0) as [->|Hvq]; [ring|]. pose proof (Hsup q Hq Hvq) as Eq.
          destruct (Nat.lt_gt_cases q j) as [C _]. destruct (C Hqj) as [L|L].
          + rewrite dot_comm, Horth by (auto; congruence). ring.
          + destruct (steps_ok q Hq) as (_ & _ & Ho). rewrite Ho by (auto; congruence). ring. }
      rewrite Z2 in Z. apply Rmult_integral in Z as [Z|Z]; [contradiction|lra].
  Qed.
End Eig.

Definition the_eig (n : nat) (A : mat) : option (list R * list (list R)) :=
  if dec (exists (k : vec) (E : mat), independent n E /\ forall i j, (i < n)%nat -> (j < n)%nat -> rsum n (fun p => A i p * E p j) = E i j * k j)
  then Some (vlist n (fun j => fst (steps n A n j)), rows n n (fun i j => snd (steps n A n j) i)) else None.
Definition the_inv (n : nat) (A : mat) : option (list (list R)) :=
  if dec (independent n A) then Some (rows n n (fun i j => the (fun x => exists y, sol n A (fun q => delta q j) y /\ y i = x))) else None.
Definition la_full : linalg := {|
  la_eig := fun L => the_eig (length L) (of_rows L);
  la_inv := fun L => the_inv (length L) (of_rows L);
  la_solve := la_solve la_id;
  la_solve_banded := la_solve_banded la_id |}.

Lemma rows_length n m A : length (rows n m A) = n.
Proof. unfold rows. rewrite map_length, seq_length. reflexivity. Qed.
Lemma independent_ext n A B : (forall i j, (i < n)%nat -> (j < n)%nat -> A i j = B i j) -> independent n A -> independent n B.
Proof. intros HE HA v Hv. apply HA. intros i Hi. rewrite <- (Hv i Hi). apply rsum_ext. intros j Hj. rewrite HE by auto. reflexivity. Qed.

Lemma la_full_ok : linalg_ok la_full.
Proof.
  constructor; [| |exact (solve_ok la_id la_id_ok)|exact (banded_ok la_id la_id_ok)].
  - intros n A k E H i j Hi Hj. cbn [la_eig la_full] in H. rewrite rows_length in H. unfold the_eig in H.
    destruct (dec _) as [(k0 & E0 & HE & Hk)|]; [|discriminate]. injection H as <- <-.
    rewrite of_rows_rows by auto. rewrite of_list_vlist by auto.
    destruct (steps_ok n _ k0 E0 HE Hk j Hj) as (_ & HS & _). specialize (HS i Hi). rewrite Rmult_comm. rewrite <- HS. apply rsum_ext. intros p Hp.
    rewrite !of_rows_rows by auto. reflexivity.
  - intros n A B H i j Hi Hj. cbn [la_inv la_full] in H. rewrite rows_length in H. unfold the_inv in H.
    destruct (dec _) as [HI|]; [|discriminate]. injection H as <-.
    destruct (inj_surj n _ HI (fun q => delta q j)) as (y & Hy).
    rewrite <- (Hy i Hi). apply rsum_ext. intros p Hp. rewrite of_rows_rows by auto. rewrite of_rows_rows by auto. f_equal.
    apply the_spec; [exists y; split; [exact Hy|reflexivity]|]. intros x (z & Hz & <-). apply Rminus_diag_uniq.
    apply (HI (fun i => z i - y i)); auto. intros a Ha. rewrite (rsum_ext n _ (fun q => of_rows (rows n n A) a q * z q - of_rows (rows n n A) a q * y q)) by (intros; ring).
    rewrite rsum_minus, Hz, Hy by auto. ring.
Qed.
Lemma la_full_unique : linalg_unique la_full.
Proof. destruct la_id_unique as [H1 H2]. constructor; assumption. Qed.
Lemma la_full_complete : linalg_complete la_full.
Proof. destruct la_id_complete as [H1 H2]. constructor; assumption. Qed.
Lemma la_full_total : linalg_total la_full.
Proof.
  constructor.
  - intros n A k E HE Hk. cbn [la_eig la_full]. rewrite rows_length. unfold the_eig. destruct (dec _) as [(k0 & E0 & HE0 & Hk0)|H].
    + do 2 eexists. split; [reflexivity|]. refine (independent_ext n _ _ _ (steps_indep n _ k0 E0 HE0 Hk0)). intros i j Hi Hj. rewrite of_rows_rows by auto. reflexivity.
    + exfalso. apply H. exists k, E. split; [exact HE|]. intros i j Hi Hj. rewrite <- (Hk i j Hi Hj). apply rsum_ext. intros p Hp. rewrite of_rows_rows by auto. reflexivity.
  - intros n A HA. cbn [la_inv la_full]. rewrite rows_length. unfold the_inv. destruct (dec _) as [|H]; [eauto|]. exfalso. apply H.
    refine (independent_ext n _ _ _ HA). intros i j Hi Hj. rewrite of_rows_rows by auto. reflexivity.
Qed.
