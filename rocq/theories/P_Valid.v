(** What the input checks of pydisort accept, and the scaled optical properties of accepted input. *)
From Coq Require Import String Reals Lra Lia List Bool Arith ZArith.
From Coquelicot Require Import Coquelicot.
From Verif Require Import Base Tensor Spec M_LinAlg Spec_RTE Calc M_Subroutines M_GenPart M_MathscrV M_Coeffs M_Assemble M_Pydisort
  P_Sub P_Tensor P_Coeffs3 P_Assemble P_Solve Spec_Sol.
From Verif Require Export Spec_Valid.
Import ListNotations.
Local Open Scope R_scope.

(** Entries and indices. *)
Lemma all_idx_inb s idx : In idx (all_idx s) <-> inb s idx.
Proof.
  revert idx; induction s as [|n s IH]; intros idx; cbn.
  - split; [intros [<-|[]]; cbn; auto|]. destruct idx; cbn; [auto|tauto].
  - rewrite in_flat_map. split.
    + intros (i & Hi & H). apply in_map_iff in H as (r & <- & Hr). apply in_seq in Hi. cbn. split; [lia|]. apply IH; auto.
    + destruct idx as [|i r]; cbn; [tauto|]. intros [Hi Hr]. exists i. split; [apply in_seq; lia|]. apply in_map. apply IH; auto.
Qed.
Lemma entries_In A x : In x (entries A) <-> exists idx, inb (shp A) idx /\ elt A idx = x.
Proof.
  unfold entries. rewrite in_map_iff. split; intros (i & H1 & H2); exists i; split; auto; apply all_idx_inb; auto.
Qed.
Lemma all0_iff b : all0 b = true <-> forall idx, inb (shp b) idx -> elt b idx = 0.
Proof.
  unfold all0. rewrite forallb_forall. split.
  - intros H idx Hi. apply Reqb_iff. apply (H (elt b idx)). apply entries_In. eauto.
  - intros H x Hx. apply entries_In in Hx as (idx & Hi & <-). apply Reqb_iff. auto.
Qed.
Lemma lmax_ge l x : In x l -> x <= lmax l.
Proof.
  induction l as [|y l IH]; intros H; [destruct H|]. cbn. destruct l as [|z l].
  - destruct H as [->|[]]. lra.
  - destruct H as [->|H]; [apply Rmax_l|]. apply Rle_trans with (lmax (z :: l)); [apply IH; auto|apply Rmax_r].
Qed.
Lemma lmax_In l : l <> [] -> In (lmax l) l.
Proof.
  induction l as [|y l IH]; intros H; [tauto|]. cbn. destruct l as [|z l]; [left; auto|].
  destruct (Rle_dec y (lmax (z :: l))).
  - rewrite Rmax_right by auto. right. apply IH. discriminate.
  - rewrite Rmax_left by lra. left; auto.
Qed.

Section Valid.
  Variable p : py_in.
  Let NL := nlayers p.

  Notation NLegZ := (Spec_Valid.NLegZ p).
  Notation NFourierZ := (Spec_Valid.NFourierZ p).
  Notation has_source := (Spec_Valid.has_source p).
  Notation b_accepted := (Spec_Valid.b_accepted p).
  Notation valid := (Spec_Valid.valid p).

  Lemma run_checks_iff cs : run_checks cs = Ok tt <-> forall b s, In (b, s) cs -> b = true.
  Proof.
    induction cs as [|[b s] cs IH]; cbn; [split; [intros _ b s []|auto]|]. split.
    - intros H b' s' [E|E]; [injection E as <- <-; destruct b; [auto|discriminate]|]. destruct b; [|discriminate]. eapply IH; eauto.
    - intros H. rewrite (H b s) by auto. apply IH. intros b' s' E. eapply H; right; eauto.
  Qed.

  Lemma forallb_R f (P : R -> Prop) l : (forall x, f x = true <-> P x) -> (forallb f l = true <-> forall x, In x l -> P x).
  Proof. intros H. rewrite forallb_forall. split; intros A x Hx; apply H, A; auto. Qed.
  Lemma forallb_seq f (P : nat -> Prop) n : (forall i, (i < n)%nat -> f i = true <-> P i) -> (forallb f (seq 0 n) = true <-> forall i, (i < n)%nat -> P i).
  Proof.
    intros H. rewrite forallb_forall. split.
    - intros A i Hi. apply H; auto. apply A, in_seq. lia.
    - intros A i Hi. apply in_seq in Hi. apply H; [lia|]. apply A. lia.
  Qed.
  Lemma forall2b_iff n m f (P : nat -> nat -> Prop) : (forall i j, (i < n)%nat -> (j < m)%nat -> f i j = true <-> P i j) ->
    (forall2b n m f = true <-> forall i j, (i < n)%nat -> (j < m)%nat -> P i j).
  Proof.
    intros H. unfold forall2b. rewrite (forallb_seq _ (fun i => forall j, (j < m)%nat -> P i j)).
    - split; intros A; intros; apply A; auto.
    - intros i Hi. apply forallb_seq. intros j Hj. apply H; auto.
  Qed.
  Lemma existsb_f (l : list R) : existsb (fun f => negb (Reqb f 0)) l = true <-> exists f, In f l /\ f <> 0.
  Proof.
    rewrite existsb_exists. split; intros (f & H1 & H2); exists f; split; auto.
    - apply negb_true_iff, Reqb_false in H2; auto.
    - rewrite Reqb_f; auto.
  Qed.
  Lemma negb_and_iff (x y : bool) (P Q : Prop) : (x = true <-> P) -> (y = true <-> Q) -> (negb (x && negb y) = true <-> (P -> Q)).
  Proof.
    intros H1 H2. destruct x, y; cbn; split; intros H; auto; try discriminate.
    - intros _. apply H2; auto.
    - exfalso. assert (false = true) by (apply H2, H, H1; auto). discriminate.
    - intros HP. apply H1 in HP. discriminate.
    - intros HP. apply H1 in HP. discriminate.
  Qed.

  Lemma has_iso_iff : has_iso p = true <-> has_source.
  Proof.
    unfold has_iso, e_Ns. destruct (forall2b _ _ _) eqn:E.
    - split; [discriminate|]. intros (i & j & Hi & Hj & Hne). exfalso. apply Hne.
      apply (proj1 (forall2b_iff _ _ _ (fun i j => at2 (p_s p) i j = 0) (fun i j _ _ => Reqb_iff _ _)) E); auto.
    - assert (Hs : has_source).
      { apply Classical_Prop.NNPP. intros H. assert (E' : forall2b (nrow (p_s p)) (ncol (p_s p)) (fun i j => Reqb (at2 (p_s p) i j) 0) = true); [|congruence].
        apply (forall2b_iff _ _ _ (fun i j => at2 (p_s p) i j = 0)); [intros; apply Reqb_iff|]. intros i j Hi Hj.
        destruct (Req_EM_T (at2 (p_s p) i j) 0); auto. exfalso. apply H. exists i, j. auto. }
      split; auto. intros _. destruct Hs as (i & j & Hi & Hj & _). apply Nat.ltb_lt. lia.
  Qed.

  Lemma b_shape_iff b : b_shape_ok p (norm_b b) = true <-> b_accepted b.
  Proof.
    unfold b_shape_ok, norm_b, b_accepted. destruct (all0 b) eqn:E0.
    - cbn. split; auto. intros _. left. apply all0_iff; auto.
    - assert (H0 : ~ (forall idx, inb (shp b) idx -> elt b idx = 0)) by (intros H; apply all0_iff in H; congruence).
      unfold is_scalar_b, len1, e_N. destruct (shp b) as [|n s] eqn:Es; [cbn; split; auto|].
      split.
      + intros H. right; right. exists n, s. split; auto. apply orb_prop in H as [H|H]; [apply orb_prop in H as [H|H]|].
        * left. apply Nat.eqb_eq in H; auto.
        * right. apply Z.eqb_eq in H; auto.
        * right. destruct s as [|y [|? ?]]; try discriminate. apply andb_prop in H as [H _]. apply Z.eqb_eq in H; auto.
      + intros [H|[H|(n' & s' & E & H)]]; [tauto|discriminate|]. injection E as <- <-.
        destruct H as [->|H]; [reflexivity|]. rewrite <- H, Z.eqb_refl. rewrite orb_true_r. reflexivity.
  Qed.

  Lemma Leg_all_S l k : Leg_all p l (S k) = at2 (p_Leg p) l (S k).
  Proof. unfold Leg_all. destruct (leg0_bad p); reflexivity. Qed.

  Theorem validate_iff : validate p = Ok tt <-> valid.
  Proof.
    unfold validate. destruct (p_tau p) as [|t0 tt0] eqn:Et.
    { split; [discriminate|]. intros H. destruct H as [H _ _ _ _ _ _ _ _ _ _ _ _ _ _ _ _ _ _ _ _]. unfold NL, nlayers in H. rewrite Et in H. cbn in H. lia. }
    rewrite run_checks_iff.
    assert (Hne : (1 <= NL)%nat) by (unfold NL, nlayers; rewrite Et; cbn; lia). clear Et t0 tt0.
    assert (E1 : forallb (fun t => Rltb 0 t) (p_tau p) = true <-> forall l, (l < NL)%nat -> 0 < bot_of p l).
    { rewrite (forallb_R _ (fun x => 0 < x)) by (intros; apply Rltb_iff). split.
      - intros H l Hl. apply H, nth_In, Hl.
      - intros H x Hx. destruct (In_nth _ _ 0 Hx) as (l & Hl & <-). apply H, Hl. }
    assert (E2 : forallb (fun l => Rltb 0 (thickness p l)) (seq 0 (pNL p)) = true <-> forall l, (l < NL)%nat -> top_of p l < bot_of p l).
    { apply forallb_seq. intros l Hl. rewrite Rltb_iff. unfold thickness, bot_of. change (tau_top p l) with (top_of p l). change (tau_at p l) with (nth l (p_tau p) 0). lra. }
    assert (E3 : (forallb (fun w => Rleb 0 w) (p_omega p) && forallb (fun w => Rltb w 1) (p_omega p))%bool = true <-> forall w, In w (p_omega p) -> 0 <= w < 1).
    { rewrite andb_true_iff, (forallb_R _ (fun x => 0 <= x)) by (intros; apply Rleb_iff). rewrite (forallb_R _ (fun x => x < 1)) by (intros; apply Rltb_iff).
      split; [intros [A B] w Hw; split; auto|intros H; split; intros w Hw; apply H; auto]. }
    assert (E4 : negb (existsb (fun f => negb (Reqb f 0)) (p_f p) && negb (Nat.eqb (length (p_f p)) (pNL p))) = true <-> ((exists f, In f (p_f p) /\ f <> 0) -> length (p_f p) = NL)).
    { apply negb_and_iff; [apply existsb_f|apply Nat.eqb_eq]. }
    assert (E5 : negb (has_iso p && negb (Nat.eqb (nrow (p_s p)) (pNL p))) = true <-> (has_source -> nrow (p_s p) = NL)).
    { apply negb_and_iff; [apply has_iso_iff|apply Nat.eqb_eq]. }
    assert (E6 : forall2b (pNL p) (ncol (p_Leg p) - 1) (fun l k => (Rltb (-1) (Leg_all p l (S k)) && Rltb (Leg_all p l (S k)) 1)%bool) = true
                 <-> forall l k, (l < NL)%nat -> (1 <= k < ncol (p_Leg p))%nat -> -1 < at2 (p_Leg p) l k < 1).
    { rewrite (forall2b_iff _ _ _ (fun l k => -1 < at2 (p_Leg p) l (S k) < 1)).
      - split; intros H l k Hl Hk; [|apply H; auto; lia]. destruct k; [lia|]. apply H; auto. lia.
      - intros l k _ _. rewrite andb_true_iff, !Rltb_iff, Leg_all_S. tauto. }
    assert (E7 : negb (Rltb (p_I0 p) 0) = true <-> 0 <= p_I0 p) by (rewrite negb_true_iff; apply Rltb_false).
    assert (E8 : (negb (has_beam p) || (Rltb 0 (p_mu0 p) && Rleb (p_mu0 p) 1))%bool = true <-> (0 < p_I0 p -> 0 < p_mu0 p <= 1)).
    { unfold has_beam. destruct (Rltb 0 (p_I0 p)) eqn:Eb; cbn.
      - apply Rltb_iff in Eb. rewrite andb_true_iff, Rltb_iff, Rleb_iff. tauto.
      - apply Rltb_false in Eb. split; auto. intros. lra. }
    assert (E9 : (negb (has_beam p) || (Rleb 0 (p_phi0 p) && Rltb (p_phi0 p) (2 * PI)))%bool = true <-> (0 < p_I0 p -> 0 <= p_phi0 p < 2 * PI)).
    { unfold has_beam. destruct (Rltb 0 (p_I0 p)) eqn:Eb; cbn.
      - apply Rltb_iff in Eb. rewrite andb_true_iff, Rltb_iff, Rleb_iff. tauto.
      - apply Rltb_false in Eb. split; auto. intros. lra. }
    assert (E10 : (forallb (fun f => Rleb 0 f) (p_f p) && forallb (fun f => Rleb f 1) (p_f p))%bool = true <-> forall f, In f (p_f p) -> 0 <= f <= 1).
    { rewrite andb_true_iff, (forallb_R _ (fun x => 0 <= x)) by (intros; apply Rleb_iff). rewrite (forallb_R _ (fun x => x <= 1)) by (intros; apply Rleb_iff).
      split; [intros [A B] w Hw; split; auto|intros H; split; intros w Hw; apply H; auto]. }
    pose proof (b_shape_iff (p_bpos p)) as E11. pose proof (b_shape_iff (p_bneg p)) as E12.
    split.
    - intros H.
      assert (G : forall b s, In (b, s) (checks p) -> b = true) by exact H. clear H.
      assert (HG : Coq.Lists.List.Forall (fun bs : bool * string => fst bs = true) (checks p)) by (apply Forall_forall; intros [b s] Hin; exact (G b s Hin)). clear G.
      unfold checks in HG. repeat (apply Forall_cons_iff in HG as [?W HG]); cbn [fst] in *. clear HG.
      constructor; try tauto;
        repeat match goal with
        | |- _ /\ _ => split
        | H : (_ <? _)%Z = true |- _ => apply Z.ltb_lt in H
        | H : (_ <=? _)%Z = true |- _ => apply Z.leb_le in H
        | H : (_ =? _)%Z = true |- _ => apply Z.eqb_eq in H
        | H : Nat.eqb _ _ = true |- _ => apply Nat.eqb_eq in H
        end; auto; try tauto.
    - intros [V1 V2 V3 V4 V5 V6 V7 V8 V9 V10 V11 V12 V13 V14 V15 V16 V17 V18 V19 V20 V21].
      assert (HG : Coq.Lists.List.Forall (fun bs : bool * string => fst bs = true) (checks p)).
      { unfold checks.
        repeat (apply Forall_cons); cbn [fst]; try (apply Forall_nil); try tauto;
        try (apply Z.ltb_lt; unfold e_NFourier, e_NLeg, NLegZ, NFourierZ in *; lia);
        try (apply Z.leb_le; unfold e_NFourier, e_NLeg, NLegZ, NFourierZ in *; lia);
        try (apply Z.eqb_eq; auto); try (apply Nat.eqb_eq; auto). }
      intros b s Hin. exact (proj1 (Forall_forall _ _) HG (b, s) Hin).
  Qed.
End Valid.
