(** The banded assembly refines the dense assembly; the dense matrix block by block. *)
From Coq Require Import String Reals Lra Lia List Bool Arith ZArith.
From Verif Require Import Base Tensor Spec M_LinAlg M_Subroutines M_GenPart M_MathscrV M_Coeffs P_GenPart.
Import ListNotations.
Local Open Scope R_scope.

Lemma fold_upd_out {A} (ad : A -> nat) (V : A -> R) cells (F : vec) p :
  (forall c, In c cells -> ad c <> p) -> fold_left (fun F c => upd F (ad c) (V c)) cells F p = F p.
Proof.
  revert F. induction cells as [|c cs IH]; intros F H; [reflexivity|]. cbn [fold_left].
  rewrite IH by (intros; apply H; right; auto). apply upd_ne. intros E. apply (H c); [left|]; auto.
Qed.
Lemma fold_upd_in {A} (ad : A -> nat) (V : A -> R) cells (F : vec) c0 :
  In c0 cells -> (forall c, In c cells -> ad c = ad c0 -> c = c0) ->
  fold_left (fun F c => upd F (ad c) (V c)) cells F (ad c0) = V c0.
Proof.
  revert F. induction cells as [|c cs IH]; intros F Hin H; [contradiction|]. cbn [fold_left].
  assert (D : In c0 cs \/ ~ In c0 cs) by apply Classical_Prop.classic. destruct D as [D|D].
  - apply IH; auto. intros; apply H; auto. right; auto.
  - destruct Hin as [->|Hin]; [|contradiction]. rewrite fold_upd_out; [apply upd_eq|].
    intros c Hc E. apply D. rewrite <- (H c); auto. right; auto.
Qed.

Section Band.
  Variable g : sc_in.
  Let N := sc_N g.
  Let NQ := (2 * sc_N g)%nat.
  Let NL := sc_NLayers g.
  Let dim := (sc_NLayers g * (2 * sc_N g))%nat.
  Let L := dof_rows g.
  Hypothesis HN : (1 <= N)%nat.
  Hypothesis HNL : (1 <= NL)%nat.

  (** The matrix represented by the flat buffer. *)
  Definition Mb (F : vec) : mat := fun i j =>
    if (Nat.leb j (i + (3 * sc_N g - 1)) && Nat.leb i (j + (3 * sc_N g - 1)))%bool
    then F ((3 * sc_N g - 1 + i - j) + j * dof_rows g)%nat else 0.

  Lemma L_val : L = (6 * N - 1)%nat. Proof. reflexivity. Qed.
  Lemma dim_ge : (2 * N <= dim)%nat.
  Proof. unfold dim, NL in *. fold N. nia. Qed.
  Lemma dim_eq : dim = (NL * (2 * N))%nat. Proof. reflexivity. Qed.

  (** Cells of the buffer that represent no matrix entry. *)
  Definition corner (r c : nat) : Prop :=
    (r < dof_rows g)%nat /\ (c < sc_NLayers g * (2 * sc_N g))%nat /\
    (c + r < 3 * sc_N g - 1 \/ sc_NLayers g * (2 * sc_N g) + (3 * sc_N g - 1) <= c + r)%nat.

  (** A slanted view inside the band writes exactly the rectangular block. *)
  Lemma view_set_ok i0 j0 nrows V F :
    (i0 + nrows <= dim)%nat -> (j0 + N <= dim)%nat -> (j0 + N <= i0 + 3 * N)%nat -> (i0 + nrows <= j0 + 3 * N)%nat ->
    exists F', view_set g i0 j0 nrows V F = Ok F' /\
      (forall i j, (i < dim)%nat -> (j < dim)%nat -> Mb F' i j = setblk (Mb F) i0 j0 nrows N V i j) /\
      (forall r c, corner r c -> F' (r + c * L)%nat = F (r + c * L)%nat).
  Proof.
    intros H0 H1 H2 H3.
    assert (Had : forall a b, (a < nrows)%nat -> (b < N)%nat ->
      view_addr g i0 j0 a b = Z.of_nat ((3 * N - 1 + (i0 + a) - (j0 + b)) + (j0 + b) * L)).
    { intros a b Ha Hb. unfold view_addr. fold N. rewrite Nat2Z.inj_add, Nat2Z.inj_mul, !Nat2Z.inj_sub, !Nat2Z.inj_add, !Nat2Z.inj_sub by lia.
      fold L. rewrite L_val. rewrite Nat2Z.inj_sub, Nat2Z.inj_mul by lia. lia. }
    assert (Hcell : forall c, In c (view_cells g nrows) <-> (fst c < nrows)%nat /\ (snd c < N)%nat).
    { intros [a b]. unfold view_cells. fold N. rewrite in_prod_iff, !in_seq. cbn. lia. }
    unfold view_set. rewrite (proj2 (forallb_forall _ _)).
    2:{ intros [a b] Hc. apply Hcell in Hc. cbn [fst snd] in *. rewrite Had by tauto.
        apply andb_true_intro. split; [apply Z.leb_le; lia|]. apply Z.ltb_lt. apply Nat2Z.inj_lt.
        fold L dim. rewrite L_val. destruct Hc as [Ha Hb]. assert (j0 + b < dim)%nat by lia. nia. }
    eexists. split; [reflexivity|].
    set (ad := fun ab : nat * nat => Z.to_nat (view_addr g i0 j0 (fst ab) (snd ab))).
    assert (Had' : forall a b, (a < nrows)%nat -> (b < N)%nat -> ad (a, b) = ((3 * N - 1 + (i0 + a) - (j0 + b)) + (j0 + b) * L)%nat).
    { intros a b Ha Hb. unfold ad. cbn [fst snd]. rewrite Had by auto. apply Nat2Z.id. }
    assert (Hinj : forall r c r' c', (r < L)%nat -> (r' < L)%nat -> (r + c * L = r' + c' * L)%nat -> r = r' /\ c = c').
    { intros r c r' c' Hr Hr' E. assert (c = c') by nia. subst. lia. }
    split.
    2:{ intros r c (Hr & Hc & Hrc). fold L in Hr. fold dim N in Hc, Hrc.
        change (fold_left _ (view_cells g nrows) F) with (fold_left (fun F c => upd F (ad c) ((fun c => V (fst c) (snd c)) c)) (view_cells g nrows) F).
        apply fold_upd_out. intros [a b] Hab E. apply Hcell in Hab. cbn [fst snd] in Hab. rewrite Had' in E by lia.
        destruct (Hinj (3 * N - 1 + (i0 + a) - (j0 + b)) (j0 + b) r c)%nat as [E1 E2]; [rewrite L_val; lia|auto|exact E|]. lia. }
    intros i j Hi Hj.
    unfold Mb at 1. fold N. fold L.
    destruct (Nat.leb_spec j (i + (3 * N - 1))) as [B1|B1]; [destruct (Nat.leb_spec i (j + (3 * N - 1))) as [B2|B2]|]; cbn [andb].
    - change (fold_left _ (view_cells g nrows) F) with (fold_left (fun F c => upd F (ad c) ((fun c => V (fst c) (snd c)) c)) (view_cells g nrows) F).
      destruct (Nat.leb_spec i0 i) as [C1|C1]; [destruct (Nat.ltb_spec i (i0 + nrows)) as [C2|C2]; [destruct (Nat.leb_spec j0 j) as [C3|C3]; [destruct (Nat.ltb_spec j (j0 + N)) as [C4|C4]|]|]|].
      + rewrite setblk_in by lia.
        replace (3 * N - 1 + i - j + j * L)%nat with (ad (i - i0, j - j0)%nat).
        2:{ rewrite Had' by lia. replace (i0 + (i - i0))%nat with i by lia. replace (j0 + (j - j0))%nat with j by lia. reflexivity. }
        rewrite (fold_upd_in ad (fun c => V (fst c) (snd c))); [reflexivity| |].
        * apply Hcell. cbn [fst snd]. lia.
        * intros [a b] Hc E. apply Hcell in Hc. cbn [fst snd] in Hc. rewrite !Had' in E by lia.
          destruct (Hinj (3 * N - 1 + (i0 + a) - (j0 + b)) (j0 + b) (3 * N - 1 + (i0 + (i - i0)) - (j0 + (j - j0))) (j0 + (j - j0)))%nat as [E1 E2]; [rewrite L_val; lia|rewrite L_val; lia|exact E|].
          f_equal; lia.
      + rewrite setblk_out by lia. unfold Mb. fold N L. rewrite (proj2 (Nat.leb_le _ _) B1), (proj2 (Nat.leb_le _ _) B2). cbn [andb].
        apply fold_upd_out. intros [a b] Hc E. apply Hcell in Hc. cbn [fst snd] in Hc. rewrite Had' in E by lia.
        destruct (Hinj (3 * N - 1 + (i0 + a) - (j0 + b)) (j0 + b) (3 * N - 1 + i - j) j)%nat as [E1 E2]; [rewrite L_val; lia|rewrite L_val; lia|exact E|]. lia.
      + rewrite setblk_out by lia. unfold Mb. fold N L. rewrite (proj2 (Nat.leb_le _ _) B1), (proj2 (Nat.leb_le _ _) B2). cbn [andb].
        apply fold_upd_out. intros [a b] Hc E. apply Hcell in Hc. cbn [fst snd] in Hc. rewrite Had' in E by lia.
        destruct (Hinj (3 * N - 1 + (i0 + a) - (j0 + b)) (j0 + b) (3 * N - 1 + i - j) j)%nat as [E1 E2]; [rewrite L_val; lia|rewrite L_val; lia|exact E|]. lia.
      + rewrite setblk_out by lia. unfold Mb. fold N L. rewrite (proj2 (Nat.leb_le _ _) B1), (proj2 (Nat.leb_le _ _) B2). cbn [andb].
        apply fold_upd_out. intros [a b] Hc E. apply Hcell in Hc. cbn [fst snd] in Hc. rewrite Had' in E by lia.
        destruct (Hinj (3 * N - 1 + (i0 + a) - (j0 + b)) (j0 + b) (3 * N - 1 + i - j) j)%nat as [E1 E2]; [rewrite L_val; lia|rewrite L_val; lia|exact E|]. lia.
      + rewrite setblk_out by lia. unfold Mb. fold N L. rewrite (proj2 (Nat.leb_le _ _) B1), (proj2 (Nat.leb_le _ _) B2). cbn [andb].
        apply fold_upd_out. intros [a b] Hc E. apply Hcell in Hc. cbn [fst snd] in Hc. rewrite Had' in E by lia.
        destruct (Hinj (3 * N - 1 + (i0 + a) - (j0 + b)) (j0 + b) (3 * N - 1 + i - j) j)%nat as [E1 E2]; [rewrite L_val; lia|rewrite L_val; lia|exact E|]. lia.
    - rewrite setblk_out by lia. unfold Mb. fold N. rewrite (proj2 (Nat.leb_gt _ _) B2), andb_false_r. reflexivity.
    - rewrite setblk_out by lia. unfold Mb. fold N. rewrite (proj2 (Nat.leb_gt _ _) B1). reflexivity.
  Qed.

  Definition Meq (A B : mat) : Prop := forall i j, (i < dim)%nat -> (j < dim)%nat -> A i j = B i j.
  Lemma setblk_cong A B i0 j0 nr nc V : Meq A B -> Meq (setblk A i0 j0 nr nc V) (setblk B i0 j0 nr nc V).
  Proof. intros H i j Hi Hj. unfold setblk. destruct (_ && _ && _ && _)%bool; auto. Qed.

  (** [F] represents [M], with zeros in the unused cells. *)
  Definition Rel (F : vec) (M : mat) : Prop := Meq (Mb F) M /\ forall r c, corner r c -> F (r + c * dof_rows g)%nat = 0.

  Lemma view_sim i0 j0 nrows V F M :
    (i0 + nrows <= dim)%nat -> (j0 + N <= dim)%nat -> (j0 + N <= i0 + 3 * N)%nat -> (i0 + nrows <= j0 + 3 * N)%nat -> Rel F M ->
    exists F', view_set g i0 j0 nrows V F = Ok F' /\ Rel F' (setblk M i0 j0 nrows N V).
  Proof.
    intros H0 H1 H2 H3 [HM HZ]. destruct (view_set_ok i0 j0 nrows V F H0 H1 H2 H3) as (F' & E & HF & HC). exists F'. split; auto.
    split; [|intros r c Hrc; exact (eq_trans (HC r c Hrc) (HZ r c Hrc))].
    intros i j Hi Hj. rewrite HF by auto. apply (setblk_cong _ _ i0 j0 nrows N V HM); auto.
  Qed.

  Lemma band_if_sim m l F M : (l < NL - 1)%nat -> Rel F M ->
    exists F', band_if g m F l = Ok F' /\ Rel F' (dense_if g m M l).
  Proof.
    intros Hl HM. unfold band_if, dense_if, setrect. fold NQ. fold N.
    assert (HQ : NQ = (2 * N)%nat) by reflexivity.
    set (Q := (l * NQ)%nat).
    assert (Hd : (Q + 4 * N <= dim)%nat) by (rewrite dim_eq; unfold Q; rewrite HQ; nia).
    clearbody Q.
    edestruct (view_sim (N + Q) Q N) as (F1 & E1 & M1); [| | | |exact HM|rewrite E1; cbn [bind]]; try lia.
    edestruct (view_sim (N + Q + N) Q N) as (F2 & E2 & M2); [| | | |exact M1|rewrite E2; cbn [bind]]; try lia.
    edestruct (view_sim (N + Q) (Q + N) NQ) as (F3 & E3 & M3); [| | | |exact M2|rewrite E3; cbn [bind]]; try lia.
    edestruct (view_sim (N + Q) (Q + NQ) NQ) as (F4 & E4 & M4); [| | | |exact M3|rewrite E4; cbn [bind]]; try lia.
    edestruct (view_sim (N + Q) (Q + 3 * N) N) as (F5 & E5 & M5); [| | | |exact M4|rewrite E5; cbn [bind]]; try lia.
    edestruct (view_sim (N + Q + N) (Q + 3 * N) N) as (F6 & E6 & M6); [| | | |exact M5|rewrite E6]; try lia.
    exists F6. split; [reflexivity|].
    replace (N + (N + Q))%nat with (N + Q + N)%nat by lia.
    replace (N + Q + N - (N + Q))%nat with N by lia. replace (N + Q - Q)%nat with N by lia.
    replace (NQ + (N + Q) - (N + Q + N))%nat with N by lia. replace (NQ + (N + Q) - (N + Q))%nat with NQ by lia.
    replace (N + Q)%nat with (Q + N)%nat in * by lia.
    replace (NQ + Q - (Q + N))%nat with N by lia.
    replace (NQ + Q)%nat with (Q + NQ)%nat in * by lia. replace (3 * N + Q - (Q + NQ))%nat with N by lia.
    replace (3 * N + Q)%nat with (Q + 3 * N)%nat by lia. replace (4 * N + Q - (Q + 3 * N))%nat with N by lia.
    exact M6.
  Qed.

  Lemma band_fold_sim m : forall ls F M, (forall l, In l ls -> (l < NL - 1)%nat) -> Rel F M ->
    exists F', fold_left (fun rF l => let! F := rF in band_if g m F l) ls (Ok F) = Ok F' /\ Rel F' (fold_left (dense_if g m) ls M).
  Proof.
    induction ls as [|l ls IH]; intros F M Hl HM; [exists F; split; auto|].
    cbn [fold_left bind]. destruct (band_if_sim m l F M) as (F1 & E1 & M1); [apply Hl; left; auto|auto|].
    rewrite E1. apply IH; auto. intros; apply Hl; right; auto.
  Qed.

  Lemma band_sim m bd F M : Rel F M ->
    exists F', band_lhs g m bd F = Ok F' /\ Rel F' (dense_lhs g m bd M).
  Proof.
    intros HM. unfold band_lhs, dense_lhs, setrect. fold dim. fold NQ. fold N. fold NL.
    assert (HQ : NQ = (2 * N)%nat) by reflexivity. pose proof dim_ge as Hd.
    edestruct (view_sim 0 0 N) as (F1 & E1 & M1); [| | | |exact HM|rewrite E1; cbn [bind]]; try lia.
    edestruct (view_sim 0 N N) as (F2 & E2 & M2); [| | | |exact M1|rewrite E2; cbn [bind]]; try lia.
    edestruct (view_sim (dim - N) (dim - NQ) N) as (F3 & E3 & M3); [| | | |exact M2|rewrite E3; cbn [bind]]; try lia.
    edestruct (view_sim (dim - N) (dim - N) N) as (F4 & E4 & M4); [| | | |exact M3|rewrite E4; cbn [bind]]; try lia.
    replace (N - 0)%nat with N by lia. replace (NQ - N)%nat with N by lia. replace (dim - (dim - N))%nat with N by lia.
    replace (dim - N - (dim - NQ))%nat with N by lia.
    apply band_fold_sim; auto. intros l Hl. apply in_seq in Hl. lia.
  Qed.

  (** What scipy.linalg.solve_banded reads is the represented matrix. *)
  Lemma banded_reads F i j : (i < dim)%nat -> (j < dim)%nat ->
    banded_elt (3 * N - 1) (3 * N - 1) (rows L dim (dof_mat g F)) i j = Mb F i j.
  Proof.
    intros Hi Hj. unfold banded_elt, Mb. fold N. destruct (Nat.leb_spec j (i + (3 * N - 1))) as [B1|B1]; [|reflexivity].
    destruct (Nat.leb_spec i (j + (3 * N - 1))) as [B2|B2]; [|reflexivity]. cbn [andb].
    rewrite of_rows_rows; [reflexivity| |auto]. rewrite L_val. lia.
  Qed.

  (** The represented matrix determines the buffer. *)
  Lemma Rel_cells F F' M : Rel F M -> Rel F' M -> rows L dim (dof_mat g F) = rows L dim (dof_mat g F').
  Proof.
    intros [HM HZ] [HM' HZ']. unfold rows. apply map_ext_in. intros r Hr. apply map_ext_in. intros c Hc.
    apply in_seq in Hr. apply in_seq in Hc. unfold dof_mat. fold L.
    assert (D : corner r c \/ (3 * N - 1 <= c + r /\ c + r < dim + (3 * N - 1))%nat).
    { unfold corner. fold L dim N. lia. }
    destruct D as [D|[D1 D2]]; [unfold L; rewrite HZ, HZ'; auto|].
    assert (X : forall F0, Mb F0 (c + r - (3 * N - 1))%nat c = F0 (r + c * L)%nat).
    { intros F0. unfold Mb. fold N L. rewrite L_val in *. rewrite !(proj2 (Nat.leb_le _ _)) by lia. cbn [andb]. f_equal. lia. }
    rewrite <- !X. rewrite HM, HM' by lia. reflexivity.
  Qed.
  Lemma Rel_0 : Rel (fun _ => 0) (fun _ _ => 0).
  Proof. split; [|auto]. intros i j _ _. unfold Mb. destruct (_ && _)%bool; reflexivity. Qed.

  (** ** The dense matrix, block by block *)
  Variable m : nat.
  Variable bd : option (mat * vec).

  Definition row_if (l a : nat) : nat := (sc_N g + l * (2 * sc_N g) + a)%nat.
  Definition blk_top (i k : nat) : R :=
    sc_G g m 0%nat (N + i)%nat k * (if Nat.ltb k N then 1 else E_01 g m (k - N)).
  Definition blk_up (l a k : nat) : R :=
    sc_G g m l a k * (if Nat.ltb k N then E_lm1l g m l k else 1).
  Definition blk_dn (l a k : nat) : R :=
    - (sc_G g m (l + 1)%nat a k * (if Nat.ltb k N then 1 else E_llp1 g m l (k - N))).
  Definition blk_bot (a k : nat) : R :=
    if Nat.ltb k N then bot_left g m bd a k else bot_right g m bd a (k - N)%nat.

  Ltac blk := repeat first [rewrite setblk_in by lia | rewrite setblk_out by lia].

  Lemma dense_if_val M l l' a k : (a < 2 * N)%nat -> (k < 2 * N)%nat ->
    dense_if g m M l (row_if l a) (l' * (2 * N) + k)%nat =
      if Nat.eqb l' l then blk_up l a k else if Nat.eqb l' (l + 1) then blk_dn l a k else M (row_if l a) (l' * (2 * N) + k)%nat.
  Proof.
    intros Ha Hk. unfold dense_if, setrect, row_if, blk_up, blk_dn. fold N.
    replace (sub (sc_G g m l)) with (sub (sc_G g m l)) by reflexivity.
    set (Q := (l * (2 * N))%nat). set (Q' := (l' * (2 * N))%nat).
    assert (HQ : ((l' = l /\ Q' = Q) \/ (l' = l + 1 /\ Q' = Q + 2 * N) \/ (l' <> l /\ l' <> l + 1 /\ (Q' + 2 * N <= Q \/ Q + 4 * N <= Q')))%nat).
    { unfold Q, Q'. destruct (lt_eq_lt_dec l' l) as [[H|H]|H]; [right; right|left; subst; auto|].
      - repeat split; try lia. left. nia.
      - destruct (Nat.eq_dec l' (l + 1)) as [->|H']; [right; left; split; auto; lia|]. right; right. repeat split; try lia. right. nia. }
    clearbody Q Q'.
    destruct HQ as [[-> ->]|[[-> ->]|(H1 & H2 & H3)]].
    - rewrite Nat.eqb_refl. destruct (Nat.ltb_spec k N).
      + destruct (Nat.lt_ge_cases a N).
        * blk. unfold scale_cols, sub. f_equal; [f_equal; lia|]. f_equal; lia.
        * blk. unfold scale_cols, sub. f_equal; [f_equal; lia|]. f_equal; lia.
      + blk. unfold sub. rewrite Rmult_1_r. f_equal; lia.
    - rewrite (proj2 (Nat.eqb_neq (l + 1) l)) by lia. rewrite Nat.eqb_refl. destruct (Nat.ltb_spec k N).
      + blk. unfold oppm, sub. rewrite Rmult_1_r. do 2 f_equal; lia.
      + destruct (Nat.lt_ge_cases a N).
        * blk. unfold scale_cols, oppm, sub. rewrite Ropp_mult_distr_l. f_equal; [do 2 f_equal; lia|]. f_equal; lia.
        * blk. unfold scale_cols, oppm, sub. rewrite Ropp_mult_distr_l. f_equal; [do 2 f_equal; lia|]. f_equal; lia.
    - rewrite (proj2 (Nat.eqb_neq l' l)), (proj2 (Nat.eqb_neq l' (l + 1))) by lia. blk. reflexivity.
  Qed.

  Lemma dense_if_other M l i j : (i < row_if l 0 \/ row_if l (2 * N) <= i)%nat -> dense_if g m M l i j = M i j.
  Proof.
    unfold dense_if, setrect, row_if. fold N. intros H. blk. reflexivity.
  Qed.

  Lemma row_if_lt l l' a : (l < l')%nat -> (a < 2 * N)%nat -> (row_if l a < row_if l' 0)%nat.
  Proof. unfold row_if. fold N. nia. Qed.
  Lemma row_if_ge l l' a : (l < l')%nat -> (row_if l (2 * N) <= row_if l' a)%nat.
  Proof. unfold row_if. fold N. nia. Qed.

  Lemma fold_if_other ls M i j : (forall l, In l ls -> (i < row_if l 0 \/ row_if l (2 * N) <= i)%nat) ->
    fold_left (dense_if g m) ls M i j = M i j.
  Proof.
    revert M. induction ls as [|l ls IH]; intros M H; [reflexivity|]. cbn [fold_left].
    rewrite IH by (intros; apply H; right; auto). apply dense_if_other. apply H; left; auto.
  Qed.

  Lemma fold_if_row n M l l' a k : (l < n)%nat -> (a < 2 * N)%nat -> (k < 2 * N)%nat ->
    fold_left (dense_if g m) (seq 0 n) M (row_if l a) (l' * (2 * N) + k)%nat =
      if Nat.eqb l' l then blk_up l a k else if Nat.eqb l' (l + 1) then blk_dn l a k else M (row_if l a) (l' * (2 * N) + k)%nat.
  Proof.
    intros Hl Ha Hk. replace n with (l + (1 + (n - l - 1)))%nat by lia. rewrite seq_app, fold_left_app. cbn [plus seq fold_left].
    rewrite fold_if_other.
    2:{ intros x Hx. apply in_seq in Hx. left. apply row_if_lt; lia. }
    rewrite dense_if_val by auto. destruct (Nat.eqb l' l); auto. destruct (Nat.eqb l' (l + 1)); auto.
    apply fold_if_other. intros x Hx. apply in_seq in Hx. right. apply row_if_ge. lia.
  Qed.

  Lemma row_if_range l a : (l < NL - 1)%nat -> (a < 2 * N)%nat -> (N <= row_if l a < dim - N)%nat.
  Proof. intros. unfold row_if. fold N. rewrite dim_eq. nia. Qed.

  Lemma dense_top M i l' k : (i < N)%nat -> (l' < NL)%nat -> (k < 2 * N)%nat ->
    dense_lhs g m bd M i (l' * (2 * N) + k)%nat = if Nat.eqb l' 0 then blk_top i k else M i (l' * (2 * N) + k)%nat.
  Proof.
    intros Hi Hl' Hk. unfold dense_lhs, setrect, blk_top. fold dim N NL. pose proof dim_ge as Hd.
    rewrite fold_if_other by (intros l _; left; unfold row_if; fold N; lia).
    set (Q' := (l' * (2 * N))%nat).
    assert (HQ : ((l' = 0 /\ Q' = 0) \/ (l' <> 0 /\ 2 * N <= Q'))%nat) by (unfold Q'; destruct l'; [left|right]; split; lia).
    clearbody Q'. destruct HQ as [[-> ->]|[H1 H2]].
    - cbn [Nat.eqb plus]. destruct (Nat.ltb_spec k N).
      + blk. unfold sub. rewrite Rmult_1_r. f_equal; lia.
      + blk. unfold scale_cols, sub. f_equal. f_equal; lia.
    - rewrite (proj2 (Nat.eqb_neq _ _) H1). blk. reflexivity.
  Qed.

  Lemma dense_bot M a l' k : (a < N)%nat -> (l' < NL)%nat -> (k < 2 * N)%nat ->
    dense_lhs g m bd M (dim - N + a)%nat (l' * (2 * N) + k)%nat =
      if Nat.eqb l' (NL - 1) then blk_bot a k else M (dim - N + a)%nat (l' * (2 * N) + k)%nat.
  Proof.
    intros Ha Hl' Hk. unfold dense_lhs, setrect, blk_bot. fold dim N NL. pose proof dim_ge as Hd.
    rewrite fold_if_other.
    2:{ intros l Hl. apply in_seq in Hl. right. unfold row_if. fold N. rewrite dim_eq. nia. }
    set (Q' := (l' * (2 * N))%nat).
    assert (HQ : ((l' = NL - 1 /\ Q' = dim - 2 * N) \/ (l' <> NL - 1 /\ Q' + 4 * N <= dim))%nat).
    { unfold Q'. rewrite dim_eq. destruct (Nat.eq_dec l' (NL - 1)) as [->|H]; [left|right]; split; auto; nia. }
    clearbody Q'. destruct HQ as [[-> ->]|[H1 H2]].
    - rewrite Nat.eqb_refl. destruct (Nat.ltb_spec k N).
      + blk. f_equal; lia.
      + blk. f_equal; lia.
    - rewrite (proj2 (Nat.eqb_neq _ _) H1). blk. reflexivity.
  Qed.

  Lemma dense_mid M l l' a k : (l < NL - 1)%nat -> (l' < NL)%nat -> (a < 2 * N)%nat -> (k < 2 * N)%nat ->
    dense_lhs g m bd M (row_if l a) (l' * (2 * N) + k)%nat =
      if Nat.eqb l' l then blk_up l a k else if Nat.eqb l' (l + 1) then blk_dn l a k else M (row_if l a) (l' * (2 * N) + k)%nat.
  Proof.
    intros Hl Hl' Ha Hk. unfold dense_lhs, setrect. fold dim N NL. rewrite fold_if_row by auto.
    destruct (Nat.eqb l' l); auto. destruct (Nat.eqb l' (l + 1)); auto.
    pose proof (row_if_range l a Hl Ha). pose proof dim_ge. blk. reflexivity.
  Qed.

  (** Zero outside the blocks: kept by every assembly, so buffers can be reused. *)
  Definition zero_out (M : mat) : Prop :=
    (forall i l' k, (i < N)%nat -> (l' < NL)%nat -> (k < 2 * N)%nat -> l' <> 0%nat -> M i (l' * (2 * N) + k)%nat = 0) /\
    (forall a l' k, (a < N)%nat -> (l' < NL)%nat -> (k < 2 * N)%nat -> l' <> (NL - 1)%nat -> M (dim - N + a)%nat (l' * (2 * N) + k)%nat = 0) /\
    (forall l a l' k, (l < NL - 1)%nat -> (a < 2 * N)%nat -> (l' < NL)%nat -> (k < 2 * N)%nat -> l' <> l -> l' <> (l + 1)%nat ->
       M (row_if l a) (l' * (2 * N) + k)%nat = 0).

  Lemma zero_out_0 : zero_out (fun _ _ => 0).
  Proof. repeat split. Qed.

  Lemma zero_out_dense M : zero_out M -> zero_out (dense_lhs g m bd M).
  Proof.
    intros (H1 & H2 & H3). split; [|split].
    - intros i l' k Hi Hl' Hk Hne. rewrite dense_top by auto. rewrite (proj2 (Nat.eqb_neq _ _) Hne). auto.
    - intros a l' k Hi Hl' Hk Hne. rewrite dense_bot by auto. rewrite (proj2 (Nat.eqb_neq _ _) Hne). auto.
    - intros l a l' k Hl Ha Hl' Hk Hne Hne'. rewrite dense_mid by auto.
      rewrite (proj2 (Nat.eqb_neq _ _) Hne), (proj2 (Nat.eqb_neq _ _) Hne'). auto.
  Qed.

  (** Every index is a row/column of one of the three kinds. *)
  Lemma row_cases i : (i < dim)%nat ->
    (i < N)%nat \/ (exists l a, (l < NL - 1)%nat /\ (a < 2 * N)%nat /\ i = row_if l a) \/ (exists a, (a < N)%nat /\ i = (dim - N + a)%nat).
  Proof.
    intros Hi. pose proof dim_ge. destruct (Nat.lt_ge_cases i N); [left; auto|right].
    destruct (Nat.lt_ge_cases i (dim - N)).
    - left. exists ((i - N) / (2 * N))%nat, ((i - N) mod (2 * N))%nat.
      pose proof (Nat.div_mod (i - N) (2 * N) ltac:(lia)) as E. pose proof (Nat.mod_upper_bound (i - N) (2 * N) ltac:(lia)).
      split; [|split; auto].
      + apply Nat.div_lt_upper_bound; [lia|]. rewrite dim_eq in *. nia.
      + unfold row_if. fold N. lia.
    - right. exists (i - (dim - N))%nat. lia.
  Qed.
  Lemma col_cases j : (j < dim)%nat -> exists l k, (l < NL)%nat /\ (k < 2 * N)%nat /\ j = (l * (2 * N) + k)%nat.
  Proof.
    intros Hj. exists (j / (2 * N))%nat, (j mod (2 * N))%nat.
    pose proof (Nat.div_mod j (2 * N) ltac:(lia)) as E. pose proof (Nat.mod_upper_bound j (2 * N) ltac:(lia)).
    split; [|split; auto; lia]. apply Nat.div_lt_upper_bound; [lia|]. rewrite dim_eq in Hj. lia.
  Qed.

  (** Reuse of the buffer: the assembled matrix does not depend on its previous content. *)
  Lemma dense_fresh M M' : zero_out M -> zero_out M' -> Meq (dense_lhs g m bd M) (dense_lhs g m bd M').
  Proof.
    intros (H1 & H2 & H3) (H1' & H2' & H3') i j Hi Hj.
    destruct (col_cases j Hj) as (l' & k & Hl' & Hk & ->).
    destruct (row_cases i Hi) as [Hi'|[(l & a & Hl & Ha & ->)|(a & Ha & ->)]].
    - rewrite !dense_top by auto. destruct (Nat.eqb_spec l' 0); auto. rewrite H1, H1'; auto.
    - rewrite !dense_mid by auto. destruct (Nat.eqb_spec l' l); auto. destruct (Nat.eqb_spec l' (l + 1)); auto. rewrite H3, H3'; auto.
    - rewrite !dense_bot by auto. destruct (Nat.eqb_spec l' (NL - 1)); auto. rewrite H2, H2'; auto.
  Qed.
  Lemma zero_out_Meq A B : Meq A B -> zero_out A -> zero_out B.
  Proof.
    intros HM (H1 & H2 & H3). pose proof dim_ge.
    assert (Hc : forall l' k, (l' < NL)%nat -> (k < 2 * N)%nat -> (l' * (2 * N) + k < dim)%nat) by (intros; rewrite dim_eq; nia).
    split; [|split]; intros; rewrite <- HM; auto; try lia.
    pose proof (row_if_range l a). lia.
  Qed.

  (** Row sums of the system. *)
  Lemma rsum_dim f : rsum dim f = rsum NL (fun l => rsum (2 * N) (fun k => f (l * (2 * N) + k)%nat)).
  Proof. rewrite dim_eq. apply rsum_blocks. Qed.

  Lemma sum_top M (C : vec) i : zero_out M -> (i < N)%nat ->
    rsum dim (fun j => dense_lhs g m bd M i j * C j) = rsum (2 * N) (fun k => blk_top i k * C k).
  Proof.
    intros (H1 & _ & _) Hi. rewrite rsum_dim. rewrite (rsum_single NL 0).
    - apply rsum_ext. intros k Hk. rewrite (dense_top M i 0 k) by auto. reflexivity.
    - auto.
    - intros l' Hl' Hne. apply rsum_0. intros k Hk. rewrite dense_top by auto. rewrite (proj2 (Nat.eqb_neq _ _) Hne), H1 by auto. ring.
  Qed.
  Lemma sum_bot M (C : vec) a : zero_out M -> (a < N)%nat ->
    rsum dim (fun j => dense_lhs g m bd M (dim - N + a)%nat j * C j) = rsum (2 * N) (fun k => blk_bot a k * C ((NL - 1) * (2 * N) + k)%nat).
  Proof.
    intros (_ & H2 & _) Ha. rewrite rsum_dim. rewrite (rsum_single NL (NL - 1)).
    - apply rsum_ext. intros k Hk. rewrite dense_bot by (auto; lia). rewrite Nat.eqb_refl. reflexivity.
    - lia.
    - intros l' Hl' Hne. apply rsum_0. intros k Hk. rewrite dense_bot by auto. rewrite (proj2 (Nat.eqb_neq _ _) Hne), H2 by auto. ring.
  Qed.
  Lemma rsum_two n f i j : (i < n)%nat -> (j < n)%nat -> i <> j -> (forall k, (k < n)%nat -> k <> i -> k <> j -> f k = 0) -> rsum n f = f i + f j.
  Proof.
    intros Hi Hj Hne H. rewrite (rsum_ext n f (fun k => (if Nat.eqb k i then f i else 0) + (if Nat.eqb k j then f j else 0))).
    - rewrite rsum_plus. rewrite (rsum_single n i (fun k => if Nat.eqb k i then f i else 0)); [|auto|intros k _ Hk; rewrite (proj2 (Nat.eqb_neq _ _) Hk); auto].
      rewrite (rsum_single n j (fun k => if Nat.eqb k j then f j else 0)); [|auto|intros k _ Hk; rewrite (proj2 (Nat.eqb_neq _ _) Hk); auto].
      rewrite !Nat.eqb_refl. reflexivity.
    - intros k Hk. destruct (Nat.eqb_spec k i) as [->|H1]; [rewrite (proj2 (Nat.eqb_neq i j)) by auto; ring|].
      destruct (Nat.eqb_spec k j) as [->|H2]; [ring|]. rewrite H by auto. ring.
  Qed.
  Lemma sum_mid M (C : vec) l a : zero_out M -> (l < NL - 1)%nat -> (a < 2 * N)%nat ->
    rsum dim (fun j => dense_lhs g m bd M (row_if l a) j * C j)
    = rsum (2 * N) (fun k => blk_up l a k * C (l * (2 * N) + k)%nat) + rsum (2 * N) (fun k => blk_dn l a k * C ((l + 1) * (2 * N) + k)%nat).
  Proof.
    intros (_ & _ & H3) Hl Ha. rewrite rsum_dim. rewrite (rsum_two NL _ l (l + 1)); try lia.
    - f_equal; apply rsum_ext; intros k Hk; rewrite dense_mid by (auto; lia).
      + rewrite Nat.eqb_refl. reflexivity.
      + rewrite (proj2 (Nat.eqb_neq (l + 1) l)) by lia. rewrite Nat.eqb_refl. reflexivity.
    - intros l' Hl' Hne Hne'. apply rsum_0. intros k Hk. rewrite dense_mid by auto.
      rewrite (proj2 (Nat.eqb_neq _ _) Hne), (proj2 (Nat.eqb_neq _ _) Hne'), H3 by auto. ring.
  Qed.
End Band.
