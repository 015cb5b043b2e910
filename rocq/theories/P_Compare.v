(** The comparison helper. *)
From Coq Require Import String Reals Lra Lia List Bool Arith ZArith.
From Verif Require Import Base Tensor M_LinAlg M_Subroutines M_Assemble M_Pydisort M_Compare Spec_Sol Spec_Compare Spec_Full P_Valid P_Tensor P_Pydisort2 P_Pydisort3 P_Pydisort4 P_NT2.
Import ListNotations.
Local Open Scope R_scope.

Lemma size_sq s : size (sq_shape s) = size s.
Proof.
  induction s as [|n s IH]; [reflexivity|]. unfold sq_shape in *. cbn [filter size]. destruct (Nat.eqb_spec n 1) as [->|E]; cbn [negb size]; rewrite IH; lia.
Qed.
Lemma flat_sqx s : forall idx, inb s idx -> flat (sq_shape s) (sqx s idx) = flat s idx.
Proof.
  induction s as [|n s IH]; intros [|i idx] H; cbn in H; try (destruct H; fail); [reflexivity|]. destruct H as [H1 H2].
  pose proof (size_sq s) as Es. unfold sq_shape in *. cbn [filter flat sqx]. destruct (Nat.eqb_spec n 1) as [->|E]; cbn [negb flat].
  - rewrite IH by auto. assert (i = 0%nat) as -> by lia. lia.
  - rewrite IH, Es by auto. reflexivity.
Qed.
Lemma len_all_idx s : length (all_idx s) = size s.
Proof.
  induction s as [|n s IH]; [reflexivity|]. cbn [all_idx size]. rewrite flat_map_concat_map.
  generalize 0%nat as a. induction n as [|n IHn]; intros a; [reflexivity|]. cbn [seq map concat]. rewrite app_length, map_length, IH, IHn. lia.
Qed.
Lemma flat_lt s : forall idx, inb s idx -> (flat s idx < size s)%nat.
Proof.
  induction s as [|n s IH]; intros [|i idx] H; cbn in H; try (destruct H; fail); [cbn; lia|]. destruct H as [H1 H2]. specialize (IH idx H2). cbn [flat size].
  assert (i * size s + size s <= n * size s)%nat by nia. lia.
Qed.
Lemma nth_flat s : forall idx, inb s idx -> nth (flat s idx) (all_idx s) [] = idx.
Proof.
  induction s as [|n s IH]; intros [|i idx] H; cbn in H; try (destruct H; fail); [reflexivity|]. destruct H as [H1 H2]. specialize (IH idx H2). pose proof (flat_lt s idx H2) as Hf.
  cbn [flat all_idx]. rewrite flat_map_concat_map.
  assert (X : forall n a i, (i < n)%nat -> nth (i * size s + flat s idx) (concat (map (fun i => map (cons i) (all_idx s)) (seq a n))) [] = (a + i)%nat :: idx).
  { clear n i H1. induction n as [|n IHn]; intros a i Hi; [lia|]. cbn [seq map concat]. destruct i as [|i].
    - rewrite app_nth1 by (rewrite map_length, len_all_idx; lia). change (0 * size s + flat s idx)%nat with (flat s idx).
      rewrite (nth_indep _ [] (cons a [])) by (rewrite map_length, len_all_idx; auto). rewrite map_nth, IH. f_equal. lia.
    - rewrite app_nth2 by (rewrite map_length, len_all_idx; lia). rewrite map_length, len_all_idx.
      replace (S i * size s + flat s idx - size s)%nat with (i * size s + flat s idx)%nat by lia. rewrite IHn by lia. f_equal. lia. }
  rewrite (X n 0%nat i H1). reflexivity.
Qed.
Lemma nth_entries A idx : inb (shp A) idx -> nth (flat (shp A) idx) (entries A) 0 = elt A idx.
Proof.
  intros H. unfold entries. rewrite (nth_indep _ 0 (elt A [])) by (rewrite map_length, len_all_idx; apply flat_lt; auto).
  rewrite map_nth, nth_flat; auto.
Qed.

Lemma iop_same f A B : shp A = shp B -> exists C, iop f A B = Ok C /\ shp C = shp A /\ forall idx, inb (shp A) idx -> elt C idx = f (elt A idx) (elt B idx).
Proof.
  intros H. destruct (bcast2_same f A B H) as (C & E & S & X). exists C. unfold iop. rewrite E. cbn [bind]. rewrite S, list_eqb_refl. auto.
Qed.

Lemma diff_1 ref A n f : shp ref = [n] -> squeezed A [n] f -> exists dq, differences ref A = Ok dq /\ pointwise dq [n] (elt ref) f.
Proof.
  intros Hr [HS HE]. unfold tsqueeze in *. cbn [shp elt] in *. unfold differences.
  assert (X : exists D, tsub ref A = Ok D /\ shp D = [n] /\ forall idx, inb [n] idx -> elt D idx = elt ref idx - f idx).
  { unfold tsub, bcast2. cbn [sq_shape filter unsq] in *. destruct (Nat.eqb_spec n 1) as [->|Hn]; cbn [negb] in *.
    - rewrite Hr, HS in *. unfold padl. cbn. eexists. split; [reflexivity|]. split; [reflexivity|]. intros idx Hi. apply inb_1 in Hi as (k & -> & Hk). assert (k = 0%nat) as -> by lia.
      cbn. rewrite HE by exact I. reflexivity.
    - apply Nat.eqb_neq in Hn. rewrite Hr, HS in *. unfold padl. cbn. rewrite bdim_refl. eexists. split; [reflexivity|]. split; [reflexivity|]. intros idx Hi. apply inb_1 in Hi as (k & -> & Hk).
      cbn. unfold bi. rewrite Hn. rewrite HE by (split; [auto|exact I]). reflexivity. }
  destruct X as (D & -> & SD & ED). cbn [bind].
  destruct (iop_same (fun x r => if Req_EM_T r 0 then 0 else x / r) (tmap Rabs D) ref) as (Q & -> & SQ & EQ); [cbn; congruence|]. cbn [bind tmap shp elt] in *.
  eexists. split; [reflexivity|]. unfold pointwise. cbn [fst snd tmap shp elt]. rewrite SD in *. split; [auto|]. split; [auto|]. intros idx Hi. rewrite EQ by auto. rewrite ED by auto. auto.
Qed.
Lemma tmax_largest A : (exists idx, inb (shp A) idx) -> exists x, tmax A = Ok x /\ largest A x.
Proof.
  intros (idx & Hi). unfold tmax. assert (Hin : In (elt A idx) (entries A)) by (apply entries_In; eauto).
  destruct (entries A) as [|y ys] eqn:E; [destruct Hin|]. exists (lmax (y :: ys)). split; [reflexivity|]. split.
  - assert (X : In (lmax (y :: ys)) (entries A)) by (rewrite E; apply lmax_In; discriminate). apply entries_In in X. exact X.
  - intros i Hj. apply lmax_ge. rewrite <- E. apply entries_In. eauto.
Qed.

(** Reordering, reshaping. *)
Lemma take_reshape A nq n nf f reorder : (2 <= nq)%nat -> squeezed A [nq; n; nf] f -> length reorder = nq -> (forall i, In i reorder -> (i < nq)%nat) ->
  exists B C, ttake 0 reorder A = Ok B /\ treshape [nq; n; nf] B = Ok C /\ shp C = [nq; n; nf] /\
  forall i t h, inb [nq; n; nf] [i; t; h] -> elt C [i; t; h] = f [nth i reorder 0%nat; t; h].
Proof.
  intros Hq [HS HE] Hl Hr. unfold tsqueeze in *. cbn [shp elt] in *.
  assert (Sh : sq_shape [nq; n; nf] = nq :: sq_shape [n; nf]).
  { unfold sq_shape. cbn [filter]. destruct (Nat.eqb_spec nq 1); [lia|]. reflexivity. }
  assert (SA : shp A = nq :: sq_shape [n; nf]) by congruence.
  unfold ttake. rewrite SA. cbn [nth firstn skipn app]. rewrite forallb_lt by exact Hr. rewrite Hl.
  eexists. eexists. split; [reflexivity|]. unfold treshape. cbn [shp].
  assert (Es : size [nq; n; nf] = size (nq :: sq_shape [n; nf])) by (cbn [size]; rewrite size_sq; reflexivity).
  rewrite (proj2 (Nat.eqb_eq _ _) Es). split; [reflexivity|]. split; [reflexivity|]. intros i t h Hi. cbn [elt].
  set (B := mkT (nq :: sq_shape [n; nf]) _).
  destruct (sqx_inb _ _ Hi) as [H1 H2]. pose proof (flat_sqx _ _ Hi) as Hf. rewrite Sh in H1, Hf. rewrite <- Hf.
  change (nq :: sq_shape [n; nf]) with (shp B) at 1. rewrite nth_entries by exact H1.
  assert (Ex : sqx [nq; n; nf] [i; t; h] = i :: sqx [n; nf] [t; h]).
  { cbn [sqx]. destruct (Nat.eqb_spec nq 1); [lia|]. reflexivity. }
  rewrite Ex. unfold B. cbn [elt nth skipn app]. destruct Hi as [Hi1 Hi2]. destruct (sqx_inb [n; nf] [t; h] Hi2) as [H3 H4].
  rewrite HE.
  - f_equal. assert (Eu : forall y, unsq [nq; n; nf] (y :: sqx [n; nf] [t; h]) = y :: unsq [n; nf] (sqx [n; nf] [t; h])).
    { intros y. cbn [unsq]. destruct (Nat.eqb_spec nq 1); [lia|]. cbn [hd tl]. reflexivity. }
    rewrite Eu, H4. reflexivity.
  - rewrite SA. split; [|exact H3]. apply Hr, nth_In. lia.
Qed.

Lemma chosen_lt mask i : In i (chosen mask) -> (i < length mask)%nat.
Proof. unfold chosen. rewrite filter_In, in_seq. intros [H _]. lia. Qed.
Lemma chosen_some mask : In true mask -> (0 < length (chosen mask))%nat.
Proof.
  intros H. apply (In_nth _ _ false) in H as (i & Hi & E). assert (X : In i (chosen mask)) by (unfold chosen; rewrite filter_In, in_seq; split; [lia|auto]).
  destruct (chosen mask); [destruct X|cbn; lia].
Qed.
Lemma tmask_3 mask A nq n nf : shp A = [nq; n; nf] -> length mask = nq -> exists B, tmask mask A = Ok B /\ shp B = [length (chosen mask); n; nf] /\
  forall a t h, elt B [a; t; h] = elt A [nth a (chosen mask) 0%nat; t; h].
Proof.
  intros HS Hm. unfold tmask, ttake. rewrite HS. cbn [nth firstn skipn app]. rewrite Hm, Nat.eqb_refl.
  rewrite forallb_lt by (intros i Hi; apply chosen_lt in Hi; lia). eexists. split; [reflexivity|]. split; reflexivity.
Qed.

Lemma lmax_seq g n : (0 < n)%nat -> (exists k, (k < n)%nat /\ lmax (map g (seq 0 n)) = g k) /\ forall k, (k < n)%nat -> g k <= lmax (map g (seq 0 n)).
Proof.
  intros Hn. split.
  - assert (X : In (lmax (map g (seq 0 n))) (map g (seq 0 n))) by (apply lmax_In; destruct n; [lia|discriminate]).
    apply in_map_iff in X as (k & E & Hk). apply in_seq in Hk. exists k. split; [lia|auto].
  - intros k Hk. apply lmax_ge. apply in_map_iff. exists k. split; [auto|apply in_seq; lia].
Qed.
Lemma argmax_seq g n : (0 < n)%nat -> let k := argmax_list (map g (seq 0 n)) in (k < n)%nat /\ forall j, (j < n)%nat -> g j <= g k.
Proof.
  intros Hn k. destruct (lmax_seq g n Hn) as [(j & Hj & Ej) Hmax]. unfold k, argmax_list, argmax_bool.
  destruct (first_true _) as [i|] eqn:E.
  - apply first_true_Some in E as (Hi & E & _). rewrite !map_length, seq_length in Hi.
    rewrite (nth_indep _ false (Reqb 0 (lmax (map g (seq 0 n))))) in E by (rewrite !map_length, seq_length; auto).
    rewrite (map_nth (fun y => Reqb y (lmax (map g (seq 0 n))))) in E. apply Reqb_iff in E.
    rewrite (nth_indep _ 0 (g 0%nat)) in E by (rewrite map_length, seq_length; auto). rewrite map_nth, seq_nth in E by auto. cbn [plus] in E.
    split; [auto|]. intros j' Hj'. rewrite E. auto.
  - exfalso. pose proof (proj1 (first_true_None _) E j) as X. rewrite !map_length, seq_length in X.
    try specialize (X Hj). rewrite (nth_indep _ false (Reqb 0 (lmax (map g (seq 0 n))))) in X by (rewrite !map_length, seq_length; auto).
    rewrite (map_nth (fun y => Reqb y (lmax (map g (seq 0 n))))) in X.
    rewrite (nth_indep _ 0 (g 0%nat)) in X by (rewrite map_length, seq_length; auto). rewrite map_nth, seq_nth in X by auto. cbn [plus] in X. rewrite Ej, Reqb_refl in X. discriminate.
Qed.

Lemma print_worst_ok tau D na n nf : shp D = [na; n; nf] -> (0 < na)%nat -> (0 < n)%nat -> (0 < nf)%nat -> length tau = n ->
  exists tx, print_worst tau D = Ok tx /\ largest_at tau D tx.
Proof.
  intros HS Ha Hn Hf Ht. unfold print_worst. rewrite HS. cbn [length Nat.eqb check bind size].
  destruct (Nat.eqb_spec (na * (n * (nf * 1))) 0) as [E|_]; [exfalso; nia|]. cbn [negb check bind].
  assert (D0 : dim D 0 = na) by (unfold dim; rewrite HS; reflexivity). assert (D1 : dim D 1 = n) by (unfold dim; rewrite HS; reflexivity). assert (D2 : dim D 2 = nf) by (unfold dim; rewrite HS; reflexivity).
  destruct (argmax_seq (max01 D) n Hn) as [Hk Hmax]. cbv zeta in Hk, Hmax. set (k := worst_depth D).
  assert (Ek : argmax_list (map (max01 D) (seq 0 n)) = k) by (unfold k, worst_depth; rewrite D1; reflexivity). rewrite Ek in Hk, Hmax.
  rewrite (nth_error_nth' tau 0) by lia. cbn [bind].
  destruct (tmax_largest (depth_slice D k)) as (x & -> & [(idx & Hi & Ei) Hx]).
  { exists [0; 0]%nat. unfold depth_slice. cbn [shp inb]. rewrite D0, D2. auto. }
  cbn [bind]. eexists. split; [reflexivity|]. unfold largest_at. cbn [fst snd].
  unfold depth_slice in Hi, Ei, Hx. cbn [shp elt] in Hi, Ei, Hx. rewrite D0, D2 in Hi, Hx. apply inb_2 in Hi as (i & h & -> & Hi & Hh). cbn [nth] in Ei.
  assert (M0 : forall i t h, (i < na)%nat -> elt D [i; t; h] <= max0 D t h).
  { intros i' t' h' Hi'. unfold max0. rewrite D0. apply (proj2 (lmax_seq (fun i => elt D [i; t'; h']) na Ha)). auto. }
  assert (M1 : forall t h, (h < nf)%nat -> max0 D t h <= max01 D t).
  { intros t' h' Hh'. unfold max01. rewrite D2. apply (proj2 (lmax_seq (max0 D t') nf Hf)). auto. }
  assert (Xk : max01 D k <= x).
  { unfold max01. rewrite D2. destruct (proj1 (lmax_seq (max0 D k) nf Hf)) as (h' & Hh' & ->). unfold max0. rewrite D0.
    destruct (proj1 (lmax_seq (fun i => elt D [i; k; h']) na Ha)) as (i' & Hi' & ->). apply (Hx [i'; h']). cbn; auto. }
  split; [split|].
  - exists [i; k; h]. rewrite HS. split; [cbn; auto|exact Ei].
  - rewrite HS. intros idx Hidx. apply inb_3 in Hidx as (i' & t' & h' & -> & Hi' & Ht' & Hh').
    eapply Rle_trans; [apply M0; auto|]. eapply Rle_trans; [apply M1; auto|]. eapply Rle_trans; [apply Hmax; auto|exact Xk].
  - exists i, k, h. rewrite HS. split; [cbn; auto|]. auto.
Qed.

(** The whole comparison. *)
Section Whole.
  Variables (p : py_in) (rd : refdata) (mask : list bool) (reorder : list nat).
  Variables (gu gd : list R -> bool -> bool -> res pret) (u : list R -> list R -> bool -> bool -> bool -> res pret) (Fu Fd Fb : R -> R) (G : nat -> R -> R -> R).
  Hypothesis HI : 0 <= p_I0 p.
  Hypothesis Hup : reports p gu Fu.
  Hypothesis Hdn : reports_down p gd Fd Fb.
  Hypothesis HC : comparable p rd mask reorder.
  Let n := length (rd_tau rd).
  Let nq := streams p.
  Let nf := length (rd_phi rd).
  Let Hd : depths_ok p (rd_tau rd) := cp_depths _ _ _ _ HC.
  Let Hn : length (rd_tau rd) = n := eq_refl.
  Let Hn0 : (0 < n)%nat := proj1 (cp_some _ _ _ _ HC).
  Let Hf0 : (0 < nf)%nat := proj2 (cp_some _ _ _ _ HC).
  Let Sup : shp (rd_flup rd) = [n] := cp_up _ _ _ _ HC.
  Let Sdn : shp (rd_rfldn rd) = [n] := cp_down _ _ _ _ HC.
  Let Sdi : shp (rd_rfldir rd) = [n] := cp_direct _ _ _ _ HC.
  Let Suu : shp (rd_uu rd) = [nq; n; nf] := cp_u _ _ _ _ HC.
  Let Hro : length reorder = nq := proj1 (cp_order _ _ _ _ HC).
  Let Hrl : forall i, In i reorder -> (i < nq)%nat := proj2 (cp_order _ _ _ _ HC).
  Let Hm : length mask = nq := proj1 (cp_mask _ _ _ _ HC).
  Let Hms : In true mask := proj2 (cp_mask _ _ _ _ HC).
  Let depth (idx : list nat) : R := nth (nth 0 idx 0%nat) (rd_tau rd) 0.
  Lemma fluxes_ok (k : compared -> Prop) o : (forall up dn di pr, fluxes_compared p rd Fu Fd Fb (mkCmp up dn di None pr None) -> exists r,
      (match o with None => Ok (mkCmp up dn di None pr None) | Some uf =>
      let! ru := uf (rd_tau rd) (rd_phi rd) false false false in
      let! vu := the_value ru in
      let! vo := ttake 0 reorder vu in
      let! vr := treshape (shp (rd_uu rd)) vo in
      let! d := tsub (rd_uu rd) vr in
      let! d := tmask mask (tmap Rabs d) in
      let! r := tmask mask (rd_uu rd) in
      let! q := iop (fun x y => if Req_EM_T y 0 then 0 else x / y) d r in
      let! wd := print_worst (rd_tau rd) d in
      let! wq := print_worst (rd_tau rd) q in
      Ok (mkCmp up dn di (Some (d, q)) pr (Some (wd, wq))) end) = Ok r /\ k r) -> exists r, compare rd mask reorder gu gd o = Ok r /\ k r.
  Proof.
    intros HK. unfold compare.
    assert (X1 : forall dq ref val, pointwise dq [n] ref val -> exists ab, (let! a := tmax (fst dq) in let! b := tmax (snd dq) in Ok (a, b)) = Ok ab /\ largest (fst dq) (fst ab) /\ largest (snd dq) (snd ab)).
    { intros dq ref val (S1 & S2 & _). destruct (tmax_largest (fst dq)) as (a & -> & La); [exists [0%nat]; rewrite S1; cbn; auto|].
      destruct (tmax_largest (snd dq)) as (b & -> & Lb); [exists [0%nat]; rewrite S2; cbn; auto|]. cbn [bind]. exists (a, b). auto. }
    destruct (Hup _ Hd) as (A1 & -> & Q1). cbn [bind the_value as_array]. rewrite Hn in Q1.
    destruct (diff_1 _ _ _ _ Sup Q1) as (up & -> & Pup). cbn [bind]. destruct (X1 _ _ _ Pup) as (m1 & -> & L1). cbn [bind].
    destruct (Hdn _ Hd) as (A2 & A3 & -> & Q2 & Q3 & Q3'). cbn [bind the_item nth_error as_array]. rewrite Hn in Q2, Q3.
    destruct (diff_1 _ _ _ _ Sdn Q2) as (dn & -> & Pdn). cbn [bind]. destruct (X1 _ _ _ Pdn) as (m2 & -> & L2). cbn [bind].
    assert (X3 : exists di, differences (rd_rfldir rd) A3 = Ok di /\ pointwise di [n] (elt (rd_rfldir rd)) (fun idx => if Rlt_dec 0 (p_I0 p) then Fb (depth idx) else 0)).
    { destruct (Rlt_dec 0 (p_I0 p)) as [H|H]; [exact (diff_1 _ _ _ _ Sdi (Q3 H))|].
      destruct (Q3' ltac:(lra)) as [SB EB]. unfold tsqueeze in SB, EB. cbn [shp elt sq_shape filter unsq] in SB, EB. rewrite SB in EB.
      destruct (bcast2_10 Rminus (rd_rfldir rd) A3 n Sdi SB) as (D & ED0 & SD & ED).
      unfold differences, tsub. rewrite ED0. cbn [bind].
      destruct (iop_same (fun x r => if Req_EM_T r 0 then 0 else x / r) (tmap Rabs D) (rd_rfldir rd)) as (Q & -> & SQ & EQ); [cbn; congruence|].
      cbn [bind]. eexists. split; [reflexivity|]. unfold pointwise. cbn [fst snd tmap shp elt] in *. split; [auto|]. split; [congruence|]. intros idx Hi. rewrite (EQ idx ltac:(rewrite SD; exact Hi)).
      apply inb_1 in Hi as (k' & -> & Hk'). rewrite ED, bi_lt by auto. rewrite (EB [] I). auto. }
    destruct X3 as (di & -> & Pdi). cbn [bind]. destruct (X1 _ _ _ Pdi) as (m3 & -> & L3). cbn [bind].
    destruct (HK up dn di [m1; m2; m3]) as (r & Hr & Kr).
    { unfold fluxes_compared. cbn [cm_up cm_down cm_direct cm_print]. split; [assumption|]. split; [assumption|]. split; [assumption|]. repeat (constructor; [tauto|]). constructor. }
    exists r. split; [exact Hr|exact Kr].
  Qed.
  Lemma compare_fluxes : exists r, compare rd mask reorder gu gd None = Ok r /\ fluxes_compared p rd Fu Fd Fb r /\ cm_u r = None /\ cm_print_u r = None.
  Proof.
    apply (fluxes_ok (fun r => fluxes_compared p rd Fu Fd Fb r /\ cm_u r = None /\ cm_print_u r = None) None). intros. eexists. split; [reflexivity|]. cbn. auto.
  Qed.

  Hypothesis Hq : (2 <= nq)%nat.
  Hypothesis Hu : reports_u p u G.
  Lemma compare_all : exists r, compare rd mask reorder gu gd (Some u) = Ok r /\ fluxes_compared p rd Fu Fd Fb r /\ intensities_compared rd mask reorder G r.
  Proof.
    apply (fluxes_ok (fun r => fluxes_compared p rd Fu Fd Fb r /\ intensities_compared rd mask reorder G r) (Some u)). intros up dn di pr HF. destruct (Hu _ (rd_phi rd) Hd) as (A & HA & QA). rewrite HA. cbn [bind the_value as_array].
    destruct (take_reshape _ _ _ _ _ _ Hq QA Hro Hrl) as (B & C & -> & E2 & SC & EC). cbn [bind]. rewrite Suu. change [nq; length (rd_tau rd); length (rd_phi rd)] with [nq; n; nf] in *. rewrite E2. cbn [bind].
    destruct (bcast2_same Rminus (rd_uu rd) C) as (D & ED0 & SD & ED); [transitivity [nq; n; nf]; [exact Suu|symmetry; exact SC]|]. unfold tsub. rewrite ED0. cbn [bind].
    assert (SD' : shp (tmap Rabs D) = [nq; n; nf]) by (cbn; transitivity (shp (rd_uu rd)); [exact SD|exact Suu]).
    destruct (tmask_3 mask _ _ _ _ SD' Hm) as (D' & -> & SD2 & ED2). cbn [bind].
    destruct (tmask_3 mask _ _ _ _ Suu Hm) as (U' & -> & SU2 & EU2). cbn [bind].
    destruct (iop_same (fun x y => if Req_EM_T y 0 then 0 else x / y) D' U') as (Q & -> & SQ & EQ); [congruence|]. cbn [bind].
    pose proof (chosen_some _ Hms) as Hc.
    destruct (print_worst_ok (rd_tau rd) D' _ _ _ SD2 Hc Hn0 Hf0 Hn) as (wd & -> & Lwd). cbn [bind].
    destruct (print_worst_ok (rd_tau rd) Q (length (chosen mask)) n nf ltac:(congruence) Hc Hn0 Hf0 Hn) as (wq & -> & Lwq). cbn [bind].
    eexists. split; [reflexivity|]. split; [exact HF|]. exists (D', Q), (wd, wq). cbn [cm_u cm_print_u fst snd]. split; [reflexivity|]. split; [reflexivity|]. split; [|split; assumption].
    change (selected mask) with (chosen mask). unfold pointwise. cbn [fst snd]. split; [exact SD2|]. split; [rewrite SQ; exact SD2|]. intros idx Hi.
    rewrite (EQ idx ltac:(rewrite SD2; exact Hi)). apply inb_3 in Hi as (a & t & h & -> & Ha & Ht & Hh). cbn [nth].
    rewrite ED2, EU2. set (i := nth a (chosen mask) 0%nat). assert (Hi : (i < nq)%nat) by (rewrite <- Hm; apply chosen_lt, nth_In; exact Ha).
    cbn [tmap elt]. rewrite ED by (rewrite Suu; cbn; auto). rewrite EC by (cbn; auto). cbn [nth]. auto.
  Qed.
End Whole.

(** The assertions. *)
Lemma fold_max_lt l tol : fold_right Rmax 0 l < tol <-> 0 < tol /\ forall x, In x l -> x < tol.
Proof.
  induction l as [|y l IH]; cbn [fold_right In].
  - split; [intros H; split; [exact H|tauto]|tauto].
  - split.
    + intros H. pose proof (Rmax_l y (fold_right Rmax 0 l)). pose proof (Rmax_r y (fold_right Rmax 0 l)). destruct (proj1 IH ltac:(lra)) as [A B]. split; [auto|]. intros x [<-|Hx]; [lra|auto].
    + intros [A B]. apply Rmax_lub_lt; [auto|]. apply IH. auto.
Qed.
Lemma combine_entries d q x y : shp d = shp q -> In (x, y) (combine (entries d) (entries q)) <-> exists idx, inb (shp d) idx /\ elt d idx = x /\ elt q idx = y.
Proof.
  intros HS. unfold entries. rewrite <- HS.
  assert (X : forall l, In (x, y) (combine (map (elt d) l) (map (elt q) l)) <-> exists idx, In idx l /\ elt d idx = x /\ elt q idx = y).
  { induction l as [|i l IH]; cbn [map combine In]; [split; [tauto|intros (i & [] & _)]|]. rewrite IH. split.
    - intros [E|(j & A & B)]; [inversion E; subst; eauto|eauto].
    - intros (j & [<-|A] & B & C); [left; congruence|right; eauto]. }
  rewrite X. split; intros (idx & H & E); exists idx; (split; [|exact E]).
  - apply all_idx_inb; auto.
  - apply all_idx_inb; auto.
Qed.
Lemma assertion_iff a tol dq : shp (fst dq) = shp (snd dq) -> assertion a tol dq = true <-> 0 < tol /\ forall idx, inb (shp (fst dq)) idx -> a < elt (fst dq) idx -> elt (snd dq) idx < tol.
Proof.
  intros HS. unfold assertion. rewrite Rltb_iff, fold_max_lt. apply and_iff_compat_l. split.
  - intros H idx Hi Ha. apply H. apply in_map_iff. exists (elt (fst dq) idx, elt (snd dq) idx). split; [reflexivity|]. apply filter_In. split; [|apply Rltb_iff; exact Ha].
    apply combine_entries; eauto.
  - intros H x Hx. apply in_map_iff in Hx as ((x' & y) & <- & Hf). apply filter_In in Hf as [Hf Ha]. apply Rltb_iff in Ha. cbn [fst snd] in *.
    apply combine_entries in Hf as (idx & Hi & <- & <-); auto.
Qed.
Lemma passed_agrees a tol dq s ref val : pointwise dq s ref val -> assertion a tol dq = true ->
  forall idx, inb s idx -> 0 < ref idx -> agrees a tol (ref idx) (val idx).
Proof.
  intros (S1 & S2 & E) H idx Hi Hp. apply assertion_iff in H as [H0 H]; [|congruence]. destruct (E idx Hi) as [E1 E2].
  destruct (Rle_lt_dec (Rabs (ref idx - val idx)) a) as [L|L]; [left; exact L|right].
  specialize (H idx ltac:(rewrite S1; exact Hi) ltac:(rewrite E1; exact L)). rewrite E2 in H. unfold ratio in H. destruct (Req_EM_T (ref idx) 0); [lra|].
  rewrite (Rabs_pos_eq (ref idx)) by lra. apply (Rmult_lt_reg_r (/ ref idx)); [apply Rinv_0_lt_compat; lra|]. replace (tol * ref idx * / ref idx) with tol by (field; lra). exact H.
Qed.
Lemma blind a tol dq s ref val : 0 < tol -> pointwise dq s ref val -> (forall idx, inb s idx -> ref idx <= 0) -> assertion a tol dq = true.
Proof.
  intros Ht (S1 & S2 & E) H. apply assertion_iff; [congruence|]. split; [auto|]. rewrite S1. intros idx Hi _. rewrite (proj2 (E idx Hi)). unfold ratio. specialize (H idx Hi).
  destruct (Req_EM_T (ref idx) 0); [auto|]. assert (/ ref idx < 0) by (apply Rinv_lt_0_compat; lra). pose proof (Rabs_pos (ref idx - val idx)).
  apply Rle_lt_trans with 0; [|auto]. unfold Rdiv. nra.
Qed.

Lemma compare_pass p rd mask reorder gu gd u Fu Fd Fb G r a tol tolu : 0 <= p_I0 p -> (2 <= streams p)%nat -> reports p gu Fu -> reports_down p gd Fd Fb -> reports_u p u G -> comparable p rd mask reorder ->
  compare rd mask reorder gu gd (Some u) = Ok r -> fluxes_pass a tol r -> (forall dq, cm_u r = Some dq -> assertion a tolu dq = true) ->
  (forall k, (k < length (rd_tau rd))%nat -> let t := nth k (rd_tau rd) 0 in
    (0 < elt (rd_flup rd) [k] -> agrees a tol (elt (rd_flup rd) [k]) (Fu t)) /\
    (0 < elt (rd_rfldn rd) [k] -> agrees a tol (elt (rd_rfldn rd) [k]) (Fd t)) /\
    (0 < p_I0 p -> 0 < elt (rd_rfldir rd) [k] -> agrees a tol (elt (rd_rfldir rd) [k]) (Fb t))) /\
  (forall i k h, (i < streams p)%nat -> (k < length (rd_tau rd))%nat -> (h < length (rd_phi rd))%nat -> nth i mask false = true ->
    0 < elt (rd_uu rd) [i; k; h] -> agrees a tolu (elt (rd_uu rd) [i; k; h]) (G (nth i reorder 0%nat) (nth k (rd_tau rd) 0) (nth h (rd_phi rd) 0))).
Proof.
  intros HI Hq Hup Hdn Hu HC Hr (P1 & P2 & P3) P4.
  destruct (compare_all p rd mask reorder gu gd u Fu Fd Fb G HI Hup Hdn HC Hq Hu) as (r' & Hr' & (F1 & F2 & F3 & _) & (dq & w & Ed & _ & F4 & _)).
  rewrite Hr in Hr'. assert (r' = r) as -> by congruence. split.
  - intros k Hk t. assert (Hi : inb [length (rd_tau rd)] [k]) by (cbn; auto). split; [|split].
    + intros H. exact (passed_agrees _ _ _ _ _ _ F1 P1 [k] Hi H).
    + intros H. exact (passed_agrees _ _ _ _ _ _ F2 P2 [k] Hi H).
    + intros H0 H. pose proof (passed_agrees _ _ _ _ _ _ F3 P3 [k] Hi H) as X. cbv beta in X. destruct (Rlt_dec 0 (p_I0 p)); [exact X|tauto].
  - intros i k h Hi Hk Hh Hmi H.
    assert (X : In i (selected mask)). { unfold selected. rewrite filter_In, in_seq. rewrite (proj1 (cp_mask _ _ _ _ HC)). split; [lia|auto]. }
    apply (In_nth _ _ 0%nat) in X as (j & Hj & Ej).
    pose proof (passed_agrees _ _ _ _ _ _ F4 (P4 dq Ed) [j; k; h] ltac:(cbn; auto)) as Y. cbn [nth] in Y. rewrite Ej in Y. exact (Y H).
Qed.
Lemma compare_blind p rd mask reorder gu gd Fu Fd Fb : 0 <= p_I0 p -> reports p gu Fu -> reports_down p gd Fd Fb -> comparable p rd mask reorder ->
  (forall k, (k < length (rd_tau rd))%nat -> elt (rd_flup rd) [k] <= 0 /\ elt (rd_rfldn rd) [k] <= 0 /\ elt (rd_rfldir rd) [k] <= 0) ->
  exists r, compare rd mask reorder gu gd None = Ok r /\ forall a tol, 0 < tol -> fluxes_pass a tol r.
Proof.
  intros HI Hup Hdn HC H. destruct (compare_fluxes p rd mask reorder gu gd Fu Fd Fb (fun _ _ _ => 0) HI Hup Hdn HC) as (r & Hr & (F1 & F2 & F3 & _) & _). exists r. split; [exact Hr|].
  intros a tol Ht. repeat split; (eapply blind; [exact Ht|eassumption|]); intros idx Hi; apply inb_1 in Hi as (k & -> & Hk); specialize (H k Hk); tauto.
Qed.

(** Reference data of the example: every flux and intensity [x], no direct beam. *)
Definition rd0 (x : R) : refdata :=
  mkRef (mkT [2%nat] (fun _ => x)) (mkT [2%nat] (fun _ => x)) (mkT [2%nat] (fun _ => 0)) [0; 3] (mkT [2; 2; 1]%nat (fun _ => x)) [0].
