(** Proofs about interpolate: one call, sequences of calls, interleaved calls. *)
From Coq Require Import String Reals Lra Lia List Bool Arith.
From Verif Require Import Base Tensor M_Subroutines M_Assemble M_Pydisort M_Interp Spec Spec_Interp P_Quad P_Sub P_Sub2 P_Sub3 Spec_Calls P_Teq P_Same.
Import ListNotations.
Local Open Scope R_scope.

(** ** Rows of a filtered list *)
Lemma count_firstn_S m : forall k, nth k m false = true -> (count_true (firstn k m) < count_true m)%nat.
Proof.
  induction m as [|b m IH]; intros [|k] H; cbn in *; try discriminate.
  - subst b. unfold count_true. cbn. lia.
  - specialize (IH k H). unfold count_true in *. cbn. destruct b; cbn; lia.
Qed.
Lemma filter_nth (f : R -> bool) l : forall k, (k < length l)%nat -> f (nth k l 0) = true ->
  nth (count_true (firstn k (map f l))) (filter f l) 0 = nth k l 0.
Proof.
  induction l as [|x l IH]; intros k Hk H; cbn in Hk; [lia|]. destruct k as [|k]; cbn in H |- *.
  - rewrite H. reflexivity.
  - unfold count_true in *. cbn. destruct (f x); cbn; apply IH; auto; lia.
Qed.
Lemma count_map (f : R -> bool) l : count_true (map f l) = length (filter f l).
Proof. unfold count_true. induction l; cbn; auto. destruct (f a); cbn; auto. Qed.

(** ** Broadcasting to an array of the same shape *)
Lemma bshape_same s : bshape s s = Some s.
Proof. induction s; cbn; auto. rewrite bdim_refl, IHs. reflexivity. Qed.
Lemma bidx_same s : forall idx, inb s idx -> bidx s idx = idx.
Proof. induction s; intros [|i idx] H; cbn in *; auto; try tauto. destruct H. rewrite bi_lt, IHs; auto. Qed.
Lemma iop_snd A E : shp A = shp E -> exists B, iop (fun _ y => y) A E = Ok B /\ shp B = shp E /\ forall idx, inb (shp E) idx -> elt B idx = elt E idx.
Proof.
  intros H. unfold iop, bcast2, bind. rewrite H, Nat.max_id. unfold padl. rewrite Nat.sub_diag. cbn [repeat app]. rewrite bshape_same. cbn [shp].
  rewrite list_eqb_refl. eexists. split; [reflexivity|]. split; [reflexivity|]. intros idx Hi. cbn [elt skipn]. rewrite bidx_same; auto.
Qed.
Lemma assign_ok mask A E : shp E = count_true mask :: tl (shp A) -> exists C, assign_rows mask A E = Ok C /\ shp C = shp A /\
  forall k idx, inb (tl (shp A)) idx -> elt C (k :: idx) = if nth k mask false then elt E (count_true (firstn k mask) :: idx) else elt A (k :: idx).
Proof.
  intros H. unfold assign_rows. destruct (iop_snd (mkT (count_true mask :: tl (shp A)) (elt A)) E) as (B & -> & SB & EB); [cbn; auto|].
  cbn [bind]. eexists. split; [reflexivity|]. split; [reflexivity|]. intros k idx Hi. cbn [elt hd tl].
  destruct (nth k mask false) eqn:Ek; auto. rewrite EB; auto. rewrite H. cbn. split; auto. apply count_firstn_S; auto.
Qed.

Section Call.
  Variable it : interp.
  Let N := in_N it.
  Let pos := in_nodes it.
  Let neg := map Ropp (in_nodes it).
  Hypothesis HL : length pos = N.

  Definition value_pos (A : tensor) (x : R) (idx : list nat) : R := barycentric pos (fun i => elt A (i :: idx)) x.
  Definition value_neg (A : tensor) (x : R) (idx : list nat) : R := barycentric neg (fun i => elt A ((N + i)%nat :: idx)) x.

  Lemma bary_ext nodes f g x : (forall i, (i < length nodes)%nat -> f i = g i) -> barycentric nodes f x = barycentric nodes g x.
  Proof. intros H. unfold barycentric. apply rsum_ext. intros. rewrite H; auto. Qed.

  Lemma set_pos A s : shp A = (2 * N)%nat :: s -> set_yi pos (rows_to N A) = Ok (Some (tslice 0 0 N A)).
  Proof. intros H. unfold rows_to. rewrite H. rewrite Nat.min_l by lia. unfold set_yi, tslice. cbn [shp firstn app]. destruct (Nat.eqb_spec N (length pos)); [reflexivity|congruence]. Qed.
  Lemma set_neg A s : shp A = (2 * N)%nat :: s -> set_yi neg (rows_from N A) = Ok (Some (tslice 0 N N A)).
  Proof. intros H. unfold rows_from. rewrite H. replace (2 * N - N)%nat with N by lia. unfold set_yi, tslice. cbn [shp firstn app]. destruct (Nat.eqb_spec N (length neg)) as [|H0]; [reflexivity|]. exfalso. apply H0. unfold neg. rewrite map_length. symmetry. exact HL. Qed.

  (** What the two masked assignments do when the objects hold the rows of [A]. *)
  Lemma eval_pos A s l : shp A = (2 * N)%nat :: s -> tl (shp (lo_res l)) = s -> hd 0%nat (shp (lo_res l)) = length (lo_mu l) ->
    exists C, (let! E := eval_yi pos (Some (tslice 0 0 N A)) (filter is_pos (lo_mu l)) in assign_rows (map is_pos (lo_mu l)) (lo_res l) E) = Ok C /\
      shp C = shp (lo_res l) /\
      forall k idx, inb s idx -> (k < length (lo_mu l))%nat ->
        elt C (k :: idx) = if Rlt_dec 0 (nth k (lo_mu l) 0) then value_pos A (nth k (lo_mu l) 0) idx else elt (lo_res l) (k :: idx).
  Proof.
    intros HA Hs Hn. cbn [eval_yi bind].
    destruct (assign_ok (map is_pos (lo_mu l)) (lo_res l) (mkT (length (filter is_pos (lo_mu l)) :: tl (shp (tslice 0 0 N A)))
       (fun idx => barycentric pos (fun i => elt (tslice 0 0 N A) (i :: tl idx)) (nth (hd 0%nat idx) (filter is_pos (lo_mu l)) 0)))) as (C & EC & SC & VC).
    { cbn [shp]. rewrite count_map. unfold tslice. cbn [shp firstn app tl]. rewrite HA, Hs. reflexivity. }
    exists C. split; [exact EC|]. split; [exact SC|]. intros k idx Hi Hk. rewrite VC by (rewrite Hs; auto).
    rewrite (nth_indep _ false (is_pos 0)) by (rewrite map_length; auto). rewrite map_nth. cbn [elt hd tl].
    destruct (Rlt_dec 0 (nth k (lo_mu l) 0)) as [Hp|Hp].
    - assert (E : is_pos (nth k (lo_mu l) 0) = true) by (unfold is_pos; first [apply Rltb_t; lra|apply Rltb_f; lra]).
      rewrite E, filter_nth; auto.
    - assert (E : is_pos (nth k (lo_mu l) 0) = false) by (unfold is_pos; first [apply Rltb_t; lra|apply Rltb_f; lra]).
      rewrite E. reflexivity.
  Qed.
  Lemma eval_neg A s l : shp A = (2 * N)%nat :: s -> tl (shp (lo_res l)) = s -> hd 0%nat (shp (lo_res l)) = length (lo_mu l) ->
    exists C, (let! E := eval_yi neg (Some (tslice 0 N N A)) (filter not_pos (lo_mu l)) in assign_rows (map not_pos (lo_mu l)) (lo_res l) E) = Ok C /\
      shp C = shp (lo_res l) /\
      forall k idx, inb s idx -> (k < length (lo_mu l))%nat ->
        elt C (k :: idx) = if Rlt_dec 0 (nth k (lo_mu l) 0) then elt (lo_res l) (k :: idx) else value_neg A (nth k (lo_mu l) 0) idx.
  Proof.
    intros HA Hs Hn. cbn [eval_yi bind].
    destruct (assign_ok (map not_pos (lo_mu l)) (lo_res l) (mkT (length (filter not_pos (lo_mu l)) :: tl (shp (tslice 0 N N A)))
       (fun idx => barycentric neg (fun i => elt (tslice 0 N N A) (i :: tl idx)) (nth (hd 0%nat idx) (filter not_pos (lo_mu l)) 0)))) as (C & EC & SC & VC).
    { cbn [shp]. rewrite count_map. unfold tslice. cbn [shp firstn app tl]. rewrite HA, Hs. reflexivity. }
    exists C. split; [exact EC|]. split; [exact SC|]. intros k idx Hi Hk. rewrite VC by (rewrite Hs; auto).
    rewrite (nth_indep _ false (not_pos 0)) by (rewrite map_length; auto). rewrite map_nth. cbn [elt hd tl].
    destruct (Rlt_dec 0 (nth k (lo_mu l) 0)) as [Hp|Hp].
    - assert (E : not_pos (nth k (lo_mu l) 0) = false) by (unfold not_pos, is_pos; first [rewrite Rltb_t by lra; reflexivity|rewrite Rltb_f by lra; reflexivity]).
      rewrite E. reflexivity.
    - assert (E : not_pos (nth k (lo_mu l) 0) = true) by (unfold not_pos, is_pos; first [rewrite Rltb_t by lra; reflexivity|rewrite Rltb_f by lra; reflexivity]).
      rewrite E, filter_nth; auto.
  Qed.

  (** ** One step at a time *)
  Section Args.
  Variable c : iargs.
  Variable A : tensor.
  Variable rest : list pv.
  Variable s : list nat.
  Hypothesis Hmu : cosines_ok (ia_mu c).
  Hypothesis HF : fetch (in_fun it) c = Ok (A, rest).
  Hypothesis HA : shp A = (2 * N)%nat :: s.
  Let mu := ia_mu c.

  Definition base (l : locals) : Prop :=
    lo_mu l = mu /\ lo_cache l = A /\ lo_rest l = rest /\ lo_flag l = flagged c /\ shp (lo_res l) = length mu :: s.
  Definition posdone (Sp : tensor) (l : locals) : Prop :=
    forall k idx, inb s idx -> (k < length mu)%nat -> 0 < nth k mu 0 -> elt (lo_res l) (k :: idx) = value_pos Sp (nth k mu 0) idx.
  Definition filled (Sp Sn : tensor) (C : tensor) : Prop :=
    shp C = length mu :: s /\
    forall k idx, inb s idx -> (k < length mu)%nat ->
      elt C (k :: idx) = if Rlt_dec 0 (nth k mu 0) then value_pos Sp (nth k mu 0) idx else value_neg Sn (nth k mu 0) idx.
  Definition final (Sp Sn : tensor) (r : res pret) : Prop :=
    exists C, r = Ok (ret (flagged c) (PT (tsqueeze C) :: rest)) /\ filled Sp Sn C.

  Lemma start_ok jk : exists l, i_start it c jk = TSetPos l /\ base l.
  Proof.
    unfold i_start. replace (forallb _ (ia_mu c)) with true.
    2:{ symmetry. apply forallb_forall. intros x Hx. apply Rleb_t. apply Hmu; auto. }
    cbn [negb]. rewrite HF. eexists. split; [reflexivity|]. repeat split. cbn [shp lo_res]. rewrite HA. reflexivity.
  Qed.
  Lemma no_pos k : existsb is_pos mu = false -> (k < length mu)%nat -> nth k mu 0 <= 0.
  Proof.
    intros H Hk. destruct (Rle_dec (nth k mu 0) 0); auto. exfalso. assert (T : existsb is_pos mu = true); [|congruence].
    apply existsb_exists. exists (nth k mu 0). split; [apply nth_In; auto|]. apply Rltb_t. lra.
  Qed.
  Lemma no_neg k : existsb not_pos mu = false -> (k < length mu)%nat -> 0 < nth k mu 0.
  Proof.
    intros H Hk. destruct (Rlt_dec 0 (nth k mu 0)); auto. exfalso. assert (T : existsb not_pos mu = true); [|congruence].
    apply existsb_exists. exists (nth k mu 0). split; [apply nth_In; auto|]. unfold not_pos, is_pos. rewrite Rltb_f by lra. reflexivity.
  Qed.
  Lemma setpos_ok o l : base l ->
    (step it o (TSetPos l) = (mkOB (Some (tslice 0 0 N A)) (ob_neg o), TEvalPos l) /\ existsb is_pos mu = true) \/
    (step it o (TSetPos l) = (o, TSetNeg l) /\ existsb is_pos mu = false /\ forall Sp, posdone Sp l).
  Proof.
    intros (E1 & E2 & E3 & E4 & E5). cbn [step]. rewrite E1, E2. destruct (existsb is_pos mu) eqn:EP.
    - left. split; auto. change (in_nodes it) with pos. change (in_N it) with N. rewrite (set_pos A s HA). reflexivity.
    - right. repeat split; auto. intros Sp k idx Hi Hk H. pose proof (no_pos k EP Hk). lra.
  Qed.
  Lemma evalpos_ok o l Sp : base l -> shp Sp = (2 * N)%nat :: s -> ob_pos o = Some (tslice 0 0 N Sp) ->
    exists l', step it o (TEvalPos l) = (o, TSetNeg l') /\ base l' /\ posdone Sp l'.
  Proof.
    intros (E1 & E2 & E3 & E4 & E5) HS Ho. cbn [step]. rewrite Ho.
    destruct (eval_pos Sp s l HS ltac:(rewrite E5; reflexivity) ltac:(rewrite E5, E1; reflexivity)) as (C & EC & SC & VC).
    change (in_nodes it) with pos. rewrite EC. eexists. split; [reflexivity|]. unfold with_res. split.
    - repeat split; auto. cbn [lo_res]. rewrite SC. exact E5.
    - intros k idx Hi Hk Hp. cbn [lo_res]. rewrite VC by (rewrite ?E1; auto). rewrite E1. destruct (Rlt_dec 0 (nth k mu 0)); [reflexivity|lra].
  Qed.
  Lemma setneg_ok o l Sp : base l -> posdone Sp l ->
    (step it o (TSetNeg l) = (mkOB (ob_pos o) (Some (tslice 0 N N A)), TEvalNeg l) /\ existsb not_pos mu = true) \/
    (existsb not_pos mu = false /\ exists r, step it o (TSetNeg l) = (o, TDone r) /\ forall Sn, final Sp Sn r).
  Proof.
    intros (E1 & E2 & E3 & E4 & E5) HP. cbn [step]. rewrite E1, E2. destruct (existsb not_pos mu) eqn:EP.
    - left. split; auto. change (map Ropp (in_nodes it)) with neg. change (in_N it) with N. rewrite (set_neg A s HA). reflexivity.
    - right. split; auto. eexists. split; [reflexivity|]. intros Sn. exists (lo_res l). unfold i_ret. rewrite E3, E4. split; auto. split; auto.
      intros k idx Hi Hk. pose proof (no_neg k EP Hk). destruct (Rlt_dec 0 (nth k mu 0)); [|lra]. apply HP; auto.
  Qed.
  Lemma evalneg_ok o l Sp Sn : base l -> posdone Sp l -> shp Sn = (2 * N)%nat :: s -> ob_neg o = Some (tslice 0 N N Sn) ->
    exists r, step it o (TEvalNeg l) = (o, TDone r) /\ final Sp Sn r.
  Proof.
    intros (E1 & E2 & E3 & E4 & E5) HP HS Ho. cbn [step]. rewrite Ho.
    destruct (eval_neg Sn s l HS ltac:(rewrite E5; reflexivity) ltac:(rewrite E5, E1; reflexivity)) as (C & EC & SC & VC).
    change (map Ropp (in_nodes it)) with neg. rewrite EC. eexists. split; [reflexivity|]. exists C. unfold i_ret, with_res. cbn [lo_flag lo_res lo_rest].
    rewrite E3, E4. split; auto. split; [rewrite SC; exact E5|].
    intros k idx Hi Hk. rewrite VC by (rewrite ?E1; auto). rewrite E1. destruct (Rlt_dec 0 (nth k mu 0)); auto.
  Qed.

  (** A call on its own. *)
  Lemma call_final o jk : final A A (snd (i_call it o c jk)).
  Proof.
    unfold i_call, run1. cbv zeta. cbn [fst snd step].
    destruct (start_ok jk) as (l & El & Bl). rewrite El.
    destruct (setpos_ok o l Bl) as [[E1 EP]|[E1 [EP HP]]].
    - rewrite E1. cbn [fst snd].
      destruct (evalpos_ok (mkOB (Some (tslice 0 0 N A)) (ob_neg o)) l A Bl HA eq_refl) as (l' & E2 & B2 & P2). rewrite E2. cbn [fst snd].
      set (o1 := mkOB (Some (tslice 0 0 N A)) (ob_neg o)).
      destruct (setneg_ok o1 l' A B2 P2) as [[E3 EN]|[EN (r & E3 & F3)]]; rewrite E3; cbn [fst snd].
      + destruct (evalneg_ok (mkOB (ob_pos o1) (Some (tslice 0 N N A))) l' A A B2 P2 HA eq_refl) as (r & E4 & F4). rewrite E4. cbn [fst snd]. exact F4.
      + cbn [step snd]. apply F3.
    - rewrite E1. cbn [fst snd].
      destruct (setneg_ok o l A Bl (HP A)) as [[E3 EN]|[EN (r & E3 & F3)]]; rewrite E3; cbn [fst snd].
      + destruct (evalneg_ok (mkOB (ob_pos o) (Some (tslice 0 N N A))) l A A Bl (HP A) HA eq_refl) as (r & E4 & F4). rewrite E4. cbn [fst snd step]. exact F4.
      + cbn [step snd]. apply F3.
  Qed.
  Lemma filled_eq Sp Sn C C' : filled Sp Sn C -> filled Sp Sn C' -> teq C C'.
  Proof.
    intros [S1 V1] [S2 V2]. split; [congruence|]. rewrite S1. intros [|k idx]; cbn; [tauto|]. intros [Hk Hi]. rewrite V1, V2; auto.
  Qed.
  Lemma final_same Sp Sn r r' : final Sp Sn r -> final Sp Sn r' -> same_ret r r'.
  Proof.
    intros (C & -> & FC) (C' & -> & FC'). cbn [same_ret]. pose proof (tsqueeze_cong _ _ (filled_eq _ _ _ _ FC FC')) as HT.
    unfold ret. destruct (flagged c); cbn; auto. constructor; auto. apply pvs_refl.
  Qed.
  End Args.
End Call.
