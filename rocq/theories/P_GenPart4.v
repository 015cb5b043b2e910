(** Independence of uninitialised memory, and when the eigen-solver stage succeeds. *)
From Coq Require Import String Reals Lra Lia List Bool Arith ZArith.
From Verif Require Import Base Tensor Spec M_LinAlg Spec_RTE P_Special M_GenPart P_GenPart P_GenPart2 P_GenPart3.
Import ListNotations.
Local Open Scope R_scope.

Lemma rmap_total {A B} (f : A -> res B) l : (forall x, In x l -> exists y, f x = Ok y) -> exists r, rmap f l = Ok r.
Proof.
  induction l as [|x l IH]; intros H; [exists []; reflexivity|].
  destruct (H x (or_introl eq_refl)) as [y Hy]. destruct IH as [r Hr]; [intros; apply H; right; auto|].
  exists (y :: r). simpl. rewrite Hy, Hr. reflexivity.
Qed.

Section GP4.
  Variable g : gp_in.
  Variable la : linalg.
  Let N := gp_N g.
  Let NQ := (2 * gp_N g)%nat.
  Let NL := gp_NLayers g.
  Let NF := gp_NFourier g.

  (** Conditions under which no external routine fails and nothing divides by zero. *)
  Definition gp_good : Prop := forall m l, (m < NF)%nat -> (l < NL)%nat -> scatters g m l = true ->
    exists e, gp_eig g la (cA g m l) = Ok e /\
      (gp_iso g = true -> m = 0%nat ->
         (exists L, la_inv la (rows NQ NQ (blockG g (gp_P g (cA g m l) e) (gp_Q g (cA g m l) e))) = Some L) /\
         (gp_beam g = true -> forall j, (j < N)%nat -> 1 / gp_mu0 g - fst e j <> 0 /\ 1 / gp_mu0 g + fst e j <> 0)) /\
      (gp_beam g = true -> ~ (gp_iso g = true /\ m = 0%nat) ->
         exists x, la_solve la (rows NQ NQ (A_full g (cA g m l))) (vlist NQ (cX g m l)) = Some x).

  Lemma post_total s : Inv g (NF * NL) s -> gp_good -> exists s', gp_post g la s = Ok s'.
  Proof.
    intros H1 Hg. pose proof H1 as (_ & A2 & A3 & _ & _ & A6).
    unfold gp_post. destruct (s_nsi s) as [|n0 ns] eqn:En; [eauto|]. rewrite <- En in *. clear En n0 ns.
    destruct (rmap_total (gp_eig g la) (map (sA s) (s_nsi s))) as [kE EkE].
    { intros A HA. apply in_map_iff in HA as (k & <- & Hk). apply (nsi_in g s k H1) in Hk as [Hk Hs]. fold NF NL in Hk.
      destruct (k_decomp g k Hk) as (m & l & Hm & Hl & ->). rewrite sc_k in Hs by auto.
      destruct (Hg m l Hm Hl Hs) as (e & He & _). exists e.
      rewrite (gp_eig_ext g la _ (cA g m l)) by (apply inv_A; auto). auto. }
    rewrite EkE. cbn [bind].
    match goal with |- context [scatter (put_G g) (s_nsi s) ?pq (sG s)] => set (G1 := scatter (put_G g) (s_nsi s) pq (sG s)) end.
    match goal with |- context [scatter (put_K g) (s_nsi s) ?pq (sK s)] => set (K1 := scatter (put_K g) (s_nsi s) pq (sK s)) end.
    pose proof (nsi_split g s H1) as (Hsp & Hin' & Hin0).
    assert (GK : forall l, In l (s_nsi0 s) -> (0 < NF)%nat /\ (l < NL)%nat /\ scatters g 0 l = true /\ gp_iso g = true /\
       exists e, gp_eig g la (cA g 0 l) = Ok e /\ forall i j, (i < NQ)%nat -> (j < NQ)%nat ->
         G1 l i j = blockG g (gp_P g (cA g 0 l) e) (gp_Q g (cA g 0 l) e) i j /\
         K1 l i = if Nat.ltb i N then - fst e i else fst e (i - N)%nat).
    { intros l Hl. apply Hin0 in Hl as (Hiso & Hk & Hl & Hs). fold NF NL in Hk, Hl.
      assert (Hnf : (0 < NF)%nat) by (destruct (Nat.eq_dec NF 0) as [E0|]; [rewrite E0 in Hk; lia|lia]).
      rewrite <- (Nat.add_0_l l) in Hs. change (0 + l)%nat with (0 * NL + l)%nat in Hs. rewrite sc_k in Hs by auto.
      do 4 (split; [assumption|]). destruct (Hg 0%nat l Hnf Hl Hs) as (e & He & _). exists e. split; auto.
      intros i j Hi Hj. destruct (G1_in g la s kE 0 l i j H1 EkE Hnf Hl Hs Hi Hj) as (e' & E1 & E2 & E3).
      assert (e' = e) by congruence. subst e'. split; assumption. }
    destruct (rmap_total (fun l => ofopt (la_inv la (rows (2 * gp_N g) (2 * gp_N g) (G1 l)))) (s_nsi0 s)) as [Gs EGs].
    { intros l Hl. destruct (GK l Hl) as (Hnf & Hl' & Hs & Hiso & e & He & HG).
      destruct (Hg 0%nat l Hnf Hl' Hs) as (e' & He' & Hi' & _). assert (e' = e) by congruence. subst e'.
      destruct (Hi' Hiso eq_refl) as ((L & HL) & _). exists L. unfold ofopt. fold NQ.
      rewrite (rows_ext NQ NQ (G1 l) (blockG g (gp_P g (cA g 0 l) e) (gp_Q g (cA g 0 l) e))), HL; auto.
      intros i j Hi Hj. apply HG; auto. }
    rewrite EGs. cbn [bind]. destruct (gp_beam g) eqn:Hb; [|eauto].
    set (Gi1 := scatter (fun _ L => of_rows L) (s_nsi0 s) Gs (sGi s)).
    destruct (rmap_total (fun l => B_from_inv g (G1 l) (K1 l) (Gi1 l) (sX s l)) (s_nsi0 s)) as [B0 EB].
    { intros l Hl. destruct (GK l Hl) as (Hnf & Hl' & Hs & Hiso & e & He & HG).
      destruct (Hg 0%nat l Hnf Hl' Hs) as (e' & He' & Hi' & _). assert (e' = e) by congruence. subst e'.
      destruct (Hi' Hiso eq_refl) as (_ & Hres). unfold B_from_inv. fold NQ.
      replace (forallb (fun k => negb (Reqb (1 / gp_mu0 g + K1 l k) 0)) (seq 0 NQ)) with true; [eauto|].
      symmetry. apply forallb_forall. intros k Hk. apply in_seq in Hk. apply negb_true_iff, Reqb_f.
      destruct (HG k k) as [_ ->]; try lia. unfold NQ in Hk. fold N in Hk. destruct (Nat.ltb_spec k N).
      - intros C. apply (proj1 (Hres Hb k ltac:(auto))). lra.
      - apply (proj2 (Hres Hb (k - N)%nat ltac:(lia))). }
    rewrite EB. cbn [bind].
    match goal with |- context [rmap ?f ?L] => destruct (rmap_total f L) as [B2 EB2]; [|rewrite EB2; cbn [bind]; eauto] end.
    intros [A k] Hk. assert (Hk2 : In k (skipn (length (s_nsi0 s)) (s_nsi s)) /\ A = sA s k).
    { rewrite skipn_map in Hk. clear -Hk. revert Hk. generalize (skipn (length (s_nsi0 s)) (s_nsi s)).
      induction l as [|a l IH]; simpl; [tauto|]. intros [E|H]; [inversion E; subst; auto|]. apply IH in H. tauto. }
    destruct Hk2 as [Hk2 ->]. cbn [fst snd]. apply Hin' in Hk2 as (Hk2 & Hs & Hn). fold NF NL in Hk2, Hn.
    destruct (k_decomp g k Hk2) as (m & l & Hm & Hl & ->). rewrite sc_k in Hs by auto.
    destruct (Hg m l Hm Hl Hs) as (e & He & _ & Hsol). destruct (Hsol Hb) as [x Hx].
    { intros [Hiso H0]. specialize (Hn Hiso). fold NL in Hn. subst m. simpl in Hn. fold NL in Hl. lia. }
    unfold B_from_solve. fold NQ.
    rewrite (rows_ext NQ NQ (A_full g (sA s (m * gp_NLayers g + l)%nat)) (A_full g (cA g m l))).
    2:{ intros i j Hi Hj. apply A_full_ext; auto. apply inv_A; auto. }
    rewrite (vlist_ext NQ (sX s (m * gp_NLayers g + l)%nat) (cX g m l)).
    2:{ intros i Hi. apply inv_X; auto. }
    rewrite Hx. cbn. eauto.
  Qed.

  Theorem gp_total jG jK jA jX jGi : gp_good -> exists o, gen_and_part_sols g la jG jK jA jX jGi = Ok o.
  Proof.
    intros Hg. destruct (post_total _ (loop_inv g jG jK jA jX jGi) Hg) as [s' Hs].
    unfold gen_and_part_sols. rewrite Hs. cbn [bind]. eauto.
  Qed.

  Definition same_out (o1 o2 : gp_out) : Prop := forall m l, (m < NF)%nat -> (l < NL)%nat ->
    (forall i j, (i < NQ)%nat -> (j < NQ)%nat -> o_G o1 m l i j = o_G o2 m l i j) /\
    (forall i, (i < NQ)%nat -> o_K o1 m l i = o_K o2 m l i) /\
    (gp_beam g = true -> forall i, (i < NQ)%nat -> o_B o1 m l i = o_B o2 m l i) /\
    (gp_iso g = true -> forall i j, (i < NQ)%nat -> (j < NQ)%nat -> o_Ginv o1 l i j = o_Ginv o2 l i j).

  Theorem junk_indep jG jK jA jX jGi jG' jK' jA' jX' jGi' :
    match gen_and_part_sols g la jG jK jA jX jGi, gen_and_part_sols g la jG' jK' jA' jX' jGi' with
    | Ok o1, Ok o2 => same_out o1 o2
    | Err e1, Err e2 => e1 = e2
    | _, _ => False
    end.
  Proof.
    pose proof (post_err g la _ _ (loop_inv g jG jK jA jX jGi) (loop_inv g jG' jK' jA' jX' jGi')) as HE.
    destruct (gen_and_part_sols g la jG jK jA jX jGi) as [o1|e1] eqn:E1;
      destruct (gen_and_part_sols g la jG' jK' jA' jX' jGi') as [o2|e2] eqn:E2.
    2,3,4: unfold gen_and_part_sols in E1, E2;
      destruct (gp_post g la (gp_loop g (gp_init jG jK jA jX jGi)));
      destruct (gp_post g la (gp_loop g (gp_init jG' jK' jA' jX' jGi'))); cbn [bind] in *; try discriminate; try contradiction; congruence.
    clear HE. intros m l Hm Hl.
    assert (Hgi : gp_iso g = true -> forall i j, (i < NQ)%nat -> (j < NQ)%nat -> o_Ginv o1 l i j = o_Ginv o2 l i j).
    { intros Hiso i j Hi Hj. assert (Hnf : (0 < gp_NFourier g)%nat) by (fold NF; lia).
      pose proof (out_char g la _ _ _ _ _ o1 E1 0 l Hnf Hl) as C1.
      pose proof (out_char g la _ _ _ _ _ o2 E2 0 l Hnf Hl) as C2.
      destruct (scatters g 0 l).
      - destruct C1 as (e & X1 & X2 & _ & X3 & _). destruct C2 as (e' & Y1 & Y2 & _ & Y3 & _).
        assert (e' = e) by congruence. subst e'.
        destruct (X3 Hiso eq_refl) as (L & XL & ->). destruct (Y3 Hiso eq_refl) as (L' & YL & ->).
        rewrite (rows_ext _ _ (o_G o1 0 l) (o_G o2 0 l)) in XL; [congruence|].
        intros a b Ha Hb. rewrite X2, Y2 by auto. reflexivity.
      - destruct C1 as (_ & _ & _ & C1). destruct C2 as (_ & _ & _ & C2). rewrite C1, C2 by auto. reflexivity. }
    pose proof (out_char g la _ _ _ _ _ o1 E1 m l Hm Hl) as C1.
    pose proof (out_char g la _ _ _ _ _ o2 E2 m l Hm Hl) as C2.
    destruct (scatters g m l).
    - destruct C1 as (e & X1 & X2 & X3 & X4 & X5). destruct C2 as (e' & Y1 & Y2 & Y3 & Y4 & Y5).
      assert (e' = e) by congruence. subst e'.
      assert (HG : forall i j, (i < NQ)%nat -> (j < NQ)%nat -> o_G o1 m l i j = o_G o2 m l i j)
        by (intros i j Hi Hj; rewrite X2, Y2; auto).
      assert (HK : forall i, (i < NQ)%nat -> o_K o1 m l i = o_K o2 m l i) by (intros i Hi; rewrite X3, Y3; auto).
      split; [exact HG|]. split; [exact HK|]. split; [|exact Hgi].
      intros Hb i Hi. destruct (X5 Hb) as [X5a X5b]. destruct (Y5 Hb) as [Y5a Y5b].
      destruct (Classical_Prop.classic (gp_iso g = true /\ m = 0%nat)) as [[Hiso H0]|Hn].
      + destruct (X5a Hiso H0) as (X & HX & HB1). destruct (Y5a Hiso H0) as (Y & HY & HB2).
        unfold B_from_inv in HB1, HB2. fold NQ in HB1, HB2.
        destruct (forallb _ _) in HB1; [|discriminate]. destruct (forallb _ _) in HB2; [|discriminate].
        injection HB1 as HB1. injection HB2 as HB2. rewrite <- HB1, <- HB2. rewrite !of_list_vlist by auto.
        apply rsum_ext. intros j Hj. apply rsum_ext. intros k Hk.
        rewrite HG, HK, Hgi, HX, HY by auto. reflexivity.
      + specialize (X5b Hn). specialize (Y5b Hn). congruence.
    - destruct C1 as (X1 & X2 & X3 & X4). destruct C2 as (Y1 & Y2 & Y3 & Y4).
      split; [intros; rewrite X1, Y1; auto|]. split; [|split; [intros; rewrite X3, Y3; auto|exact Hgi]].
      intros i Hi. destruct (lt_cases g i Hi) as [Hi'|(i' & Hi' & ->)].
      + destruct (X2 i Hi') as [-> _]. destruct (Y2 i Hi') as [-> _]. reflexivity.
      + destruct (X2 i' Hi') as [_ ->]. destruct (Y2 i' Hi') as [_ ->]. reflexivity.
  Qed.
End GP4.
