(** Result of the eigen-solver stage, mode by mode and layer by layer. *)
From Coq Require Import String Reals Lra Lia List Bool Arith ZArith.
From Verif Require Import Base Tensor Spec M_LinAlg Spec_RTE P_Special M_GenPart P_GenPart.
Import ListNotations.
Local Open Scope R_scope.

Section GP2.
  Variable g : gp_in.
  Variable la : linalg.
  Let N := gp_N g.
  Let NQ := (2 * gp_N g)%nat.
  Let NL := gp_NLayers g.
  Let NF := gp_NFourier g.

  Definition blockG (P Q : mat) : mat := fun i j =>
    if Nat.ltb i N then if Nat.ltb j N then P i j else Q i (j - N)%nat
    else if Nat.ltb j N then Q (i - N)%nat j else P (i - N)%nat (j - N)%nat.

  (** Intermediate values of [gp_post]. *)
  Lemma G1_in s kE m l i j :
    Inv g (NF * NL) s -> rmap (gp_eig g la) (map (sA s) (s_nsi s)) = Ok kE ->
    (m < NF)%nat -> (l < NL)%nat -> scatters g m l = true -> (i < NQ)%nat -> (j < NQ)%nat ->
    exists e, gp_eig g la (cA g m l) = Ok e /\
    scatter (put_G g) (s_nsi s)
      (map (fun p => (gp_P g (fst p) (snd p), gp_Q g (fst p) (snd p))) (combine (map (sA s) (s_nsi s)) kE)) (sG s)
      (m * NL + l)%nat i j = blockG (gp_P g (cA g m l) e) (gp_Q g (cA g m l) e) i j /\
    scatter (put_K g) (s_nsi s) (map fst kE) (sK s) (m * NL + l)%nat i
      = if Nat.ltb i N then - fst e i else fst e (i - N)%nat.
  Proof.
    intros HI HE Hm Hl Hs Hi Hj.
    set (k := (m * NL + l)%nat).
    assert (Hin : In k (s_nsi s)).
    { apply (nsi_in g s k HI). split; [unfold k; fold NF NL; nia|]. unfold k. rewrite sc_k by auto. auto. }
    destruct (in_nth_ex (s_nsi s) k 0%nat Hin) as (q & Hq & Ek).
    apply rmap_spec in HE as [HL HE]. rewrite map_length in HL, HE.
    assert (E : gp_eig g la (sA s k) = Ok (nth q kE ((fun _ => 0), fun _ _ => 0))).
    { rewrite <- (HE q (sA s 0%nat)) by auto. rewrite map_nth, Ek. reflexivity. }
    assert (Hlow : low_eq g (sA s k) (cA g m l)) by (apply inv_A; auto).
    rewrite (gp_eig_ext g la _ _ Hlow) in E.
    set (e := nth q kE ((fun _ => 0), fun _ _ => 0)) in *.
    exists e. split; [exact E|]. split.
    - rewrite <- Ek at 1.
      rewrite (scatter_in _ _ _ _ q 0%nat (((fun _ _ => 0), (fun _ _ => 0)) : mat * mat)).
      + rewrite put_G_spec by auto. rewrite (nth_map_d _ _ _ (sA s 0%nat, e)).
        2:{ rewrite combine_length, map_length, HL. rewrite Nat.min_l by auto. lia. }
        rewrite combine_nth by (rewrite map_length; auto). rewrite map_nth, Ek.
        rewrite (nth_indep kE e ((fun _ => 0), fun _ _ => 0)) by lia. fold e. cbn [fst snd].
        unfold blockG. unfold NQ in Hi, Hj. fold N in Hi, Hj |- *.
        destruct (Nat.ltb_spec i N); destruct (Nat.ltb_spec j N); apply (gp_PQ_ext g); auto; fold N; lia.
      + apply (nsi_nodup g); auto.
      + rewrite map_length, combine_length, map_length, HL. lia.
      + auto.
    - rewrite <- Ek at 1. rewrite (scatter_in _ _ _ _ q 0%nat (fst e)).
      + rewrite put_K_spec by auto. rewrite map_nth. rewrite (nth_indep kE e ((fun _ => 0), fun _ _ => 0)) by lia. reflexivity.
      + apply (nsi_nodup g); auto.
      + rewrite map_length, HL. auto.
      + auto.
  Qed.

  Lemma post_ok s s' : Inv g (NF * NL) s -> gp_post g la s = Ok s' ->
    forall m l, (m < NF)%nat -> (l < NL)%nat ->
    let k := (m * NL + l)%nat in
    if scatters g m l then
      exists e, gp_eig g la (cA g m l) = Ok e /\
      (forall i j, (i < NQ)%nat -> (j < NQ)%nat -> sG s' k i j = blockG (gp_P g (cA g m l) e) (gp_Q g (cA g m l) e) i j) /\
      (forall i, (i < NQ)%nat -> sK s' k i = if Nat.ltb i N then - fst e i else fst e (i - N)%nat) /\
      (gp_iso g = true -> m = 0%nat -> exists L, la_inv la (rows NQ NQ (sG s' k)) = Some L /\ sGi s' l = of_rows L) /\
      (gp_beam g = true ->
         (gp_iso g = true -> m = 0%nat -> B_from_inv g (sG s' k) (sK s' k) (sGi s' l) (sX s k) = Ok (sB s' k)) /\
         (~ (gp_iso g = true /\ m = 0%nat) -> B_from_solve g la (cA g m l) (cX g m l) = Ok (sB s' k)))
    else
      sG s' k = G_trivial g /\
      (forall i, (i < N)%nat -> sK s' k i = - gp_M_inv g i /\ sK s' k (N + i)%nat = gp_M_inv g i) /\
      (forall i, sB s' k i = 0) /\
      (gp_iso g = true -> m = 0%nat -> sGi s' l = G_trivial g).
  Proof.
    intros HI HP m l Hm Hl k.
    pose proof HI as (I1 & I2 & I3 & I4 & I5 & I6).
    assert (Hkin : In k (s_nsi s) <-> scatters g m l = true).
    { rewrite (nsi_in g s k HI). unfold k. rewrite sc_k by auto. fold NF NL. split; [tauto|]. intros; split; auto. nia. }
    assert (HGi0 : gp_iso g = true -> m = 0%nat -> scatters g m l = false -> sGi s l = G_trivial g).
    { intros A -> C. apply I6; auto. fold NF NL. nia. }
    unfold gp_post in HP.
    destruct (s_nsi s) as [|n0 ns] eqn:En.
    { (* nothing scatters *)
      inversion HP; subst s'; clear HP.
      destruct (scatters g m l) eqn:Es; [exfalso; destruct Hkin as [_ H]; specialize (H eq_refl); destruct H|].
      specialize (I5 m l Hl ltac:(fold NF NL; nia)). cbv zeta in I5. rewrite Es in I5. fold NL k N in I5.
      destruct I5 as [A B]. repeat split; auto; try (apply B; auto). intros i. rewrite I4. reflexivity. }
    rewrite <- En in *. clear En n0 ns.
    apply bind_Ok in HP as (kE & HE & HP).
    set (PQ := map (fun p => (gp_P g (fst p) (snd p), gp_Q g (fst p) (snd p))) (combine (map (sA s) (s_nsi s)) kE)) in *.
    set (G1 := scatter (put_G g) (s_nsi s) PQ (sG s)) in *.
    set (K1 := scatter (put_K g) (s_nsi s) (map fst kE) (sK s)) in *.
    apply bind_Ok in HP as (Ginvs & HG & HP).
    set (Gi1 := scatter (fun _ L => of_rows L) (s_nsi0 s) Ginvs (sGi s)) in *.
    pose proof (nsi_split g s HI) as (Hsp & Hin' & Hin0).
    pose proof (nsi_nodup g s HI) as Hnd.
    assert (Hnd0 : NoDup (s_nsi0 s)).
    { rewrite I3. destruct (gp_iso g); [apply NoDup_filter, seq_NoDup|constructor]. }
    assert (Hnd' : NoDup (skipn (length (s_nsi0 s)) (s_nsi s))).
    { rewrite Hsp in Hnd. revert Hnd. generalize (s_nsi0 s) at 1. induction l0 as [|a l0 IH]; intros Hx; auto. simpl in Hx. inversion Hx; auto. }
    apply rmap_spec in HG as [HGl HG].
    (* the components of s' *)
    assert (HS : sG s' = G1 /\ sK s' = K1 /\ sGi s' = Gi1).
    { destruct (gp_beam g).
      - apply bind_Ok in HP as (B0 & _ & HP). apply bind_Ok in HP as (B2 & _ & HP). inversion HP; subst; auto.
      - inversion HP; subst; auto. }
    destruct HS as (HSG & HSK & HSGi). rewrite HSG, HSK, HSGi.
    assert (Hk0 : gp_iso g = true -> m = 0%nat -> scatters g m l = true -> In l (s_nsi0 s)).
    { intros A B C. apply Hin0. fold NF NL. subst m. split; auto. split; [nia|]. split; auto.
      replace l with (0 * NL + l)%nat by lia. rewrite sc_k by auto. auto. }
    destruct (scatters g m l) eqn:Es.
    - destruct (gp_eig g la (cA g m l)) as [e|er] eqn:Ee.
      2:{ exfalso. assert (Hin : In k (s_nsi s)) by (apply Hkin; auto).
          destruct (in_nth_ex _ k 0%nat Hin) as (q & Hq & Ek).
          apply rmap_spec in HE as [_ HE]. rewrite map_length in HE.
          specialize (HE q (sA s 0%nat) (((fun _ => 0), fun _ _ => 0) : vec * mat) Hq). rewrite map_nth, Ek in HE.
          rewrite (gp_eig_ext g la _ (cA g m l)) in HE by (apply inv_A; auto). congruence. }
      exists e. split; [reflexivity|].
      split. { intros i j Hi Hj. destruct (G1_in s kE m l i j HI HE Hm Hl Es Hi Hj) as (e' & E1 & E2 & _).
               assert (e' = e) by congruence. subst e'. exact E2. }
      split. { intros i Hi. destruct (G1_in s kE m l i i HI HE Hm Hl Es Hi Hi) as (e' & E1 & _ & E2).
               assert (e' = e) by congruence. subst e'. exact E2. }
      split.
      { intros Hiso H0. destruct (in_nth_ex _ l 0%nat (Hk0 Hiso H0 eq_refl)) as (q & Hq & El).
        specialize (HG q 0%nat (nil : list (list R)) Hq). rewrite El in HG.
        unfold ofopt in HG. assert (Ekl : k = l) by (unfold k; subst m; lia). rewrite Ekl. fold NQ in HG.
        destruct (la_inv la (rows NQ NQ (G1 l))) as [L|] eqn:EL; [|discriminate].
        exists L. split; auto. unfold Gi1. rewrite <- El.
        rewrite (scatter_in _ _ _ _ q 0%nat (nil : list (list R))) by auto. congruence. }
      intros Hb. rewrite Hb in HP.
      apply bind_Ok in HP as (B0 & HB0 & HP). apply bind_Ok in HP as (B2 & HB2 & HP).
      apply rmap_spec in HB0 as [L0 HB0]. 
      assert (Hl2 : length (combine (skipn (length (s_nsi0 s)) (map (sA s) (s_nsi s))) (skipn (length (s_nsi0 s)) (s_nsi s)))
         = length (skipn (length (s_nsi0 s)) (s_nsi s))).
      { rewrite combine_length, !skipn_length, map_length. lia. }
      apply rmap_spec in HB2 as [L2 HB2]. rewrite Hl2 in L2, HB2.
      inversion HP; subst s'; clear HP. cbn [sB sG sK sGi] in *. fold G1 K1 Gi1. split.
      + intros Hiso H0. destruct (in_nth_ex _ l 0%nat (Hk0 Hiso H0 eq_refl)) as (q & Hq & El).
        assert (Ekl : k = l) by (unfold k; subst m; lia). rewrite Ekl.
        rewrite scatter_out.
        * specialize (HB0 q 0%nat (fun _ => 0) Hq). rewrite El in HB0.
          replace (scatter (fun _ b => b) (s_nsi0 s) B0 (sB s) l) with (nth q B0 (fun _ => 0)); [exact HB0|].
          symmetry. rewrite <- El at 1. rewrite (scatter_in _ _ _ _ q 0%nat ((fun _ => 0) : vec)) by auto. reflexivity.
        * intros C. apply Hin' in C as (_ & _ & C). specialize (C Hiso). fold NL in C. lia.
      + intros Hn.
        assert (Hk' : In k (skipn (length (s_nsi0 s)) (s_nsi s))).
        { apply Hin'. fold NF NL. split; [unfold k; nia|]. split; [unfold k; rewrite sc_k by auto; auto|].
          intros Hiso. destruct m; [exfalso; tauto|]. unfold k. nia. }
        destruct (in_nth_ex _ k 0%nat Hk') as (q & Hq & Ek).
        rewrite <- Ek at 1. rewrite (scatter_in _ _ _ _ q 0%nat ((fun _ => 0) : vec)) by auto.
        specialize (HB2 q (sA s 0%nat, 0%nat) (fun _ => 0) Hq). rewrite <- HB2.
        rewrite combine_nth by (rewrite !skipn_length, map_length; lia). cbn [fst snd]. rewrite Ek.
        assert (EA : nth q (skipn (length (s_nsi0 s)) (map (sA s) (s_nsi s))) (sA s 0%nat) = sA s k).
        { rewrite skipn_map, map_nth, Ek. reflexivity. }
        rewrite EA. unfold B_from_solve. fold NQ.
        rewrite (rows_ext NQ NQ (A_full g (sA s k)) (A_full g (cA g m l))).
        2:{ intros i j Hi Hj. apply A_full_ext; auto. apply inv_A; auto. }
        rewrite (vlist_ext NQ (sX s k) (cX g m l)); [reflexivity|].
        intros i Hi. apply inv_X; auto.
    - assert (Hnk : ~ In k (s_nsi s)) by (rewrite Hkin; discriminate).
      specialize (I5 m l Hl ltac:(fold NF NL; nia)). cbv zeta in I5. rewrite Es in I5. fold NL k N in I5.
      destruct I5 as [A B]. unfold G1, K1. rewrite !scatter_out by auto.
      split; [exact A|]. split; [exact B|]. split.
      + intros i. assert (Hn0 : ~ In k (s_nsi0 s)) by (intros C; apply Hnk; rewrite Hsp; apply in_or_app; auto).
        assert (Hn' : ~ In k (skipn (length (s_nsi0 s)) (s_nsi s))) by (intros C; apply Hnk; rewrite Hsp; apply in_or_app; auto).
        destruct (gp_beam g).
        * apply bind_Ok in HP as (B0 & _ & HP). apply bind_Ok in HP as (B2 & _ & HP). inversion HP; subst; cbn [sB].
          rewrite !scatter_out by auto. rewrite I4. reflexivity.
        * inversion HP; subst; cbn [sB]. rewrite I4. reflexivity.
      + intros Hiso H0. unfold Gi1. rewrite scatter_out; [auto|].
        intros C. apply Hnk. replace k with l by (unfold k; subst m; lia). rewrite Hsp. apply in_or_app; auto.
  Qed.

  (** Two runs that differ in the contents of uninitialised memory fail alike. *)
  Lemma post_err s1 s2 : Inv g (NF * NL) s1 -> Inv g (NF * NL) s2 ->
    match gp_post g la s1, gp_post g la s2 with
    | Ok _, Ok _ => True | Err e, Err e' => e = e' | _, _ => False end.
  Proof.
    intros H1 H2.
    pose proof H1 as (_ & A2 & A3 & _ & _ & A6). pose proof H2 as (_ & B2 & B3 & _ & _ & B6).
    unfold gp_post. rewrite B2, <- A2. rewrite B3, <- A3.
    destruct (s_nsi s1) as [|n0 ns] eqn:En; [exact I|]. rewrite <- En in *. clear En n0 ns.
    assert (En2 : s_nsi s2 = s_nsi s1) by congruence.
    assert (En20 : s_nsi0 s2 = s_nsi0 s1) by congruence.
    assert (EE : rmap (gp_eig g la) (map (sA s2) (s_nsi s1)) = rmap (gp_eig g la) (map (sA s1) (s_nsi s1))).
    { rewrite !rmap_map. apply rmap_ext. intros k Hk. apply (nsi_in g s1 k H1) in Hk as [Hk Hs]. fold NF NL in Hk.
      destruct (k_decomp g k Hk) as (m & l & Hm & Hl & ->). rewrite sc_k in Hs by auto.
      rewrite (gp_eig_ext g la _ (cA g m l)) by (apply inv_A; auto).
      symmetry. apply gp_eig_ext, inv_A; auto. }
    rewrite EE. destruct (rmap (gp_eig g la) (map (sA s1) (s_nsi s1))) as [kE|er] eqn:EkE; [|reflexivity].
    cbn [bind].
    match goal with |- context [scatter (put_G g) (s_nsi s1) ?pq (sG s1)] => set (G1 := scatter (put_G g) (s_nsi s1) pq (sG s1)) end.
    match goal with |- context [scatter (put_G g) (s_nsi s1) ?pq (sG s2)] => set (G2 := scatter (put_G g) (s_nsi s1) pq (sG s2)) end.
    match goal with |- context [scatter (put_K g) (s_nsi s1) ?pq (sK s1)] => set (K1 := scatter (put_K g) (s_nsi s1) pq (sK s1)) end.
    match goal with |- context [scatter (put_K g) (s_nsi s1) ?pq (sK s2)] => set (K2 := scatter (put_K g) (s_nsi s1) pq (sK s2)) end.
    pose proof (nsi_split g s1 H1) as (Hsp & Hin' & Hin0).
    assert (GK : forall l, In l (s_nsi0 s1) -> forall i j, (i < NQ)%nat -> (j < NQ)%nat -> G2 l i j = G1 l i j /\ K2 l i = K1 l i).
    { intros l Hl i j Hi Hj. apply Hin0 in Hl as (_ & Hk & Hl & Hs). fold NF NL in Hk, Hl.
      assert (Hnf : (0 < NF)%nat) by (destruct (Nat.eq_dec NF 0) as [E0|]; [rewrite E0 in Hk; lia|lia]).
      rewrite <- (Nat.add_0_l l) in Hs. change (0 + l)%nat with (0 * NL + l)%nat in Hs. rewrite sc_k in Hs by auto.
      destruct (G1_in s1 kE 0 l i j H1 EkE Hnf Hl Hs Hi Hj) as (e & E1 & E2 & E3).
      assert (EkE2 : rmap (gp_eig g la) (map (sA s2) (s_nsi s2)) = Ok kE) by (rewrite En2, EE; auto).
      destruct (G1_in s2 kE 0 l i j H2 EkE2 Hnf Hl Hs Hi Hj) as (e' & E1' & E2' & E3').
      assert (e' = e) by congruence. subst e'. rewrite En2 in E2', E3'. cbn [Nat.mul Nat.add] in E2, E3, E2', E3'.
      unfold G1, G2, K1, K2. rewrite E2, E2', E3, E3'. auto. }
    assert (EI : rmap (fun l => ofopt (la_inv la (rows (2 * gp_N g) (2 * gp_N g) (G2 l)))) (s_nsi0 s1)
               = rmap (fun l => ofopt (la_inv la (rows (2 * gp_N g) (2 * gp_N g) (G1 l)))) (s_nsi0 s1)).
    { apply rmap_ext. intros l Hl. do 2 f_equal. apply rows_ext. intros i j Hi Hj. apply GK; auto. }
    rewrite EI. destruct (rmap (fun l => ofopt (la_inv la (rows (2 * gp_N g) (2 * gp_N g) (G1 l)))) (s_nsi0 s1)) as [Gs|] eqn:EGs; [|reflexivity].
    cbn [bind]. destruct (gp_beam g) eqn:Hb; [|exact I].
    set (Gi1 := scatter (fun _ L => of_rows L) (s_nsi0 s1) Gs (sGi s1)).
    set (Gi2 := scatter (fun _ L => of_rows L) (s_nsi0 s1) Gs (sGi s2)).
    apply rmap_spec in EGs as [LGs _].
    assert (Hnd0 : NoDup (s_nsi0 s1)).
    { rewrite A3. destruct (gp_iso g); [apply NoDup_filter, seq_NoDup|constructor]. }
    assert (EB : rmap (fun l => B_from_inv g (G2 l) (K2 l) (Gi2 l) (sX s2 l)) (s_nsi0 s1)
               = rmap (fun l => B_from_inv g (G1 l) (K1 l) (Gi1 l) (sX s1 l)) (s_nsi0 s1)).
    { apply rmap_ext. intros l Hl. pose proof (GK l Hl) as Gl.
      assert (EGi : Gi2 l = Gi1 l).
      { destruct (in_nth_ex _ l 0%nat Hl) as (q & Hq & Eq). unfold Gi1, Gi2. rewrite <- Eq.
        rewrite !(scatter_in _ _ _ _ q 0%nat (nil : list (list R))) by auto. reflexivity. }
      assert (EX : forall i, (i < NQ)%nat -> sX s2 l i = sX s1 l i).
      { intros i Hi. apply Hin0 in Hl as (_ & Hk & Hl & Hs). fold NF NL in Hk, Hl.
        assert (Hnf : (0 < NF)%nat) by (destruct (Nat.eq_dec NF 0) as [E0|]; [rewrite E0 in Hk; lia|lia]).
        rewrite <- (Nat.add_0_l l) in Hs. change (0 + l)%nat with (0 * NL + l)%nat in Hs. rewrite sc_k in Hs by auto.
        pose proof (inv_X g s1 0 l i H1 Hnf Hl Hs Hb Hi) as X1. pose proof (inv_X g s2 0 l i H2 Hnf Hl Hs Hb Hi) as X2.
        cbn [Nat.mul Nat.add] in X1, X2. congruence. }
      unfold B_from_inv. fold NQ. rewrite EGi.
      replace (forallb (fun k => negb (Reqb (1 / gp_mu0 g + K2 l k) 0)) (seq 0 NQ))
        with (forallb (fun k => negb (Reqb (1 / gp_mu0 g + K1 l k) 0)) (seq 0 NQ)).
      2:{ assert (Hx : forall L, (forall x, In x L -> (x < NQ)%nat) ->
            forallb (fun k => negb (Reqb (1 / gp_mu0 g + K1 l k) 0)) L = forallb (fun k => negb (Reqb (1 / gp_mu0 g + K2 l k) 0)) L).
          { induction L; intros HL; auto. simpl. rewrite IHL by (intros; apply HL; right; auto).
            destruct (Gl a a) as [_ ->]; auto; apply HL; left; auto. }
          apply Hx. intros x Hx'. apply in_seq in Hx'. lia. }
      destruct (forallb _ _); [|reflexivity]. do 2 f_equal. apply vlist_ext. intros i Hi.
      apply rsum_ext. intros j Hj. apply rsum_ext. intros p Hp.
      destruct (Gl i j Hi Hj) as [-> _]. destruct (Gl j j Hj Hj) as [_ ->]. rewrite (EX p Hp). reflexivity. }
    rewrite EB. destruct (rmap (fun l => B_from_inv g (G1 l) (K1 l) (Gi1 l) (sX s1 l)) (s_nsi0 s1)) as [B0|]; [|reflexivity].
    cbn [bind].
    assert (ES : forall s, map (fun p => (sA s p, p)) (skipn (length (s_nsi0 s1)) (s_nsi s1))
       = combine (skipn (length (s_nsi0 s1)) (map (sA s) (s_nsi s1))) (skipn (length (s_nsi0 s1)) (s_nsi s1))).
    { intros s. rewrite skipn_map. generalize (skipn (length (s_nsi0 s1)) (s_nsi s1)).
      induction l; simpl; auto. f_equal; auto. }
    rewrite <- !ES, !rmap_map. cbn [fst snd].
    rewrite (rmap_ext (fun x => B_from_solve g la (sA s2 x) (sX s2 x)) (fun x => B_from_solve g la (sA s1 x) (sX s1 x))).
    { destruct (rmap (fun x => B_from_solve g la (sA s1 x) (sX s1 x)) (skipn (length (s_nsi0 s1)) (s_nsi s1))); [exact I|reflexivity]. }
    intros k Hk. apply Hin' in Hk as (Hk & Hs & _). fold NF NL in Hk.
    destruct (k_decomp g k Hk) as (m & l & Hm & Hl & ->). rewrite sc_k in Hs by auto.
    unfold B_from_solve. fold NQ.
    rewrite (rows_ext NQ NQ (A_full g (sA s2 (m * gp_NLayers g + l)%nat)) (A_full g (sA s1 (m * gp_NLayers g + l)%nat))).
    2:{ intros i j Hi Hj. rewrite (A_full_ext g _ (cA g m l) i j) by (auto; apply inv_A; auto).
        symmetry. apply A_full_ext; auto. apply inv_A; auto. }
    rewrite (vlist_ext NQ (sX s2 (m * gp_NLayers g + l)%nat) (sX s1 (m * gp_NLayers g + l)%nat)); [reflexivity|].
    intros i Hi. rewrite (inv_X g s2 m l i), (inv_X g s1 m l i); auto.
  Qed.
End GP2.
