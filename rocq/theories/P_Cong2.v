(** The solver stages depend on no solver option, not on uninitialised memory and, mode by mode,
    not on the number of modes. *)
From Coq Require Import String Reals Lra Lia List Bool Arith ZArith.
From Verif Require Import Base Tensor Spec M_LinAlg Spec_RTE M_Subroutines M_GenPart M_MathscrV M_Coeffs M_Assemble
  P_GenPart P_GenPart2 P_GenPart3 P_GenPart4 P_Coeffs P_Coeffs2 P_Coeffs3 P_Solve P_Cong P_Teq P_Same.
Import ListNotations.
Local Open Scope R_scope.

(** Another number of Fourier modes. *)
Definition gp_nf (g : gp_in) (n : nat) : gp_in :=
  mkGP n (gp_omega g) (gp_mu g) (gp_M_inv g) (gp_W g) (gp_N g) (gp_NLeg g) (gp_NLayers g) (gp_wLeg g)
       (gp_mu0 g) (gp_I0_div_4pi g) (gp_beam g) (gp_iso g).

Section NF.
  Variable g : gp_in.
  Variable la : linalg.
  Let N := gp_N g.
  Let NQ := (2 * gp_N g)%nat.
  Let NL := gp_NLayers g.

  Lemma good_of_ok jG jK jA jX jGi o : gen_and_part_sols g la jG jK jA jX jGi = Ok o -> gp_good g la.
  Proof.
    intros Ho m l Hm Hl Hs. pose proof (out_char g la _ _ _ _ _ o Ho m l Hm Hl) as C. rewrite Hs in C.
    destruct C as (e & H1 & H2 & H3 & H4 & H5). exists e. split; [exact H1|]. split.
    - intros Hiso H0. destruct (H4 Hiso H0) as (L & HL & EL). split.
      + exists L. rewrite <- HL. f_equal. apply rows_ext. intros i j Hi Hj. rewrite H2 by auto. reflexivity.
      + intros Hb j Hj. destruct (H5 Hb) as [H5a _]. destruct (H5a Hiso H0) as (X & _ & HB). unfold B_from_inv in HB.
        destruct (forallb _ _) eqn:Ef in HB; [|discriminate]. rewrite forallb_forall in Ef.
        assert (Hk : forall k, (k < 2 * gp_N g)%nat -> 1 / gp_mu0 g + o_K o m l k <> 0).
        { intros k Hk. specialize (Ef k ltac:(apply in_seq; lia)). apply negb_true_iff in Ef. intros C. rewrite C in Ef. rewrite (proj2 (Reqb_iff 0 0) eq_refl) in Ef. discriminate. }
        split.
        * specialize (Hk j ltac:(lia)). rewrite H3 in Hk by lia. rewrite (proj2 (Nat.ltb_lt _ _)) in Hk by auto. lra.
        * specialize (Hk (gp_N g + j)%nat ltac:(lia)). rewrite H3 in Hk by lia. rewrite (proj2 (Nat.ltb_ge _ _)) in Hk by lia.
          replace (gp_N g + j - gp_N g)%nat with j in Hk by lia. exact Hk.
    - intros Hb Hn. destruct (H5 Hb) as [_ H5b]. specialize (H5b Hn). unfold B_from_solve in H5b.
      destruct (la_solve la _ _) as [x|]; [eauto|discriminate].
  Qed.
  Lemma good_nf n : (n <= gp_NFourier g)%nat -> gp_good g la -> gp_good (gp_nf g n) la.
  Proof. intros Hn H m l Hm Hl Hs. cbn in Hm. exact (H m l ltac:(lia) Hl Hs). Qed.

  Lemma nf_same n jG jK jA jX jGi jG' jK' jA' jX' jGi' o1 o2 :
    gen_and_part_sols g la jG jK jA jX jGi = Ok o1 -> gen_and_part_sols (gp_nf g n) la jG' jK' jA' jX' jGi' = Ok o2 ->
    forall m l, (m < gp_NFourier g)%nat -> (m < n)%nat -> (l < NL)%nat ->
    (forall i j, (i < NQ)%nat -> (j < NQ)%nat -> o_G o1 m l i j = o_G o2 m l i j) /\
    (forall i, (i < NQ)%nat -> o_K o1 m l i = o_K o2 m l i) /\
    (gp_beam g = true -> forall i, (i < NQ)%nat -> o_B o1 m l i = o_B o2 m l i) /\
    (gp_iso g = true -> forall i j, (i < NQ)%nat -> (j < NQ)%nat -> o_Ginv o1 l i j = o_Ginv o2 l i j).
  Proof.
    intros E1 E2 m l Hm Hm' Hl.
    assert (Char : forall m', (m' < n)%nat -> _) by (intros m' Hm2; exact (out_char (gp_nf g n) la _ _ _ _ _ o2 E2 m' l Hm2 Hl)).
    change (scatters (gp_nf g n)) with (scatters g) in Char. change (gp_eig (gp_nf g n)) with (gp_eig g) in Char.
    change (cA (gp_nf g n)) with (cA g) in Char. change (cX (gp_nf g n)) with (cX g) in Char.
    change (gp_P (gp_nf g n)) with (gp_P g) in Char. change (gp_Q (gp_nf g n)) with (gp_Q g) in Char. change (blockG (gp_nf g n)) with (blockG g) in Char.
    change (gp_N (gp_nf g n)) with (gp_N g) in Char. change (gp_iso (gp_nf g n)) with (gp_iso g) in Char. change (gp_beam (gp_nf g n)) with (gp_beam g) in Char.
    change (B_from_inv (gp_nf g n)) with (B_from_inv g) in Char. change (B_from_solve (gp_nf g n)) with (B_from_solve g) in Char.
    change (G_trivial (gp_nf g n)) with (G_trivial g) in Char. change (gp_M_inv (gp_nf g n)) with (gp_M_inv g) in Char.
    assert (Hgi : gp_iso g = true -> forall i j, (i < NQ)%nat -> (j < NQ)%nat -> o_Ginv o1 l i j = o_Ginv o2 l i j).
    { intros Hiso i j Hi Hj.
      pose proof (out_char g la _ _ _ _ _ o1 E1 0 l ltac:(lia) Hl) as C1.
      pose proof (Char 0%nat ltac:(lia)) as C2.
      destruct (scatters g 0 l).
      - destruct C1 as (e & X1 & X2 & _ & X3 & _). destruct C2 as (e' & Y1 & Y2 & _ & Y3 & _).
        assert (e' = e) by congruence. subst e'.
        destruct (X3 Hiso eq_refl) as (L & XL & ->). destruct (Y3 Hiso eq_refl) as (L' & YL & ->).
        rewrite (rows_ext _ _ (o_G o1 0 l) (o_G o2 0 l)) in XL; [congruence|].
        intros a b Ha Hb. rewrite X2, Y2 by auto. reflexivity.
      - destruct C1 as (_ & _ & _ & C1). destruct C2 as (_ & _ & _ & C2). rewrite C1, C2 by auto. reflexivity. }
    pose proof (out_char g la _ _ _ _ _ o1 E1 m l Hm Hl) as C1.
    pose proof (Char m Hm') as C2.
    destruct (scatters g m l).
    - destruct C1 as (e & X1 & X2 & X3 & X4 & X5). destruct C2 as (e' & Y1 & Y2 & Y3 & Y4 & Y5).
      assert (e' = e) by congruence. subst e'.
      assert (HG : forall i j, (i < NQ)%nat -> (j < NQ)%nat -> o_G o1 m l i j = o_G o2 m l i j)
        by (intros i j Hi Hj; rewrite X2, Y2; auto).
      assert (HK : forall i, (i < NQ)%nat -> o_K o1 m l i = o_K o2 m l i) by (intros i Hi; rewrite X3, Y3; auto).
      split; [exact HG|]. split; [exact HK|]. split; [|exact Hgi].
      intros Hb i Hi. destruct (X5 Hb) as [X5a X5b]. destruct (Y5 Hb) as [Y5a Y5b].
      destruct (Classical_Prop.classic (gp_iso g = true /\ m = 0%nat)) as [[Hiso H0]|Hn].
      + destruct (X5a Hiso H0) as (X & HX & HB1). destruct (Y5a Hiso H0) as (Y & HY & HB2).
        unfold B_from_inv in HB1, HB2. fold NQ in HB1, HB2.
        destruct (forallb _ _) in HB1; [|discriminate]. destruct (forallb _ _) in HB2; [|discriminate].
        injection HB1 as HB1. injection HB2 as HB2. rewrite <- HB1, <- HB2. rewrite !of_list_vlist by auto.
        apply rsum_ext. intros j Hj. apply rsum_ext. intros k Hk.
        rewrite HG, HK, Hgi, HX, HY by auto. reflexivity.
      + specialize (X5b Hn). specialize (Y5b Hn). congruence.
    - destruct C1 as (X1 & X2 & X3 & X4). destruct C2 as (Y1 & Y2 & Y3 & Y4).
      split; [intros; rewrite X1, Y1; auto|]. split; [|split; [intros; rewrite X3, Y3; auto|exact Hgi]].
      intros i Hi. destruct (lt_cases g i Hi) as [Hi'|(i' & Hi' & ->)].
      + destruct (X2 i Hi') as [-> _]. destruct (Y2 i Hi') as [-> _]. reflexivity.
      + destruct (X2 i' Hi') as [_ ->]. destruct (Y2 i' Hi') as [_ ->]. reflexivity.
  Qed.
End NF.

Section SolveCong.
  Variable a : as_in.
  Hypothesis Ha : as_good a.
  Variable la : linalg.
  Hypothesis Hla : linalg_ok la.
  Variables (nf' : nat) (fl : bool) (bn : nat) (ag : bool).
  Let a' := a_with a nf' fl bn ag.

  (** Eigen-solutions of the two calls agree on common modes. *)
  Lemma stage1_same jk jk' o o' :
    gen_and_part_sols (gp_of a) la (j_G jk) (j_K jk) (j_A jk) (j_X jk) (j_Gi jk) = Ok o ->
    gen_and_part_sols (gp_of a') la (j_G jk') (j_K jk') (j_A jk') (j_X jk') (j_Gi jk') = Ok o' ->
    forall m, (m < a_NFourier a)%nat -> (m < nf')%nat ->
    (forall l i j, (l < a_NLayers a)%nat -> (i < 2 * a_N a)%nat -> (j < 2 * a_N a)%nat -> o_G o m l i j = o_G o' m l i j) /\
    (forall l j, (l < a_NLayers a)%nat -> (j < 2 * a_N a)%nat -> o_K o m l j = o_K o' m l j) /\
    (a_beam a = true -> forall l j, (l < a_NLayers a)%nat -> (j < 2 * a_N a)%nat -> o_B o m l j = o_B o' m l j) /\
    (a_iso a = true -> forall l j, (l < a_NLayers a)%nat -> (j < 2 * a_N a)%nat -> inv_mu_inv a (o_Ginv o) l j = inv_mu_inv a (o_Ginv o') l j).
  Proof.
    intros E1 E2 m Hm Hm'. pose proof (nf_same (gp_of a) la nf' _ _ _ _ _ _ _ _ _ _ o o' E1 E2 m) as H.
    split; [|split; [|split]].
    - intros l i j Hl Hi Hj. apply (H l Hm Hm' Hl); auto.
    - intros l j Hl Hj. apply (H l Hm Hm' Hl); auto.
    - intros Hb l j Hl Hj. apply (H l Hm Hm' Hl); auto.
    - intros Hi l j Hl Hj. unfold inv_mu_inv. apply rsum_ext. intros k Hk. f_equal. apply (H l Hm Hm' Hl); auto.
  Qed.
  Lemma K_ne jk o : gen_and_part_sols (gp_of a) la (j_G jk) (j_K jk) (j_A jk) (j_X jk) (j_Gi jk) = Ok o ->
    forall l k, (l < a_NLayers a)%nat -> (k < 2 * a_N a)%nat -> o_K o 0%nat l k <> 0.
  Proof.
    intros Ho l k Hl Hk. destruct (cutoff_ex (a_omega a l) (a_wLeg a l) (a_NLeg a) 0) as (wg' & Hc).
    pose proof (eigen_pairs (gp_of a) (g_mu a Ha) la Hla _ _ _ _ _ o Ho 0 l wg' (g_NF a Ha) Hl Hc) as [_ H].
    destruct (Nat.lt_ge_cases k (a_N a)) as [H'|H'].
    - destruct (H k H'). cbn in *. lra.
    - destruct (H (k - a_N a)%nat ltac:(cbn; lia)) as [A _]. change (gp_N (gp_of a)) with (a_N a) in A. replace (a_N a + (k - a_N a))%nat with k in A by lia. lra.
  Qed.

  (** Solver options and uninitialised memory. *)
  Theorem solve_cong jk jk' sv : (1 <= nf' <= a_NFourier a)%nat -> Nat.leb (a_banded a) (a_NLayers a) = Nat.leb bn (a_NLayers a) ->
    solve_all a la jk = Ok sv -> exists sv', solve_all a' la jk' = Ok sv' /\ sv_same a nf' sv sv'.
  Proof.
    intros Hn Hb Hsv. unfold solve_all in Hsv. apply bind_Ok in Hsv as (o & Ho & H). apply bind_Ok in H as (GC & HGC & H). injection H as <-.
    destruct (gp_total (gp_of a') la (j_G jk') (j_K jk') (j_A jk') (j_X jk') (j_Gi jk')) as (o' & Ho').
    { exact (good_nf (gp_of a) la nf' (proj2 Hn) (good_of_ok (gp_of a) la _ _ _ _ _ o Ho)). }
    pose proof (coeffs_char (sc_of a o) (g_N a Ha) (g_NL a Ha) la (j_clob jk) (j_C jk) (j_R jk)) as HC. rewrite HGC in HC.
    pose proof (coeffs_char (sc_of a' o') (g_N a Ha) (g_NL a Ha) la (j_clob jk') (j_C jk') (j_R jk')) as HC'.
    assert (Hmc : forall m, (m < nf')%nat -> mode_coeffs (sc_of a o) la m = mode_coeffs (sc_of a' o') la m).
    { intros m Hm. destruct (stage1_same jk jk' o o' Ho Ho' m ltac:(lia) Hm) as (S1 & S2 & S3 & S4).
      apply (mode_coeffs_cong (sc_of a o) nf' (o_G o') (o_K o') (o_B o') (inv_mu_inv a (o_Ginv o')) bn (g_N a Ha) (g_NL a Ha) (g_multi a Ha) m S1 S2 S3 (fun h _ => S4 h)).
      - intros _ _ l k Hl Hk. exact (K_ne jk o Ho l k Hl Hk).
      - exact Hb. }
    unfold solve_all. rewrite Ho'. cbn [bind].
    destruct (solve_for_coeffs (sc_of a' o') la (j_clob jk') (j_C jk') (j_R jk')) as [GC'|e].
    2:{ exfalso. destruct HC' as (m & Hm & E & _). cbn in Hm. destruct (HC m ltac:(cbn; lia)) as (C & E' & _). rewrite Hmc in E' by auto. congruence. }
    cbn [bind]. eexists. split; [reflexivity|].
    assert (S : forall m, (m < nf')%nat -> _) by (intros m Hm; exact (stage1_same jk jk' o o' Ho Ho' m ltac:(lia) Hm)).
    constructor; cbn [sv_K sv_GC sv_B sv_G sv_gmi].
    - intros m l k Hm. apply (S m Hm).
    - intros m l q k Hm Hl Hq Hk. destruct (HC m ltac:(cbn; lia)) as (C & E & ->). destruct (HC' m ltac:(cbn; lia)) as (C' & E' & ->).
      assert (C = C') by (rewrite Hmc in E by auto; congruence). subst C'. cbn. f_equal. apply (S m Hm); auto.
    - intros Hbm m l q Hm. apply (S m Hm); auto.
    - intros Hi l q k Hl. apply (S 0%nat ltac:(lia)); auto.
    - intros Hi l k Hl. apply (S 0%nat ltac:(lia)); auto.
  Qed.

  (** Different solvers. *)
  Hypothesis Hlu : linalg_unique la.
  Theorem solve_agree jk jk' sv sv' : (1 <= nf' <= a_NFourier a)%nat ->
    solve_all a la jk = Ok sv -> solve_all a' la jk' = Ok sv' -> sv_same a nf' sv sv'.
  Proof.
    intros Hn Hsv Hsv'. unfold solve_all in Hsv, Hsv'. apply bind_Ok in Hsv as (o & Ho & H). apply bind_Ok in H as (GC & HGC & H). injection H as <-.
    apply bind_Ok in Hsv' as (o' & Ho' & H). apply bind_Ok in H as (GC' & HGC' & H). injection H as <-.
    pose proof (coeffs_char (sc_of a o) (g_N a Ha) (g_NL a Ha) la (j_clob jk) (j_C jk) (j_R jk)) as HC. rewrite HGC in HC.
    pose proof (coeffs_char (sc_of a' o') (g_N a Ha) (g_NL a Ha) la (j_clob jk') (j_C jk') (j_R jk')) as HC'. rewrite HGC' in HC'.
    assert (S : forall m, (m < nf')%nat -> _) by (intros m Hm; exact (stage1_same jk jk' o o' Ho Ho' m ltac:(lia) Hm)).
    constructor; cbn [sv_K sv_GC sv_B sv_G sv_gmi].
    - intros m l k Hm. apply (S m Hm).
    - intros m l q k Hm Hl Hq Hk. destruct (HC m ltac:(cbn; lia)) as (C & E & ->). destruct (HC' m ltac:(cbn; lia)) as (C' & E' & ->).
      destruct (S m Hm) as (S1 & S2 & S3 & S4).
      pose proof (mode_coeffs_agree (sc_of a o) nf' (o_G o') (o_K o') (o_B o') (inv_mu_inv a (o_Ginv o')) bn (g_N a Ha) (g_NL a Ha) (g_multi a Ha) m S1 S2 S3 (fun h _ => S4 h)
        (fun _ _ => K_ne jk o Ho) la Hla Hlu C C' E E') as Hag.
      change (sc_G (sc_of a o)) with (o_G o). change (sc_G (sc_of a' o')) with (o_G o'). change (sc_N (sc_of a o)) with (a_N a) in *. change (sc_N (sc_of a' o')) with (a_N a).
      change (sc_NLayers (sc_of a o)) with (a_NLayers a) in Hag.
      rewrite S1 by auto. f_equal. apply Hag.
      assert (((l + 1) * (2 * a_N a) <= a_NLayers a * (2 * a_N a))%nat) by (apply Nat.mul_le_mono_r; lia). lia.
    - intros Hbm m l q Hm. apply (S m Hm); auto.
    - intros Hi l q k Hl. apply (S 0%nat ltac:(lia)); auto.
    - intros Hi l k Hl. apply (S 0%nat ltac:(lia)); auto.
  Qed.

  Hypothesis Hlc : linalg_complete la.
  Theorem solve_found jk jk' sv : (1 <= nf' <= a_NFourier a)%nat ->
    solve_all a la jk = Ok sv -> exists sv', solve_all a' la jk' = Ok sv'.
  Proof.
    intros Hn Hsv. unfold solve_all in Hsv. apply bind_Ok in Hsv as (o & Ho & H). apply bind_Ok in H as (GC & HGC & H). injection H as <-.
    destruct (gp_total (gp_of a') la (j_G jk') (j_K jk') (j_A jk') (j_X jk') (j_Gi jk')) as (o' & Ho').
    { exact (good_nf (gp_of a) la nf' (proj2 Hn) (good_of_ok (gp_of a) la _ _ _ _ _ o Ho)). }
    pose proof (coeffs_char (sc_of a o) (g_N a Ha) (g_NL a Ha) la (j_clob jk) (j_C jk) (j_R jk)) as HC. rewrite HGC in HC.
    pose proof (coeffs_char (sc_of a' o') (g_N a Ha) (g_NL a Ha) la (j_clob jk') (j_C jk') (j_R jk')) as HC'.
    unfold solve_all. rewrite Ho'. cbn [bind].
    destruct (solve_for_coeffs (sc_of a' o') la (j_clob jk') (j_C jk') (j_R jk')) as [GC'|e].
    2:{ exfalso. destruct HC' as (m & Hm & E & _). cbn in Hm. destruct (HC m ltac:(cbn; lia)) as (C & E' & _).
        destruct (stage1_same jk jk' o o' Ho Ho' m ltac:(lia) Hm) as (S1 & S2 & S3 & S4).
        destruct (mode_coeffs_found (sc_of a o) nf' (o_G o') (o_K o') (o_B o') (inv_mu_inv a (o_Ginv o')) bn (g_N a Ha) (g_NL a Ha) (g_multi a Ha) m S1 S2 S3 (fun h _ => S4 h)
          (fun _ _ => K_ne jk o Ho) la Hla Hlu Hlc C E') as (C' & EC').
        change (mode_coeffs (sc_of a' o') la m = Ok C') in EC'. congruence. }
    cbn [bind]. eauto.
  Qed.
End SolveCong.
