(** The boundary system depends only on the listed entries of the solver's arrays, not on the
    number of Fourier modes, and both solvers answer the same question. *)
From Coq Require Import String Reals Lra Lia List Bool Arith ZArith.
From Verif Require Import Base Tensor Spec M_LinAlg Spec_RTE M_Subroutines M_GenPart M_MathscrV M_Coeffs P_GenPart P_Tensor P_MathscrV P_Coeffs P_Coeffs2 P_Coeffs3.
Import ListNotations.
Local Open Scope R_scope.

Lemma vsol_ext nq Ns s G G' K K' gm gm' q t :
  (forall k, (k < nq)%nat -> G q k = G' q k /\ K k = K' k /\ gm k = gm' k) ->
  vsol nq Ns s G K gm q t = vsol nq Ns s G' K' gm' q t.
Proof. intros H. apply rsum_ext. intros k Hk. destruct (H k Hk) as (-> & -> & ->). reflexivity. Qed.

(** [g] with other arrays, other number of modes and other threshold for the banded solver. *)
Definition sc_with (g : sc_in) NF G K B gmi bn : sc_in :=
  mkSC NF G K B gmi (sc_tau0 g) (sc_mu g) (sc_muW g) (sc_N g) (sc_NLayers g) (sc_multi g) (sc_BDRF g) (sc_mu0 g)
    (sc_I0_div_4pi g) (sc_beam g) (sc_bpos g) (sc_bneg g) (sc_bpos_scalar g) (sc_bneg_scalar g) (sc_bpos_vector g) (sc_bneg_vector g)
    (sc_Ns g) (sc_s g) (sc_iso g) bn.

Section Cong.
  Variable g : sc_in.
  Variables (NF' : nat) (G' : nat -> nat -> mat) (K' : nat -> nat -> vec) (B' : nat -> nat -> vec) (gmi' : nat -> vec) (bn' : nat).
  Let g' := sc_with g NF' G' K' B' gmi' bn'.
  Local Notation N := (sc_N g).
  Local Notation NQ := ((2 * sc_N g)%nat).
  Local Notation NL := (sc_NLayers g).
  Local Notation dim := ((sc_NLayers g * (2 * sc_N g))%nat).
  Hypothesis HN : (1 <= N)%nat.
  Hypothesis HNL : (1 <= NL)%nat.
  Hypothesis Hmulti : sc_multi g = Nat.ltb 1 NL.
  Variable m : nat.
  Hypothesis HG : forall l i j, (l < NL)%nat -> (i < NQ)%nat -> (j < NQ)%nat -> sc_G g m l i j = G' m l i j.
  Hypothesis HK : forall l j, (l < NL)%nat -> (j < NQ)%nat -> sc_K g m l j = K' m l j.
  Hypothesis HB : sc_beam g = true -> forall l j, (l < NL)%nat -> (j < NQ)%nat -> sc_B g m l j = B' m l j.
  Hypothesis Hgm : sc_iso g = true -> m = 0%nat -> forall l j, (l < NL)%nat -> (j < NQ)%nat -> sc_gmi g l j = gmi' l j.
  Hypothesis HKne : sc_iso g = true -> m = 0%nat -> forall l k, (l < NL)%nat -> (k < NQ)%nat -> sc_K g 0%nat l k <> 0.

  Lemma lhs_cong bd : Meq g (dense_lhs g m bd (fun _ _ => 0)) (dense_lhs g' m bd (fun _ _ => 0)).
  Proof.
    assert (HQ : NQ = (2 * N)%nat) by reflexivity.
    assert (HNs : (1 <= sc_N g')%nat) by exact HN. assert (HLs : (1 <= sc_NLayers g')%nat) by exact HNL.
    intros i j Hi Hj. destruct (col_cases g HN HNL j Hj) as (l' & k & Hl' & Hk & ->).
    destruct (row_cases g HN HNL i Hi) as [Hi'|[(l & a & Hl & Ha & ->)|(a & Ha & ->)]];
      idtac.
    - rewrite (dense_top g HN HNL m bd _ i l' k Hi' Hl' Hk), (dense_top g' HNs HLs m bd _ i l' k Hi' Hl' Hk).
      destruct (Nat.eqb l' 0); [|reflexivity]. unfold blk_top. change (sc_N g') with N. change (sc_N g) with N. change (sc_G g' m) with (G' m). rewrite HG by lia.
      destruct (Nat.ltb_spec k N); [reflexivity|]. unfold E_01. change (sc_K g' m) with (K' m). rewrite HK by lia. reflexivity.
    - rewrite (dense_mid g HN HNL m bd _ l l' a k Hl Hl' Ha Hk).
      pose proof (dense_mid g' HNs HLs m bd (fun _ _ => 0) l l' a k Hl Hl' Ha Hk) as E.
      change (row_if g' l a) with (row_if g l a) in E. change (sc_N g') with N in E. etransitivity; [|symmetry; exact E]. clear E.
      destruct (Nat.eqb_spec l' l); [subst|destruct (Nat.eqb_spec l' (l + 1)); [subst|reflexivity]].
      + unfold blk_up. change (sc_N g') with N. change (sc_N g) with N. change (sc_G g' m) with (G' m). rewrite HG by lia.
        destruct (Nat.ltb_spec k N); [|reflexivity]. unfold E_lm1l. change (sc_K g' m) with (K' m). change (sc_N g') with N. change (sc_N g) with N. rewrite HK by lia. reflexivity.
      + unfold blk_dn. change (sc_N g') with N. change (sc_N g) with N. change (sc_G g' m) with (G' m). rewrite HG by lia.
        destruct (Nat.ltb_spec k N); [reflexivity|]. unfold E_llp1. change (sc_K g' m) with (K' m). change (sc_N g') with N. change (sc_N g) with N. rewrite HK by lia. reflexivity.
    - rewrite (dense_bot g HN HNL m bd _ a l' k Ha Hl' Hk).
      pose proof (dense_bot g' HNs HLs m bd (fun _ _ => 0) a l' k Ha Hl' Hk) as E.
      change (sc_N g') with N in E. change (sc_NLayers g') with NL in E. etransitivity; [|symmetry; exact E]. clear E.
      change (sc_NLayers g) with NL. destruct (Nat.eqb_spec l' (NL - 1)); [|reflexivity].
      unfold blk_bot. change (sc_N g') with N. change (sc_N g) with N. destruct (Nat.ltb_spec k N).
      + unfold bot_left, scale_cols, minus_R, E_L, sub. change (sc_K g' m) with (K' m). change (sc_G g' m) with (G' m).
        change (sc_N g') with N. change (sc_NLayers g') with NL. change (sc_N g) with N. change (sc_NLayers g) with NL.
        rewrite HK by lia. f_equal. destruct bd as [[R X]|]; [|apply HG; lia]. unfold mmul. rewrite HG by lia. f_equal.
        apply rsum_ext. intros p Hp. rewrite HG by lia. reflexivity.
      + unfold bot_right, minus_R, sub. change (sc_G g' m) with (G' m). change (sc_N g') with N. change (sc_NLayers g') with NL. change (sc_N g) with N. change (sc_NLayers g) with NL.
        destruct bd as [[R X]|]; [|apply HG; lia]. unfold mmul. rewrite HG by lia. f_equal.
        apply rsum_ext. intros p Hp. rewrite HG by lia. reflexivity.
  Qed.

  Lemma part_iso_cong l q x : (l < NL)%nat -> (q < NQ)%nat -> part_iso g m l q x = part_iso g' m l q x.
  Proof.
    intros Hl Hq. unfold part_iso. change (sc_iso g') with (sc_iso g). destruct (Nat.eqb_spec m 0) as [E|]; [|reflexivity].
    destruct (sc_iso g) eqn:Ei; [|reflexivity]. cbn [andb]. change (sc_N g') with (sc_N g). change (sc_Ns g') with (sc_Ns g). change (sc_s g') with (sc_s g).
    apply vsol_ext. intros k Hk. rewrite E in *. auto.
  Qed.
  Lemma part_beam_cong l q : (l < NL)%nat -> (q < NQ)%nat -> part_beam g m l q = part_beam g' m l q.
  Proof. intros Hl Hq. unfold part_beam. change (sc_beam g') with (sc_beam g). destruct (sc_beam g); auto. Qed.

  Lemma Neq_m0 : (m <> 0)%nat -> forall bd r, rhs_iso g m bd r = Ok r /\ rhs_iso g' m bd r = Ok r.
  Proof. intros Hm bd r. unfold rhs_iso. rewrite (proj2 (Nat.eqb_neq m 0)) by lia. auto. Qed.

  Lemma rhs_iso_both bd r : exists r1 r1', rhs_iso g m bd r = Ok r1 /\ rhs_iso g' m bd r = Ok r1' /\ veq dim r1 r1'.
  Proof.
    destruct (Nat.eq_dec m 0) as [E|E].
    2:{ exists r, r. split; [|split; [|intros i _; reflexivity]]; apply (Neq_m0 E bd r). }
    assert (HNs : (1 <= sc_N g')%nat) by exact HN. assert (HLs : (1 <= sc_NLayers g')%nat) by exact HNL.
    assert (HQ : NQ = (2 * N)%nat) by reflexivity.
    assert (HK1 : sc_iso g = true -> forall l k, (l < NL)%nat -> (k < NQ)%nat -> sc_K g 0%nat l k <> 0) by (intros; auto).
    assert (HK2 : sc_iso g' = true -> forall l k, (l < sc_NLayers g')%nat -> (k < 2 * sc_N g')%nat -> sc_K g' 0%nat l k <> 0).
    { intros Hi l k Hl Hk. change (sc_K g' 0%nat) with (K' 0%nat). pose proof (HK l k Hl Hk) as X. rewrite E in X. rewrite <- X. apply HK1; auto. }
    destruct (rhs_iso_val g HN HNL Hmulti m HK1 bd r) as (r1 & E1 & A1 & B1 & C1).
    destruct (rhs_iso_val g' HNs HLs Hmulti m HK2 bd r) as (r2 & E2 & A2 & B2 & C2).
    exists r1, r2. split; [exact E1|]. split; [exact E2|]. intros i Hi.
    change (sc_N g') with N in *. change (sc_NLayers g') with NL in *. change (sc_tau0 g') with (sc_tau0 g) in *. change (row_if g') with (row_if g) in *.
    destruct (row_cases g HN HNL i Hi) as [Hi'|[(l & a & Hl & Ha & ->)|(a & Ha & ->)]];
      idtac.
    - rewrite A1, A2 by auto. rewrite part_iso_cong by lia. reflexivity.
    - rewrite B1, B2 by auto. rewrite !part_iso_cong by lia. reflexivity.
    - rewrite C1, C2 by auto. rewrite part_iso_cong by lia. f_equal. unfold mvec. apply rsum_ext. intros p Hp. rewrite part_iso_cong by lia. reflexivity.
  Qed.
  Lemma rhs_beam_both bd r r' : veq dim r r' -> veq dim (rhs_beam g m bd r) (rhs_beam g' m bd r').
  Proof.
    assert (HNs : (1 <= sc_N g')%nat) by exact HN. assert (HLs : (1 <= sc_NLayers g')%nat) by exact HNL.
    assert (HQ : NQ = (2 * N)%nat) by reflexivity.
    intros H i Hi. destruct (rhs_beam_val g HN HNL Hmulti m bd r) as (A1 & B1 & C1).
    destruct (rhs_beam_val g' HNs HLs Hmulti m bd r') as (A2 & B2 & C2).
    change (sc_N g') with N in *. change (sc_NLayers g') with NL in *. change (sc_tau0 g') with (sc_tau0 g) in *. change (row_if g') with (row_if g) in *.
    change (sc_mu0 g') with (sc_mu0 g) in *. change (sc_beam g') with (sc_beam g) in *.
    pose proof Hi as Hi0.
    destruct (row_cases g HN HNL i Hi) as [Hi'|[(l & a & Hl & Ha & ->)|(a & Ha & ->)]];
      idtac.
    - rewrite A1, A2, H by auto. rewrite part_beam_cong by lia. reflexivity.
    - rewrite B1, B2, H by auto. rewrite !part_beam_cong by lia. reflexivity.
    - rewrite C1, C2. 2,3: auto. rewrite H by exact Hi0. rewrite part_beam_cong by lia. f_equal. f_equal. f_equal. f_equal. unfold mvec. apply rsum_ext. intros p Hp. rewrite part_beam_cong by lia. reflexivity.
  Qed.
  Lemma mode_rhs_both bd junk : req_v dim (mode_rhs g m bd junk) (mode_rhs g' m bd junk).
  Proof.
    unfold mode_rhs. change (rhs_bc g' m junk) with (rhs_bc g m junk). destruct (rhs_bc g m junk) as [r|]; [|reflexivity]. cbn [bind].
    destruct (rhs_iso_both bd r) as (r1 & r2 & -> & -> & H). cbn [bind req_v]. apply rhs_beam_both. exact H.
  Qed.

  Variable la : linalg.

  (** Same solver: same answer, or the same failure. *)
  Theorem mode_coeffs_cong : Nat.leb (sc_banded g) NL = Nat.leb bn' NL -> mode_coeffs g la m = mode_coeffs g' la m.
  Proof.
    intros Hbn. assert (HNs : (1 <= sc_N g')%nat) by exact HN. assert (HLs : (1 <= sc_NLayers g')%nat) by exact HNL.
    unfold mode_coeffs. change (bd_terms g' m) with (bd_terms g m). destruct (bd_terms g m) as [bd|]; [|reflexivity]. cbn [bind].
    pose proof (mode_rhs_both bd (fun _ => 0)) as Hr. destruct (mode_rhs g m bd _) as [r|], (mode_rhs g' m bd _) as [r'|]; cbn [req_v bind] in *; try tauto; [|congruence].
    unfold mode_solve. change (sc_banded g') with bn'. change (sc_NLayers g') with NL. change (sc_NLayers g) with NL. rewrite Hbn.
    pose proof (lhs_cong bd) as HL. destruct (Nat.leb bn' NL).
    - destruct (band_sim g HN HNL m bd _ _ (Rel_0 g)) as (F0 & E0 & R0). rewrite E0. cbn [bind].
      destruct (band_sim g' HNs HLs m bd _ _ (Rel_0 g')) as (F1 & E1 & R1). rewrite E1. cbn [bind].
      assert (R1' : Rel g F1 (dense_lhs g m bd (fun _ _ => 0))).
      { apply (Rel_Meq g F1 (dense_lhs g' m bd (fun _ _ => 0))); [exact R1|]. apply Meq_sym. exact HL. }
      pose proof (Rel_cells g HN HNL F0 F1 _ R0 R1') as Ec.
      change (dof_rows g') with (dof_rows g). change (dof_mat g' F1) with (dof_mat g F1). change (sc_N g') with N. change (sc_N g) with N.
      change (sc_N g) with N in Ec. change (sc_NLayers g) with NL in Ec. rewrite Ec.
      rewrite (vlist_veq (NL * (2 * N)) r r' Hr). reflexivity.
    - change (sc_N g') with N. change (sc_N g) with N.
      rewrite (rows_Meq (NL * (2 * N)) _ _ HL), (vlist_veq (NL * (2 * N)) r r' Hr). reflexivity.
  Qed.

  (** Any two solvers: the answers agree if both answer. *)
  Hypothesis Hla : linalg_ok la.
  Hypothesis Hlu : linalg_unique la.
  Theorem mode_coeffs_agree C C' : mode_coeffs g la m = Ok C -> mode_coeffs g' la m = Ok C' ->
    forall i, (i < dim)%nat -> of_list C i = of_list C' i.
  Proof.
    assert (HNs : (1 <= sc_N g')%nat) by exact HN. assert (HLs : (1 <= sc_NLayers g')%nat) by exact HNL.
    intros H H'. destruct (mode_system g' HNs HLs la Hla m C' H') as (bd' & r0' & r1' & Hb' & E0' & E1' & S').
    change (bd_terms g' m) with (bd_terms g m) in Hb'. change (rhs_bc g' m) with (rhs_bc g m) in E0'.
    unfold mode_coeffs in H. rewrite Hb' in H. cbn [bind] in H. unfold mode_rhs in H. rewrite E0' in H. cbn [bind] in H.
    destruct (rhs_iso_both bd' r0') as (x & x' & X1 & X2 & X3). rewrite X1 in H. cbn [bind] in H.
    assert (x' = r1') by congruence. subst x'. pose proof (rhs_beam_both bd' x r1' X3) as Hr.
    pose proof (lhs_cong bd') as HL. unfold mode_solve in H.
    assert (Hy : forall i, (i < dim)%nat -> rsum dim (fun j => dense_lhs g m bd' (fun _ _ => 0) i j * of_list C' j) = rhs_beam g m bd' x i).
    { intros i Hi. rewrite (Hr i Hi). rewrite <- (S' i Hi). apply rsum_ext. intros j Hj. f_equal. apply HL; auto. }
    destruct (Nat.leb _ _) in H.
    - destruct (band_sim g HN HNL m bd' _ _ (Rel_0 g)) as (F0 & EF & R0). rewrite EF in H. cbn [bind] in H.
      destruct (la_solve_banded la _ _ _ _) as [z|] eqn:Es; [|discriminate]. injection H as ->.
      intros i Hi. symmetry. refine (banded_unique la Hlu dim _ _ _ _ _ Es (of_list C') _ i Hi).
      intros k Hk. rewrite <- (Hy k Hk). apply rsum_ext. intros j Hj. f_equal.
      pose proof (banded_reads g HN HNL F0 k j Hk Hj) as HBr. etransitivity; [exact HBr|]. apply (proj1 R0); auto.
    - destruct (la_solve la _ _) as [z|] eqn:Es; [|discriminate]. injection H as ->.
      intros i Hi. symmetry. exact (solve_unique la Hlu dim _ _ _ Es (of_list C') Hy i Hi).
  Qed.

  (** An answer of one solver is found by the other. *)
  Hypothesis Hlc : linalg_complete la.
  Theorem mode_coeffs_found C : mode_coeffs g la m = Ok C -> exists C', mode_coeffs g' la m = Ok C'.
  Proof.
    assert (HNs : (1 <= sc_N g')%nat) by exact HN. assert (HLs : (1 <= sc_NLayers g')%nat) by exact HNL.
    intros H. destruct (mode_system g HN HNL la Hla m C H) as (bd & r0 & r1 & Hb & E0 & E1 & S0).
    destruct (rhs_iso_both bd r0) as (x & x' & X1 & X2 & X3). assert (x = r1) by congruence. subst x.
    pose proof (rhs_beam_both bd r1 x' X3) as Hr. pose proof (lhs_cong bd) as HL.
    assert (Hu : forall y : vec, (forall i, (i < dim)%nat -> rsum dim (fun j => dense_lhs g' m bd (fun _ _ => 0) i j * y j) = rhs_beam g' m bd x' i) ->
      forall i, (i < dim)%nat -> y i = of_list C i).
    { intros y Hy. assert (Hy' : forall i, (i < dim)%nat -> rsum dim (fun j => dense_lhs g m bd (fun _ _ => 0) i j * y j) = rhs_beam g m bd r1 i).
      { intros i Hi. rewrite (Hr i Hi). rewrite <- (Hy i Hi). apply rsum_ext. intros j Hj. f_equal. apply HL; auto. }
      unfold mode_coeffs in H. rewrite Hb in H. cbn [bind] in H. unfold mode_rhs in H. rewrite E0 in H. cbn [bind] in H. rewrite E1 in H. cbn [bind] in H.
      unfold mode_solve in H. destruct (Nat.leb _ _) in H.
      - destruct (band_sim g HN HNL m bd _ _ (Rel_0 g)) as (F0 & EF & R0). rewrite EF in H. cbn [bind] in H.
        destruct (la_solve_banded la _ _ _ _) as [z|] eqn:Es; [|discriminate]. injection H as ->.
        intros i Hi. refine (banded_unique la Hlu dim _ _ _ _ _ Es y _ i Hi).
        intros k Hk. rewrite <- (Hy' k Hk). apply rsum_ext. intros j Hj. f_equal.
        pose proof (banded_reads g HN HNL F0 k j Hk Hj) as HBr. etransitivity; [exact HBr|]. apply (proj1 R0); auto.
      - destruct (la_solve la _ _) as [z|] eqn:Es; [|discriminate]. injection H as ->.
        intros i Hi. exact (solve_unique la Hlu dim _ _ _ Es y Hy' i Hi). }
    assert (Hs : forall i, (i < dim)%nat -> rsum dim (fun j => dense_lhs g' m bd (fun _ _ => 0) i j * of_list C j) = rhs_beam g' m bd x' i).
    { intros i Hi. rewrite <- (Hr i Hi). rewrite <- (S0 i Hi). apply rsum_ext. intros j Hj. f_equal. symmetry. apply HL; auto. }
    unfold mode_coeffs. change (bd_terms g' m) with (bd_terms g m). rewrite Hb. cbn [bind]. unfold mode_rhs. change (rhs_bc g' m) with (rhs_bc g m).
    rewrite E0. cbn [bind]. rewrite X2. cbn [bind]. unfold mode_solve. destruct (Nat.leb _ _).
    - destruct (band_sim g' HNs HLs m bd _ _ (Rel_0 g')) as (F0 & EF & R0). rewrite EF. cbn [bind].
      assert (HM : forall i j, (i < dim)%nat -> (j < dim)%nat -> banded_elt (3 * N - 1) (3 * N - 1) (rows (dof_rows g') (sc_NLayers g' * (2 * sc_N g')) (dof_mat g' F0)) i j = dense_lhs g' m bd (fun _ _ => 0) i j).
      { intros i j Hi Hj. pose proof (banded_reads g' HNs HLs F0 i j Hi Hj) as HBr. etransitivity; [exact HBr|]. apply (proj1 R0); auto. }
      match goal with |- exists C', ofopt (la_solve_banded la ?l ?u ?ab (vlist ?n ?b)) = Ok C' => destruct (banded_complete la Hlc n l u ab b (of_list C)) as (z & Hz) end.
      + intros i Hi. rewrite <- (Hs i Hi). apply rsum_ext. intros j Hj. f_equal. apply HM; auto.
      + intros z Hz. apply Hu. intros i Hi. rewrite <- (Hz i Hi). apply rsum_ext. intros j Hj. f_equal. symmetry. apply HM; auto.
      + rewrite Hz. cbn. eauto.
    - match goal with |- exists C', ofopt (la_solve la (rows ?n _ ?A) (vlist _ ?b)) = Ok C' => destruct (solve_complete la Hlc n A b (of_list C) Hs Hu) as (z & Hz) end.
      rewrite Hz. cbn. eauto.
  Qed.
End Cong.

(** What the flat buffer holds, for C24. *)
Theorem banded_is_dense g m bd : (1 <= sc_N g)%nat -> (1 <= sc_NLayers g)%nat ->
  let n := (sc_NLayers g * (2 * sc_N g))%nat in
  exists F, band_lhs g m bd (fun _ => 0) = Ok F /\
    (forall i j, (i < n)%nat -> (j < n)%nat ->
       banded_elt (3 * sc_N g - 1) (3 * sc_N g - 1) (rows (6 * sc_N g - 1) n (dof_mat g F)) i j = dense_lhs g m bd (fun _ _ => 0) i j) /\
    (forall i j, (i < n)%nat -> (j < n)%nat -> (i + (3 * sc_N g - 1) < j \/ j + (3 * sc_N g - 1) < i)%nat ->
       dense_lhs g m bd (fun _ _ => 0) i j = 0).
Proof.
  intros HN HNL n. destruct (band_sim g HN HNL m bd _ _ (Rel_0 g)) as (F & E & R). exists F. split; [exact E|].
  assert (X : forall i j, (i < n)%nat -> (j < n)%nat -> Mb g F i j = dense_lhs g m bd (fun _ _ => 0) i j) by (apply (proj1 R)).
  split.
  - intros i j Hi Hj. rewrite <- X by auto. exact (banded_reads g HN HNL F i j Hi Hj).
  - intros i j Hi Hj H. rewrite <- X by auto. unfold Mb.
    destruct H; [rewrite (proj2 (Nat.leb_gt j _)) by lia; reflexivity|rewrite (proj2 (Nat.leb_gt i _)) by lia; rewrite andb_false_r; reflexivity].
Qed.

(** One mode in fresh zeroed buffers, for C25. *)
Theorem fresh_buffers g la clob jC jR : (1 <= sc_N g)%nat -> (1 <= sc_NLayers g)%nat ->
  let fresh := mkSS (fun _ _ => 0) (fun _ => 0) (fun _ => 0) (fun _ _ => 0) in
  match solve_for_coeffs g la clob jC jR with
  | Ok GC => forall m, (m < sc_NFourier g)%nat ->
      exists s, sc_step g la (fun _ _ => 0) fresh m = Ok s /\
        forall l i j, GC m l i j = sc_G g m l i j * ss_C s m (l * (2 * sc_N g) + j)%nat
  | Err e => exists m, (m < sc_NFourier g)%nat /\ sc_step g la (fun _ _ => 0) fresh m = Err e
  end.
Proof.
  intros HN HNL fresh. pose proof (coeffs_char g HN HNL la clob jC jR) as H.
  assert (HI : Inv g fresh).
  { split; [apply zero_out_0|]. exists (fun _ _ => 0). split; [apply Rel_0|apply zero_out_0]. }
  destruct (solve_for_coeffs g la clob jC jR) as [GC|e].
  - intros m Hm. destruct (H m Hm) as (C & E & HC). pose proof (step_char g HN HNL la (fun _ _ => 0) fresh m HI) as S. rewrite E in S.
    destruct S as (s & Es & Cs & _). exists s. split; [exact Es|]. intros l i j. rewrite HC, Cs. unfold upd. rewrite Nat.eqb_refl. reflexivity.
  - destruct H as (m & Hm & E & _). exists m. split; [exact Hm|]. pose proof (step_char g HN HNL la (fun _ _ => 0) fresh m HI) as S. rewrite E in S. exact S.
Qed.
