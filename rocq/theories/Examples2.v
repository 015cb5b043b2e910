(** Concrete calls of pydisort, used to show that the hypotheses of the theorems can be met.
    Models no function of /repo. *)
From Coq Require Import String Reals Lra Lia List Bool Arith ZArith.
From Coquelicot Require Import Coquelicot.
From Verif Require Import Base Tensor Spec M_LinAlg Spec_RTE Calc M_Subroutines M_GenPart M_MathscrV M_Coeffs M_Assemble M_Pydisort
  P_Sub P_Sub3 P_Special P_GenPart P_GenPart2 P_GenPart3 P_GenPart4 P_Tensor P_Coeffs P_Coeffs2 P_Coeffs3 P_Assemble P_Solve Spec_Sol P_Valid P_Pydisort P_Pydisort2
  Examples.
Import ListNotations.
Local Open Scope R_scope.

(** When the boundary-condition stage succeeds (dense solver). *)
Lemma coeffs_total g la : (1 <= sc_N g)%nat -> (1 <= sc_NLayers g)%nat -> sc_multi g = Nat.ltb 1 (sc_NLayers g) ->
  (sc_iso g = true -> forall l k, (l < sc_NLayers g)%nat -> (k < 2 * sc_N g)%nat -> sc_K g 0%nat l k <> 0) ->
  (sc_NLayers g < sc_banded g)%nat ->
  (forall m, (m < sc_NFourier g)%nat -> exists bd r, bd_terms g m = Ok bd /\ rhs_bc g m (fun _ => 0) = Ok r /\
     forall v, (forall r1, rhs_iso g m bd r = Ok r1 -> v = rhs_beam g m bd r1) ->
       exists x, la_solve la (rows (sc_NLayers g * (2 * sc_N g)) (sc_NLayers g * (2 * sc_N g)) (dense_lhs g m bd (fun _ _ => 0)))
                              (vlist (sc_NLayers g * (2 * sc_N g)) v) = Some x) ->
  forall clob jC jR, exists GC, solve_for_coeffs g la clob jC jR = Ok GC.
Proof.
  intros HN HNL Hmu HK Hb H clob jC jR. pose proof (coeffs_char g HN HNL la clob jC jR) as C.
  destruct (solve_for_coeffs g la clob jC jR) as [GC|e]; [eauto|]. exfalso. destruct C as (m & Hm & E & _).
  destruct (H m Hm) as (bd & r & E1 & E2 & E3). unfold mode_coeffs, mode_rhs in E. rewrite E1, E2 in E. cbn [bind] in E.
  destruct (rhs_iso_val g HN HNL Hmu m HK bd r) as (r' & E4 & _). rewrite E4 in E. cbn [bind] in E.
  unfold mode_solve in E. destruct (Nat.leb_spec (sc_banded g) (sc_NLayers g)); [lia|].
  destruct (E3 (rhs_beam g m bd r')) as (x & Hx). { intros r1 Hr1. congruence. }
  rewrite Hx in E. discriminate.
Qed.

(** One layer, two streams (cosines 1/2 and -1/2). Delta-M scaling turns the phase function
    1, 1/4, 1/10 with forward fraction 1/4 into isotropic scattering with albedo 3/4. *)
Definition p_ex (I0 mu0 bp bn s rho : R) (NT flux auto : bool) : py_in := {|
  p_tau := [5/4]; p_omega := [4/5]; p_NQuad := 2;
  p_Leg := mkA2 1 3 (fun _ k => match k with 0%nat => 1 | 1%nat => 1/4 | _ => 1/10 end);
  p_mu0 := mu0; p_I0 := I0; p_phi0 := 0; p_NLeg := None; p_NFourier := None;
  p_bpos := t0 bp; p_bneg := t0 bn; p_only_flux := flux; p_f := [1/4]; p_NT := NT;
  p_BDRF := [MScal rho]; p_s := mkA2 1 1 (fun _ _ => s); p_banded := 10; p_autograd := auto |}.

Section Ex1.
  Variables (I0 mu0 bp bn s rho : R) (NT flux auto : bool).
  Hypothesis HI : 0 <= I0.
  Hypothesis Hmu0 : 0 < mu0 < 1 /\ mu0 <> 1/2.
  Hypothesis Hbp : 0 <= bp.
  Hypothesis Hbn : 0 < bn \/ (bn <> 0 /\ s = 0).
  Hypothesis Hs : 0 <= s.
  Hypothesis Hrho : 0 <= rho <= 1.
  Hypothesis HNT : NT = true -> mu0 = 1/4.
  Let p := p_ex I0 mu0 bp bn s rho NT flux auto.

  Lemma ex_valid : valid p.
  Proof.
    constructor; cbn -[Rlt Rle PI].
    - lia.
    - intros [|l] Hl; cbn; [lra|lia].
    - intros [|l] Hl; cbn; [lra|lia].
    - intros w [<-|[]]. lra.
    - lia.
    - reflexivity.
    - reflexivity.
    - reflexivity.
    - reflexivity.
    - intros l [|[|k]] Hl Hk; try lia; lra.
    - lia.
    - reflexivity.
    - destruct flux; cbn; lia.
    - lia.
    - auto.
    - intros _. lra.
    - intros _. pose proof PI_RGT_0. lra.
    - right; left; reflexivity.
    - right; left; reflexivity.
    - intros f [<-|[]]. lra.
    - lia.
  Qed.

  Lemma ex_quad : quad_mu p lg_12 0%nat = 1 / 2 /\ quad_W p lg_12 0%nat = 1.
  Proof. unfold quad_mu, quad_W. change (pN p) with 1%nat. unfold Gauss_Legendre_quad, lg_12, transform_interval, transform_weights, of_list. cbn [map fst snd nth]. split; field. Qed.

  Lemma ex_delta : delta_M p = true.
  Proof. unfold delta_M. cbn -[Rltb]. rewrite Rltb_t by lra. reflexivity. Qed.
  Lemma ex_scale : scale_tau p 0 = 4 / 5.
  Proof. unfold scale_tau. rewrite ex_delta. unfold omega_at, f_at. cbn. field. Qed.
  Lemma ex_omega : scaled_omega p 0 = 3 / 4.
  Proof. unfold scaled_omega. rewrite ex_delta, ex_scale. unfold omega_at, f_at. cbn. field. Qed.
  Lemma ex_tau0 : scaled_tau0 p 0 = 0 /\ scaled_tau0 p 1 = 1.
  Proof. unfold scaled_tau0. rewrite ex_delta. unfold scaled_thickness, omega_at, f_at, thickness, tau_at, tau_top. cbn. split; [reflexivity|field]. Qed.
  Lemma ex_leg : leg0_bad p = false.
  Proof. unfold leg0_bad, omega_at. cbn -[Reqb]. rewrite Rmult_1_r, Reqb_refl. reflexivity. Qed.
  Lemma ex_wleg : weighted_scaled_Leg p 0 0 = 1 /\ weighted_scaled_Leg p 0 1 = 0.
  Proof.
    unfold weighted_scaled_Leg, scaled_Leg, Leg_all. rewrite ex_delta, ex_leg. unfold f_at. cbn. split; field.
  Qed.

  Lemma ex_scaled_s : exists ss, scaled_s p = Ok ss.
  Proof.
    unfold scaled_s. destruct (has_iso p) eqn:E; [|cbn; eauto]. rewrite ex_delta.
    rewrite affine_ok; [cbn [bind]; eauto| | | |]; cbn -[scale_tau]; try reflexivity; try lia.
    intros [|l] Hl; [|lia]. cbn [nth]. rewrite ex_scale. lra.
  Qed.

  Lemma ex_bneg : norm_b (t0 bn) = t0 bn.
  Proof. unfold norm_b, all0. cbn -[Reqb]. rewrite Reqb_f by lra. reflexivity. Qed.
  Lemma ex_rescale ss : exists r, rescale p ss = Ok r.
  Proof.
    unfold rescale. unfold e_bneg. change (p_bneg p) with (t0 bn). rewrite ex_bneg.
    assert (exists mp, tmax (e_bpos p) = Ok mp) as (mp & ->).
    { unfold e_bpos, norm_b. change (p_bpos p) with (t0 bp). destruct (all0 (t0 bp)); eexists; reflexivity. }
    change (tmax (t0 bn)) with (Ok bn). cbn [bind].
    destruct (has_iso p) eqn:Ei; [|eexists; reflexivity].
    destruct Hbn as [Hb|[_ Es]].
    2:{ exfalso. apply has_iso_iff in Ei. destruct Ei as (i & j & _ & _ & H). apply H. exact Es. }
    assert (X : forall l, In bn l -> 0 < lmax l) by (intros l Hl; pose proof (lmax_ge l bn Hl); lra).
    match goal with |- context [lmax ?l] => pose proof (X l ltac:(right; right; left; reflexivity)) as Hl; rewrite Reqb_f by lra; exists (lmax l); auto end.
  Qed.

  Section Args.
    Variables (r : R) (ss : nat -> vec).
    Let a := assemble_args p lg_12 r ss.
    Let g := gp_of a.

    Lemma ex_om0 : om_leg g 0 0 0 = 3 / 8.
    Proof.
      unfold om_leg. cbn [g gp_of gp_omega gp_wLeg a assemble_args a_omega a_wLeg]. rewrite ex_omega.
      destruct ex_wleg as [E0 E1]. cbn [Nat.add]. rewrite E0. lra.
    Qed.
    Lemma ex_om1 m k : (m + k = 1)%nat -> om_leg g m 0 k = 0.
    Proof.
      intros E. unfold om_leg. rewrite E. cbn [g gp_of gp_omega gp_wLeg a assemble_args a_omega a_wLeg]. rewrite ex_omega.
      destruct ex_wleg as [E0 E1]. rewrite E1. lra.
    Qed.
    Lemma ex_scat0 : scatters g 0 0 = true.
    Proof.
      unfold scatters. change (seq 0 (gp_NLeg g - 0)) with [0%nat; 1%nat]. cbn [existsb]. rewrite ex_om0.
      rewrite Rltb_t; [reflexivity|]. rewrite Rabs_right; lra.
    Qed.
    Lemma ex_scatS m : scatters g (S m) 0 = false.
    Proof.
      unfold scatters. change (gp_NLeg g - S m)%nat with (2 - S m)%nat. destruct m as [|m]; [|reflexivity].
      cbn [Nat.sub seq existsb]. rewrite ex_om1 by reflexivity. rewrite Rabs_R0, Rltb_f by lra. reflexivity.
    Qed.
    Lemma ex_ab : alpha g 0 0 0%nat 0%nat = -5 / 4 /\ beta g 0 0 0%nat 0%nat = 3 / 4.
    Proof.
      destruct ex_quad as [Q1 Q2].
      unfold alpha, beta, D_pos, D_neg, D_temp. change (gp_NLeg g - 0)%nat with 2%nat. cbn [rsum].
      rewrite ex_om0, (ex_om1 0 1) by reflexivity. unfold leg_neg, leg_pos, gp_poch, signs, delta. cbn [Nat.add Nat.odd Nat.even Nat.eqb negb].
      rewrite lpmv_00, poch_0. cbn [g gp_of gp_M_inv gp_W a assemble_args a_M_inv a_W]. rewrite Q1, Q2. split; field.
    Qed.
    Lemma ex_eig cand : exists e, gp_eig g (la_ex cand) (cA g 0 0) = Ok e /\ fst e 0%nat = 1 /\ snd e 0%nat 0%nat = 1.
    Proof.
      unfold gp_eig. destruct ex_ab as [Ha Hb]. change (gp_N g) with 1%nat. rewrite rows1. cbn [la_eig la_ex ofopt bind]. unfold mmul. cbn [rsum].
      unfold cA. change (gp_N g) with 1%nat. cbn [Nat.add Nat.ltb Nat.leb Nat.sub]. rewrite Ha, Hb.
      replace (0 + (-5 / 4 - 3 / 4) * (-5 / 4 + 3 / 4)) with 1 by lra.
      cbn [forallb seq]. unfold of_list at 1. cbn [nth]. rewrite Rltb_t by lra. cbn [andb].
      eexists. split; [reflexivity|]. cbn [fst snd]. unfold of_list, of_rows. cbn [nth]. split; [apply sqrt_1|reflexivity].
    Qed.
    Lemma ex_good cand : gp_good g (la_ex cand).
    Proof.
      intros m l Hm Hl Hsc. assert (l = 0%nat) as -> by (change (gp_NLayers g) with 1%nat in Hl; lia).
      destruct m as [|m]; [|rewrite ex_scatS in Hsc; discriminate].
      destruct (ex_eig cand) as (e & He & E1 & E2). exists e. split; [exact He|]. destruct ex_ab as [Ha Hb].
      assert (Hm1 : mu0 * (1 / mu0) = 1) by (field; lra).
      split.
      - intros _ _. split.
        + change (2 * gp_N g)%nat with 2%nat. rewrite rows2. unfold blockG. change (gp_N g) with 1%nat. cbn [Nat.ltb Nat.leb Nat.sub].
          unfold gp_P, gp_Q, mmul. change (gp_N g) with 1%nat. cbn [rsum Nat.add].
          unfold cA. change (gp_N g) with 1%nat. cbn [Nat.add Nat.ltb Nat.leb Nat.sub]. rewrite Ha, Hb, E1, E2.
          cbn [la_inv la_ex]. rewrite Reqb_f; [eauto|]. lra.
        + intros _ j Hj. change (gp_N g) with 1%nat in Hj. assert (j = 0%nat) by lia. subst j. rewrite E1. change (gp_mu0 g) with mu0.
          destruct Hmu0 as [H1 H2]. split; nra.
      - intros _ _. change (2 * gp_N g)%nat with 2%nat. rewrite rows2. change (vlist 2 (cX g 0 0)) with [cX g 0 0 0%nat; cX g 0 0 1%nat].
        cbn [la_solve la_ex]. unfold A_full, setblk. change (gp_N g) with 1%nat. change (gp_mu0 g) with mu0. cbn [Nat.add Nat.ltb Nat.leb Nat.sub andb].
        unfold cA. change (gp_N g) with 1%nat. cbn [Nat.add Nat.ltb Nat.leb Nat.sub]. rewrite Ha, Hb. unfold delta. cbn [Nat.eqb].
        rewrite Reqb_f; [eauto|]. assert (1 / mu0 > 1). { apply Rmult_lt_reg_l with mu0; [lra|]. rewrite Hm1. lra. } nra.
    Qed.

    Lemma ex_solve jk : exists sv, solve_all a (la_ex []) jk = Ok sv.
    Proof.
      unfold solve_all.
      destruct (gp_total g (la_ex []) (j_G jk) (j_K jk) (j_A jk) (j_X jk) (j_Gi jk) (ex_good [])) as (o & Ho).
      fold g. rewrite Ho. cbn [bind].
      assert (Hnf : (0 < gp_NFourier g)%nat) by (unfold g, a; cbn; destruct flux; cbn; lia).
      assert (HMi : gp_M_inv g 0%nat = 2). { destruct ex_quad as [Q1 _]. change (1 / quad_mu p lg_12 0%nat = 2). rewrite Q1. field. }
      assert (GK0 : o_G o 0 0 0%nat 0%nat = 1/4 /\ o_G o 0 0 0%nat 1%nat = 3/4 /\ o_G o 0 0 1%nat 0%nat = 3/4 /\ o_G o 0 0 1%nat 1%nat = 1/4 /\
                    o_K o 0 0 0%nat = -1 /\ o_K o 0 0 1%nat = 1).
      { pose proof (out_char g (la_ex []) _ _ _ _ _ o Ho 0 0 Hnf ltac:(change (gp_NLayers g) with 1%nat; lia)) as C. rewrite ex_scat0 in C.
        destruct C as (e & He & HG & HKo & _). destruct (ex_eig []) as (e' & He' & E1 & E2). assert (e' = e) by congruence. subst e'.
        change (gp_N g) with 1%nat in HG, HKo. cbn [Nat.mul Nat.add] in HG, HKo. destruct ex_ab as [Ha Hb].
        rewrite !HG by lia. rewrite !HKo by lia. unfold blockG. change (gp_N g) with 1%nat. cbn [Nat.ltb Nat.leb Nat.sub].
        unfold gp_P, gp_Q, mmul. change (gp_N g) with 1%nat. cbn [rsum Nat.add]. unfold cA. change (gp_N g) with 1%nat. cbn [Nat.add Nat.ltb Nat.leb Nat.sub].
        rewrite Ha, Hb, E1, E2. repeat split; lra. }
      assert (GKS : forall m, (S m < gp_NFourier g)%nat -> o_G o (S m) 0 0%nat 0%nat = 0 /\ o_G o (S m) 0 0%nat 1%nat = 1 /\ o_G o (S m) 0 1%nat 0%nat = 1 /\ o_G o (S m) 0 1%nat 1%nat = 0).
      { intros m Hm. pose proof (out_char g (la_ex []) _ _ _ _ _ o Ho (S m) 0 Hm ltac:(change (gp_NLayers g) with 1%nat; lia)) as C. rewrite ex_scatS in C.
        destruct C as (-> & _). unfold G_trivial. change (gp_N g) with 1%nat. cbn. auto. }
      match goal with |- exists sv, bind ?x _ = Ok sv => assert (X : exists GC, x = Ok GC); [|destruct X as (GC & ->); cbn [bind]; eauto] end.
      apply coeffs_total.
      - cbn. lia.
      - cbn. lia.
      - reflexivity.
      - intros _ l k Hl Hk. change (sc_NLayers (sc_of a o)) with 1%nat in Hl. change (2 * sc_N (sc_of a o))%nat with 2%nat in Hk.
        assert (l = 0%nat) as -> by lia. change (o_K o 0 0 k <> 0). destruct k as [|[|k]]; [lra|lra|lia].
      - change (1 < 10)%nat. lia.
      - intros m Hm. change (sc_NFourier (sc_of a o)) with (gp_NFourier g) in Hm.
        assert (Hbd : exists bd, bd_terms (sc_of a o) m = Ok bd /\ match bd with Some (Rm, _) => m = 0%nat /\ Rm 0%nat 0%nat = rho | None => m <> 0%nat end).
        { unfold bd_terms. change (length (sc_BDRF (sc_of a o))) with 1%nat. destruct m as [|m]; [|exists None; split; auto].
          cbn [Nat.ltb Nat.leb]. change (nth 0 (sc_BDRF (sc_of a o)) (MScal 0)) with (MScal rho).
          unfold bd_R. cbn [Nat.eqb]. destruct ex_quad as [Q1 Q2].
          change (sc_N (sc_of a o)) with 1%nat. cbn -[Rmult sc_muW sc_beam bd_X]. 
          match goal with |- context [if sc_beam ?x then ?y else ?z] => assert (E : exists X, (if sc_beam x then y else z) = Ok X) by (destruct (sc_beam x); cbn; eauto) end.
          destruct E as (X & ->). cbn [bind]. eexists. split; [reflexivity|]. split; [reflexivity|].
          cbn -[Rmult]. rewrite Q1, Q2. field. }
        destruct Hbd as (bd & Ebd & Hbd). exists bd.
        assert (Hbc : exists r0, rhs_bc (sc_of a o) m (fun _ => 0) = Ok r0).
        { unfold rhs_bc, b_mode. cbn [sc_of sc_bneg sc_bpos sc_bneg_scalar sc_bneg_vector sc_bpos_scalar sc_bpos_vector a assemble_args a_bneg a_bpos a_bneg_scalar a_bpos_scalar a_bpos_vector a_bneg_vector].
          unfold e_bneg, e_bpos. change (p_bneg p) with (t0 bn). rewrite ex_bneg. change (p_bpos p) with (t0 bp).
          assert (E : norm_b (t0 bp) = t0 0 \/ norm_b (t0 bp) = t0 bp) by (unfold norm_b; destruct (all0 _); auto).
          destruct E as [-> | ->]; destruct m; cbn; eauto. }
        destruct Hbc as (r0 & Er0). exists r0. split; [exact Ebd|]. split; [exact Er0|].
        intros v _. change (sc_NLayers (sc_of a o) * (2 * sc_N (sc_of a o)))%nat with 2%nat. rewrite rows2.
        change (vlist 2 v) with [v 0%nat; v 1%nat]. cbn [la_solve la_ex].
        rewrite Reqb_f; [eauto|].
        unfold dense_lhs. change (sc_NLayers (sc_of a o)) with 1%nat. change (sc_N (sc_of a o)) with 1%nat.
        cbn [Nat.sub seq fold_left Nat.mul Nat.add]. unfold setrect, setblk, bot_left, bot_right, scale_cols, sub, E_01, E_L, minus_R.
        change (sc_NLayers (sc_of a o)) with 1%nat. change (sc_N (sc_of a o)) with 1%nat. cbn [Nat.sub Nat.leb Nat.ltb andb Nat.add].
        change (sc_G (sc_of a o)) with (o_G o). change (sc_K (sc_of a o)) with (o_K o).
        change (sc_tau0 (sc_of a o)) with (scaled_tau0 p). destruct ex_tau0 as [-> ->].
        destruct m as [|m].
        + destruct bd as [[Rm X]|]; [|tauto]. destruct Hbd as [_ HR]. unfold mmul. cbn [rsum]. rewrite HR.
          cbn [Nat.add]. destruct GK0 as (-> & -> & -> & -> & -> & _).
          replace (-1 * (1 - 0)) with (-1) by lra. replace (-1 * 1) with (-1) by lra.
          assert (0 < exp (-1)) by apply exp_pos. assert (exp (-1) < 1). { rewrite <- exp_0. apply exp_increasing. lra. }
          set (E := exp (-1)) in *. assert (0 < E * E < 1) by nra. nra.
        + destruct bd as [[Rm X]|]; [destruct Hbd; discriminate|]. destruct (GKS m Hm) as (-> & -> & -> & ->). lra.
    Qed.
  End Args.

  Theorem ex_ok_gen jk : exists out, pydisort p lg_12 (la_ex []) jk = Ok out.
  Proof.
    unfold pydisort. rewrite (proj2 (validate_iff p) ex_valid). cbn [bind].
    assert (HA : NT_angle_ok p lg_12 = true).
    { unfold NT_angle_ok. change (p_NT p) with NT. change (seq 0 (pN p)) with [0%nat]. cbn [existsb].
      destruct ex_quad as [-> _]. change (p_mu0 p) with mu0. destruct (bool_dec NT true) as [E|E]; [|apply not_true_is_false in E; rewrite E; reflexivity].
      rewrite (HNT E), E. rewrite Rltb_f; [reflexivity|]. rewrite Rabs_right; lra. }
    rewrite HA. cbn [check bind]. destruct ex_scaled_s as (ss & ->). cbn [bind].
    destruct (ex_rescale ss) as (r & ->). cbn [bind].
    destruct (ex_solve r ss jk) as (sv & ->). cbn [bind]. eauto.
  Qed.
End Ex1.
Theorem ex_ok (I0 mu0 bp bn s rho : R) (NT flux auto : bool) : 0 <= I0 -> 0 < mu0 < 1 /\ mu0 <> 1/2 -> 0 < bn -> 0 <= rho <= 1 ->
  (NT = true -> mu0 = 1/4) -> forall jk, exists out, pydisort (p_ex I0 mu0 bp bn s rho NT flux auto) lg_12 (la_ex []) jk = Ok out.
Proof. intros H1 H2 H3 H4 H5 jk. apply ex_ok_gen; auto. Qed.

(** The exact routines succeed on the boundary system when the candidate solves it. *)
Lemma la_ex_solve cand n A b : (3 <= n)%nat -> (forall i, (i < n)%nat -> rsum n (fun j => A i j * of_list cand j) = b i) ->
  (forall y : vec, (forall i, (i < n)%nat -> rsum n (fun j => A i j * y j) = b i) -> forall i, (i < n)%nat -> y i = of_list cand i) ->
  la_solve (la_ex cand) (rows n n A) (vlist n b) = Some cand.
Proof.
  intros Hn H Hu. cbn [la_solve la_ex].
  assert (E : cand_ok (length (vlist n b)) (of_rows (rows n n A)) (vlist n b) cand = true).
  { unfold cand_ok. rewrite vlist_length. apply forallb_forall. intros i Hi. apply in_seq in Hi. apply Reqb_iff.
    rewrite of_list_vlist by lia. rewrite <- H by lia. apply rsum_ext. intros j Hj. rewrite of_rows_rows by lia. reflexivity. }
  assert (E' : cand_only (length (vlist n b)) (of_rows (rows n n A)) (vlist n b) cand = true).
  { apply cand_only_iff. rewrite vlist_length. intros y Hy. apply Hu. intros i Hi. specialize (Hy i Hi). rewrite of_list_vlist in Hy by lia.
    rewrite <- Hy. apply rsum_ext. intros j Hj. rewrite of_rows_rows by lia. reflexivity. }
  rewrite E, E'. pose proof (rows_length n n A) as HL. pose proof (vlist_length n b) as HV.
  destruct (rows n n A) as [|[|? [|? [|]]] [|[|? [|? [|]]] [|]]]; try reflexivity. simpl in HL. lia.
Qed.
(** The routines find the answer [cand] whenever it is the only one (systems of 3 or more unknowns). *)
Record finds (la : linalg) (cand : list R) : Prop := mkFinds {
  fd_solve : forall n A b, (3 <= n)%nat -> (forall i, (i < n)%nat -> rsum n (fun j => A i j * of_list cand j) = b i) ->
    (forall y : vec, (forall i, (i < n)%nat -> rsum n (fun j => A i j * y j) = b i) -> forall i, (i < n)%nat -> y i = of_list cand i) ->
    exists x, la_solve la (rows n n A) (vlist n b) = Some x;
  fd_banded : forall n l u ab b, (3 <= n)%nat -> (forall i, (i < n)%nat -> rsum n (fun j => banded_elt l u ab i j * of_list cand j) = b i) ->
    (forall y : vec, (forall i, (i < n)%nat -> rsum n (fun j => banded_elt l u ab i j * y j) = b i) -> forall i, (i < n)%nat -> y i = of_list cand i) ->
    exists x, la_solve_banded la l u ab (vlist n b) = Some x
}.
Lemma la_ex_finds cand : finds (la_ex cand) cand.
Proof.
  constructor.
  - intros n A b Hn H Hu. rewrite la_ex_solve; eauto.
  - intros n l u ab b Hn H Hu. cbn [la_solve_banded la_ex].
    match goal with |- exists x, (if ?b then _ else _) = _ => replace b with true; [eauto|symmetry] end.
    apply andb_true_iff. split.
    + unfold cand_ok. rewrite vlist_length. apply forallb_forall. intros i Hi. apply in_seq in Hi. apply Reqb_iff.
      rewrite of_list_vlist by lia. apply H; lia.
    + apply cand_only_iff. rewrite vlist_length. intros y Hy. apply Hu. intros i Hi. specialize (Hy i Hi). rewrite of_list_vlist in Hy by lia. exact Hy.
Qed.
Lemma la_id_finds cand : finds la_id cand.
Proof.
  destruct la_id_complete as [H1 H2].
  constructor; [intros n A b _ H Hu; exact (H1 n A b _ H Hu)|intros n l u ab b _ H Hu; exact (H2 n l u ab b _ H Hu)].
Qed.
Lemma mode_cand la g m cand bd r0 r1 : finds la cand -> (1 <= sc_N g)%nat -> (1 <= sc_NLayers g)%nat -> (3 <= sc_NLayers g * (2 * sc_N g))%nat ->
  bd_terms g m = Ok bd -> rhs_bc g m (fun _ => 0) = Ok r0 -> rhs_iso g m bd r0 = Ok r1 ->
  (forall i, (i < sc_NLayers g * (2 * sc_N g))%nat ->
     rsum (sc_NLayers g * (2 * sc_N g)) (fun j => dense_lhs g m bd (fun _ _ => 0) i j * of_list cand j) = rhs_beam g m bd r1 i) ->
  (forall y : vec, (forall i, (i < sc_NLayers g * (2 * sc_N g))%nat ->
     rsum (sc_NLayers g * (2 * sc_N g)) (fun j => dense_lhs g m bd (fun _ _ => 0) i j * y j) = rhs_beam g m bd r1 i) ->
     forall i, (i < sc_NLayers g * (2 * sc_N g))%nat -> y i = of_list cand i) ->
  exists C, mode_coeffs g la m = Ok C.
Proof.
  intros [F1 F2] HN HNL Hd E1 E2 E3 H Hu. unfold mode_coeffs, mode_rhs. rewrite E1. cbn [bind]. rewrite E2. cbn [bind]. rewrite E3. cbn [bind].
  unfold mode_solve. destruct (Nat.leb _ _).
  - destruct (band_sim g HN HNL m bd _ _ (Rel_0 g)) as (F0 & EF & R0). rewrite EF. cbn [bind].
    match goal with |- context [la_solve_banded la ?l ?u ?ab (vlist ?n ?b)] => destruct (F2 n l u ab b) as (x & ->); [exact Hd| | |cbn; eauto] end.
    + intros i Hi. rewrite <- H by lia. apply rsum_ext. intros j Hj. f_equal.
      rewrite (banded_reads g HN HNL F0 i j) by lia. apply (proj1 R0); lia.
    + intros y Hy. apply Hu. intros i Hi. specialize (Hy i Hi).
      rewrite <- Hy. apply rsum_ext. intros j Hj. f_equal. rewrite (banded_reads g HN HNL F0 i j) by lia. symmetry. apply (proj1 R0); lia.
  - destruct (F1 _ _ _ Hd H Hu) as (x & ->). cbn. eauto.
Qed.

(** Any number of layers without scattering over a reflecting surface. *)
Definition p_exn (tau : list R) (b rho : R) (banded : Z) : py_in := {|
  p_tau := tau; p_omega := map (fun _ => 0) tau; p_NQuad := 2;
  p_Leg := mkA2 (length tau) 1 (fun _ _ => 1);
  p_mu0 := 0; p_I0 := 0; p_phi0 := 0; p_NLeg := Some 1%Z; p_NFourier := Some 1%Z;
  p_bpos := t0 0; p_bneg := t0 b; p_only_flux := false; p_f := [0]; p_NT := false;
  p_BDRF := [MScal rho]; p_s := mkA2 1 1 (fun _ _ => 0); p_banded := banded; p_autograd := false |}.
Definition cand_exn (tau : list R) (rho : R) : list R :=
  let top := fun l => match l with O => 0 | S k => nth k tau 0 end in
  let T := last tau 0 in
  vlist (2 * length tau) (fun q => let l := (q / 2)%nat in
    if Nat.eqb (q mod 2) 0 then exp (- 2 * top l) else rho * exp (- 2 * T) * exp (2 * (nth l tau 0 - T))).

Section ExN.
  Variables (tau : list R) (b rho : R) (banded : Z) (la : linalg).
  Hypothesis Hfinds : finds la (cand_exn tau rho).
  Hypothesis Hlen : (2 <= length tau)%nat.
  Let p := p_exn tau b rho banded.
  Hypothesis Hpos : forall l, (l < length tau)%nat -> 0 < bot_of p l.
  Hypothesis Hinc : forall l, (l < length tau)%nat -> top_of p l < bot_of p l.
  Hypothesis Hb : 0 < b.
  Hypothesis Hband : (3 <= banded)%Z.

  Lemma exn_valid : valid p.
  Proof.
    constructor; cbn -[Rlt Rle PI map nth]; auto; try lra; try lia.
    - intros w Hw. apply in_map_iff in Hw as (x & <- & _). lra.
    - apply map_length.
    - intros (f & [<-|[]] & Hf). tauto.
    - intros (i & j & _ & _ & Hne). cbn in Hne. tauto.
    - right; left; reflexivity.
    - right; left; reflexivity.
    - intros f [<-|[]]. lra.
  Qed.
  Lemma exn_om l : omega_at p l = 0.
  Proof.
    unfold omega_at. cbn [p_omega p p_exn]. destruct (Nat.lt_ge_cases l (length tau)).
    - assert (Hin : In (nth l (map (fun _ : R => 0) tau) 0) (map (fun _ : R => 0) tau)) by (apply nth_In; rewrite map_length; auto).
      apply in_map_iff in Hin as (x & <- & _). reflexivity.
    - apply nth_overflow. rewrite map_length. auto.
  Qed.
  Lemma exn_delta : delta_M p = false.
  Proof. unfold delta_M. cbn -[Rltb]. rewrite Rltb_f by lra. reflexivity. Qed.
  Lemma exn_quad : quad_mu p lg_12 0%nat = 1 / 2 /\ quad_W p lg_12 0%nat = 1.
  Proof. unfold quad_mu, quad_W. change (pN p) with 1%nat. unfold Gauss_Legendre_quad, lg_12, transform_interval, transform_weights, of_list. cbn [map fst snd nth]. split; field. Qed.
  Lemma exn_iso : has_iso p = false.
  Proof. unfold has_iso, e_Ns. cbn -[Reqb]. rewrite Reqb_refl. reflexivity. Qed.
  Lemma exn_ss : scaled_s p = Ok (fun _ _ => 0).
  Proof. unfold scaled_s. rewrite exn_iso. change (nrow (p_s p)) with 1%nat. unfold bdim. destruct (Nat.eqb 1 (pNL p)); reflexivity. Qed.
  Lemma exn_rescale ss : rescale p ss = Ok b.
  Proof.
    unfold rescale. rewrite exn_iso. unfold e_bneg, e_bpos. change (p_bneg p) with (t0 b). change (p_bpos p) with (t0 0). change (p_I0 p) with 0.
    unfold norm_b, all0. cbn -[Reqb lmax]. rewrite Reqb_refl, Reqb_f by lra. cbn -[Rmax]. f_equal. rewrite (Rmax_right 0 b) by lra. apply Rmax_right; lra.
  Qed.

  Section Args.
    Variable ss : nat -> vec.
    Let a := assemble_args p lg_12 b ss.
    Let g := gp_of a.
    Lemma exn_scat m l : scatters g m l = false.
    Proof.
      unfold scatters. apply not_true_is_false. intros H. apply existsb_exists in H as (k & _ & Hk).
      apply Rltb_iff in Hk. unfold om_leg in Hk. cbn [g gp_of gp_omega gp_wLeg a assemble_args a_omega a_wLeg] in Hk.
      unfold scaled_omega in Hk. rewrite exn_delta, exn_om in Hk. replace (0 / 2 * weighted_scaled_Leg p l (m + k)) with 0 in Hk by lra.
      rewrite Rabs_R0 in Hk. lra.
    Qed.
    Lemma exn_solve jk : exists sv, solve_all a la jk = Ok sv.
    Proof.
      unfold solve_all.
      destruct (gp_total g la (j_G jk) (j_K jk) (j_A jk) (j_X jk) (j_Gi jk)) as (o & Ho).
      { intros m l _ _ H. rewrite exn_scat in H. discriminate. }
      fold g. rewrite Ho. cbn [bind].
      destruct exn_quad as [Q1 Q2].
      assert (HMi : gp_M_inv g 0%nat = 2). { change (1 / quad_mu p lg_12 0%nat = 2). rewrite Q1. field. }
      assert (GK : forall l, (l < length tau)%nat -> o_G o 0 l = G_trivial g /\ o_K o 0 l 0%nat = -2 /\ o_K o 0 l 1%nat = 2).
      { intros l Hl. pose proof (out_char g la _ _ _ _ _ o Ho 0 l ltac:(cbn; lia) Hl) as C. rewrite exn_scat in C.
        destruct C as (H1 & H2 & _). split; [exact H1|]. destruct (H2 0%nat ltac:(cbn; lia)) as [H3 H4]. rewrite HMi in H3, H4.
        change (gp_N g + 0)%nat with 1%nat in H4. split; [rewrite H3; lra|exact H4]. }
      assert (GT : G_trivial g 0%nat 0%nat = 0 /\ G_trivial g 0%nat 1%nat = 1 /\ G_trivial g 1%nat 0%nat = 1 /\ G_trivial g 1%nat 1%nat = 0).
      { unfold G_trivial. change (gp_N g) with 1%nat. cbn. auto. }
      set (sc := sc_of a o). set (cand := cand_exn tau rho) in *.
      match goal with |- exists sv, bind ?x _ = Ok sv => assert (X : exists GC, x = Ok GC); [|destruct X as (GC & ->); cbn [bind]; eauto] end.
      assert (HN : (1 <= sc_N sc)%nat) by (cbn; lia). assert (HL : (1 <= sc_NLayers sc)%nat) by (cbn; unfold pNL; cbn; lia).
      pose proof (coeffs_char sc HN HL la (j_clob jk) (j_C jk) (j_R jk)) as CC. fold sc.
      destruct (solve_for_coeffs sc la (j_clob jk) (j_C jk) (j_R jk)) as [GC|e]; [eauto|]. exfalso.
      destruct CC as (m & Hm & E & _). assert (m = 0%nat) as -> by (change (sc_NFourier sc) with 1%nat in Hm; lia).
      assert (X : exists C, mode_coeffs sc la 0 = Ok C); [|destruct X as (C & EC); congruence].
      assert (Hbd : exists bd, bd_terms sc 0 = Ok bd /\ bdR bd 0%nat 0%nat = rho).
      { unfold bd_terms. change (length (sc_BDRF sc)) with 1%nat.
        cbn [Nat.ltb Nat.leb]. change (nth 0 (sc_BDRF sc) (MScal 0)) with (MScal rho).
        unfold bd_R. cbn [Nat.eqb].
        change (sc_N sc) with 1%nat. cbn -[Rmult sc_muW sc_beam bd_X].
        match goal with |- context [if sc_beam ?x then ?y else ?z] => assert (E' : exists X, (if sc_beam x then y else z) = Ok X) by (destruct (sc_beam x); cbn; eauto) end.
        destruct E' as (X & ->). cbn [bind]. eexists. split; [reflexivity|].
        cbn -[Rmult]. rewrite Q1, Q2. field. }
      destruct Hbd as (bd & Ebd & HR).
      assert (EN : norm_b (t0 b) = t0 b) by (unfold norm_b, all0; cbn -[Reqb]; rewrite Reqb_f by lra; reflexivity).
      assert (EP : norm_b (t0 0) = t0 0) by (unfold norm_b; destruct (all0 _); reflexivity).
      assert (Bn : b_mode sc (sc_bneg_scalar sc) (sc_bneg_vector sc) (sc_bneg sc) 0 = Ok (fun _ => b / b)).
      { unfold sc. cbn [sc_of sc_bneg sc_bneg_scalar sc_bneg_vector a assemble_args a_bneg a_bneg_scalar a_bneg_vector].
        unfold e_bneg. change (p_bneg p) with (t0 b). rewrite EN. unfold b_mode. cbn. unfold divisor. rewrite Reqb_f by lra. reflexivity. }
      assert (Bp : b_mode sc (sc_bpos_scalar sc) (sc_bpos_vector sc) (sc_bpos sc) 0 = Ok (fun _ => 0 / b)).
      { unfold sc. cbn [sc_of sc_bpos sc_bpos_scalar sc_bpos_vector a assemble_args a_bpos a_bpos_scalar a_bpos_vector].
        unfold e_bpos. change (p_bpos p) with (t0 0). rewrite EP. unfold b_mode. cbn. unfold divisor. rewrite Reqb_f by lra. reflexivity. }
      assert (Er : exists r0, rhs_bc sc 0 (fun _ => 0) = Ok r0) by (unfold rhs_bc; rewrite Bn, Bp; cbn [bind]; eauto).
      destruct Er as (r0 & Er). assert (Ei : rhs_iso sc 0 bd r0 = Ok r0). { unfold rhs_iso. change (sc_iso sc) with (has_iso p). rewrite exn_iso. reflexivity. }
      assert (Hbm : sc_beam sc = false). { change (has_beam p = false). unfold has_beam. change (p_I0 p) with 0. apply Rltb_f. lra. }
      assert (Hnoiso : sc_iso sc = false) by exact exn_iso.
      assert (Hst : forall l, sc_tau0 sc l = top_of p l).
      { intros l. change (scaled_tau0 p l = top_of p l). unfold scaled_tau0. rewrite exn_delta. destruct l; reflexivity. }
      set (T := last tau 0) in *.
      assert (Fl : forall l q x, (l < length tau)%nat -> (q < 2)%nat ->
        field sc 0 (fun l i j => sc_G sc 0 l i j * of_list cand (l * 2 + j)%nat) l q x =
          if Nat.eqb q 1 then exp (- 2 * x) else rho * exp (- 2 * T) * exp (2 * (x - T))).
      { intros l q x Hl Hq. unfold field, part_beam, part_iso. rewrite Hbm, Hnoiso. rewrite andb_false_r. change (2 * sc_N sc)%nat with 2%nat. cbn [rsum].
        change (sc_G sc) with (o_G o). change (sc_K sc) with (o_K o). destruct (GK l Hl) as (-> & -> & ->).
        unfold ref_depth. change (sc_N sc) with 1%nat. cbn [Nat.ltb Nat.leb]. rewrite !Hst.
        assert (HC0 : of_list cand (l * 2 + 0)%nat = exp (- 2 * top_of p l)).
        { unfold cand, cand_exn. rewrite of_list_vlist by lia. replace (l * 2 + 0)%nat with (0 + l * 2)%nat by lia. rewrite Nat.div_add, Nat.mod_add by lia. cbn. destruct l; reflexivity. }
        assert (HC1 : of_list cand (l * 2 + 1)%nat = rho * exp (- 2 * T) * exp (2 * (nth l tau 0 - T))).
        { unfold cand, cand_exn. rewrite of_list_vlist by lia. replace (l * 2 + 1)%nat with (1 + l * 2)%nat by lia. rewrite Nat.div_add, Nat.mod_add by lia. reflexivity. }
        rewrite HC0, HC1. replace (l + 1)%nat with (S l) by lia. change (top_of p (S l)) with (nth l tau 0).
        destruct GT as (T1 & T2 & T3 & T4). destruct q as [|[|q]]; [| |lia]; cbn [Nat.eqb].
        - rewrite T1, T2.
          replace (exp (2 * (x - T))) with (exp (2 * (nth l tau 0 - T)) * exp (2 * (x - nth l tau 0))) by (rewrite <- exp_plus; f_equal; ring). ring.
        - rewrite T3, T4.
          replace (exp (-2 * x)) with (exp (-2 * top_of p l) * exp (-2 * (x - top_of p l))) by (rewrite <- exp_plus; f_equal; ring). ring. }
      apply (mode_cand la sc 0 cand bd r0 r0); auto.
      { change (3 <= length tau * 2)%nat. lia. }
      - apply (bc_system sc HN HL eq_refl 0 ltac:(intros H; congruence) bd) with (junk := fun _ => 0) (r0 := r0) (bneg := fun _ => b / b) (bpos := fun _ => 0 / b); auto.
        + intros l j Hl Hj. change (sc_N sc) with 1%nat in *. assert (j = 0%nat) as -> by lia. change (sc_K sc) with (o_K o).
          change (1 + 0)%nat with 1%nat. destruct (GK l Hl) as (_ & -> & ->). lra.
        + rewrite Hst. reflexivity.
        + apply zero_out_0.
        + intros i Hi. change (sc_N sc) with 1%nat in *. assert (i = 0%nat) as -> by lia. rewrite (Fl 0%nat (1 + 0)%nat) by lia. cbn [Nat.add Nat.eqb].
          rewrite Rmult_0_r, exp_0. field. lra.
        + intros l q Hl Hq. change (sc_NLayers sc) with (length tau) in Hl. rewrite !Fl by (try lia; exact Hq). reflexivity.
        + intros q Hq. change (sc_N sc) with 1%nat in *. assert (q = 0%nat) as -> by lia. change (sc_NLayers sc) with (length tau).
          cbn [rsum]. rewrite !Fl by lia. cbn [Nat.add Nat.eqb]. rewrite HR, Hst, Hbm.
          assert (ET : top_of p (length tau) = T). { unfold T. rewrite last_nth. destruct tau as [|t tl]; [cbn in Hlen; lia|]. cbn [length top_of]. replace (S (length tl) - 1)%nat with (length tl) by lia. reflexivity. }
          rewrite ET. replace (2 * (T - T)) with 0 by ring. rewrite exp_0. unfold Rdiv. ring.
      - intros y Hy.
        assert (Hanti : forall l j, (l < sc_NLayers sc)%nat -> (j < sc_N sc)%nat -> sc_K sc 0 l j = - sc_K sc 0 l (sc_N sc + j)%nat).
        { intros l j Hl Hj. change (sc_N sc) with 1%nat in *. assert (j = 0%nat) as -> by lia. change (sc_K sc) with (o_K o).
          change (1 + 0)%nat with 1%nat. destruct (GK l Hl) as (_ & -> & ->). lra. }
        assert (HI : sc_iso sc = true -> forall l k, (l < sc_NLayers sc)%nat -> (k < 2 * sc_N sc)%nat -> sc_K sc 0 l k <> 0) by (intros H; rewrite Hnoiso in H; discriminate).
        destruct (system_bc sc HN HL eq_refl 0 HI bd Hanti ltac:(rewrite Hst; reflexivity) y (fun _ _ => 0) (fun _ => 0) r0 r0 (zero_out_0 sc) Er Ei Hy) as (bneg & bpos & En & Ep & Ht & Hm' & Hbo).
        assert (En' : bneg = fun _ => b / b) by congruence. assert (Ep' : bpos = fun _ => 0 / b) by congruence. subst bneg bpos.
        assert (Fy : forall l q x, (l < length tau)%nat -> (q < 2)%nat ->
          field sc 0 (fun l i j => sc_G sc 0 l i j * y (l * (2 * sc_N sc) + j)%nat) l q x =
            if Nat.eqb q 1 then y (l * 2)%nat * exp (- 2 * (x - top_of p l)) else y (l * 2 + 1)%nat * exp (2 * (x - top_of p (S l)))).
        { intros l q x Hl Hq. unfold field, part_beam, part_iso. rewrite Hbm, Hnoiso. rewrite andb_false_r. change (2 * sc_N sc)%nat with 2%nat. cbn [rsum].
          change (sc_G sc) with (o_G o). change (sc_K sc) with (o_K o). destruct (GK l Hl) as (-> & -> & ->).
          unfold ref_depth. change (sc_N sc) with 1%nat. cbn [Nat.ltb Nat.leb]. rewrite !Hst. rewrite Nat.add_0_r. replace (l + 1)%nat with (S l) by lia.
          destruct GT as (T1 & T2 & T3 & T4). destruct q as [|[|q]]; [| |lia]; cbn [Nat.eqb].
          - rewrite T1, T2. ring.
          - rewrite T3, T4. ring. }
        change (sc_N sc) with 1%nat in *. change (sc_NLayers sc) with (length tau) in *.
        assert (Y0 : forall l, (l < length tau)%nat -> y (l * 2)%nat = exp (- 2 * top_of p l)).
        { induction l as [|l IH]; intros Hl.
          - pose proof (Ht 0%nat ltac:(lia)) as E0. rewrite (Fy 0%nat (1 + 0)%nat) in E0 by lia. cbn [Nat.add Nat.eqb Nat.mul top_of] in E0 |- *.
            replace (-2 * (0 - 0)) with 0 in E0 by ring. rewrite exp_0 in E0. rewrite Rmult_0_r, exp_0. replace (b / b) with 1 in E0 by (field; lra). lra.
          - pose proof (Hm' l 1%nat ltac:(lia) ltac:(lia)) as E0. rewrite !Fy in E0 by lia. cbn [Nat.eqb] in E0. rewrite !Hst in E0. rewrite IH in E0 by lia.
            replace (l + 1)%nat with (S l) in E0 by lia. replace (-2 * (top_of p (S l) - top_of p (S l))) with 0 in E0 by ring. rewrite exp_0, Rmult_1_r in E0.
            rewrite <- E0, <- exp_plus. f_equal. ring. }
        assert (ET : top_of p (length tau) = T). { unfold T. rewrite last_nth. destruct tau as [|t tl]; [cbn in Hlen; lia|]. cbn [length top_of]. replace (S (length tl) - 1)%nat with (length tl) by lia. reflexivity. }
        assert (Y1 : forall k l, (l + S k = length tau)%nat -> y (l * 2 + 1)%nat = rho * exp (- 2 * T) * exp (2 * (top_of p (S l) - T))).
        { induction k as [|k IH]; intros l Hl.
          - pose proof (Hbo 0%nat ltac:(lia)) as E0. cbn [rsum] in E0. rewrite !Fy in E0 by lia. cbn [Nat.add Nat.eqb] in E0. rewrite HR, !Hst, Hbm in E0.
            replace (length tau - 1)%nat with l in E0 by lia. rewrite Y0 in E0 by lia. replace (S l) with (length tau) in * by lia. rewrite ET in *.
            replace (2 * (T - T)) with 0 in * by ring. rewrite exp_0 in *.
            replace (exp (-2 * T)) with (exp (-2 * top_of p l) * exp (-2 * (T - top_of p l))) by (rewrite <- exp_plus; f_equal; ring). unfold Rdiv in E0. lra.
          - pose proof (Hm' l 0%nat ltac:(lia) ltac:(lia)) as E0. rewrite !Fy in E0 by lia. cbn [Nat.eqb] in E0. rewrite !Hst in E0.
            replace (l + 1)%nat with (S l) in E0 by lia. rewrite (IH (S l)) in E0 by lia. replace (2 * (top_of p (S l) - top_of p (S l))) with 0 in E0 by ring. rewrite exp_0 in E0.
            rewrite Rmult_1_r in E0. rewrite E0, Rmult_assoc. f_equal. rewrite <- exp_plus. f_equal. ring. }
        intros i Hi. unfold cand, cand_exn. rewrite of_list_vlist by lia.
        assert (Hdm : (i = i / 2 * 2 + i mod 2)%nat) by (rewrite (Nat.div_mod i 2) at 1 by lia; lia). pose proof (Nat.mod_upper_bound i 2 ltac:(lia)).
        assert (Hd : (i / 2 < length tau)%nat) by (apply Nat.div_lt_upper_bound; lia).
        destruct (Nat.eqb_spec (i mod 2) 0) as [E0|E0].
        + rewrite Hdm at 1. rewrite E0, Nat.add_0_r, Y0 by auto. destruct (i / 2)%nat; reflexivity.
        + rewrite Hdm at 1. replace (i mod 2) with 1%nat by lia. rewrite (Y1 (length tau - S (i / 2))%nat) by lia. reflexivity.
    Qed.
  End Args.

  Theorem exn_ok jk : exists out, pydisort p lg_12 la jk = Ok out.
  Proof.
    unfold pydisort. rewrite (proj2 (validate_iff p) exn_valid). cbn [bind].
    assert (HA : NT_angle_ok p lg_12 = true) by reflexivity.
    rewrite HA. cbn [check bind]. rewrite exn_ss. cbn [bind]. rewrite exn_rescale. cbn [bind].
    destruct (exn_solve (fun _ _ => 0) jk) as (sv & ->). cbn [bind]. eauto.
  Qed.
End ExN.
