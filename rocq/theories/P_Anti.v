(** Antiderivatives with respect to optical depth of the returned functions. *)
From Coq Require Import String Reals Lra Lia List Bool Arith ZArith.
From Coquelicot Require Import Coquelicot.
From Verif Require Import Base Tensor Spec M_LinAlg Spec_RTE Calc M_Subroutines M_GenPart M_MathscrV M_Coeffs M_Assemble M_Pydisort
  P_Sub P_GenPart P_GenPart3 P_Tensor P_MathscrV P_Coeffs P_Coeffs2 P_Coeffs3 P_Assemble P_Solve.
Import ListNotations.
Local Open Scope R_scope.

Section Anti.
  Variable a : as_in.
  Hypothesis Ha : as_good a.
  Variables (la : linalg) (jk : junk) (sv : solved).
  Hypothesis Hla : linalg_ok la.
  Hypothesis Hsv : solve_all a la jk = Ok sv.
  Hypothesis Hmu0 : a_beam a = true -> a_mu0 a <> 0.
  Hypothesis Hone : a_iso a = true -> a_NLayers a = 1%nat.
  Local Notation N := (a_N a).
  Local Notation NQ := (2 * a_N a)%nat.
  Local Notation NL := (a_NLayers a).
  Local Notation NF := (a_NFourier a).

  Definition aiso (q : nat) (t : R) : R :=
    let l := layer_of a t in
    Vsol NQ (a_Ns a) (a_s a l) (sv_G sv 0%nat l) (sv_K sv 0%nat l) (sv_gmi sv l) q (scaled_of a t) / a_scale a l.
  Definition ahb (m q : nat) (t : R) : R := hom a sv true m q t + beam_part a sv true m q t.
  Definition amode (m q : nat) (t : R) : R := ahb m q t + (if (Nat.eqb m 0 && a_iso a)%bool then aiso q t else 0).

  Lemma amode_der m q l t : (m < NF)%nat -> (q < NQ)%nat -> (l < NL)%nat -> lay_top a l < t < lay_bot a l ->
    is_derive (amode m q) t (mode_at a sv m q t).
  Proof.
    intros Hm Hq Hl Ht.
    pose proof (g_NL a Ha) as H1. pose proof (g_len a Ha) as H2. pose proof (g_inc a Ha) as H3.
    set (sl := fun y => a_stau0 a l + a_scale a l * (y - lay_top a l)).
    assert (Hloc : forall y, lay_top a l < y < lay_bot a l -> layer_of a y = l /\ scaled_of a y = sl y).
    { intros y Hy. assert (Hr : 0 <= y <= tau_bot a).
      { split; [pose proof (lay_top_nonneg a H1 H2 H3 l Hl); lra|]. pose proof (lay_bot_le a H1 H2 H3 l (NL - 1)%nat ltac:(lia)).
        apply Rle_trans with (lay_bot a l); [lra|]. apply Rle_trans with (lay_bot a (NL - 1)); [exact H|].
        unfold tau_bot, lay_bot. rewrite last_nth, H2. apply Rle_refl. }
      assert (E : layer_of a y = l) by (apply (layer_of_spec a H1 H2 H3 y l Hr Hl); split; [left; lra|lra]).
      split; [exact E|]. rewrite (scaled_of_eq a H1 H2 (g_st0 a Ha) (g_stS a Ha) y) by lra. rewrite E. reflexivity. }
    assert (Hsl : forall y, is_derive sl y (a_scale a l)).
    { intros y. unfold sl. apply (der_eq _ _ (0 + a_scale a l * (1 - 0))); [ring|]. apply der_plus; [apply der_const|]. apply der_scal, der_minus; [apply der_id|apply der_const]. }
    pose proof (g_scale a Ha l Hl) as Hs.
    assert (HK : forall k, (k < NQ)%nat -> sv_K sv m l k <> 0) by (intros k Hk; apply (sv_K_ne a Ha la Hla jk sv Hsv); auto).
    unfold mode_at. destruct (Hloc t Ht) as [El Es]. rewrite El, Es.
    apply (der_ext_loc (fun y => rsum NQ (fun k => sv_GC sv m l q k * (exp (sv_K sv m l k * (sl y - ref_top a l k)) / (a_scale a l * sv_K sv m l k)))
      + (if a_beam a then sv_B sv m l q / (- a_scale a l / a_mu0 a) * exp (- sl y / a_mu0 a) else 0)
      + (if (Nat.eqb m 0 && a_iso a)%bool then Vsol NQ (a_Ns a) (a_s a l) (sv_G sv 0%nat l) (sv_K sv 0%nat l) (sv_gmi sv l) q (sl y) / a_scale a l else 0))
      _ t _ (lay_top a l) (lay_bot a l)); [exact Ht| |].
    { intros y Hy. destruct (Hloc y Hy) as [Ey Esy]. unfold amode, ahb, aiso, hom, beam_part. cbv zeta. rewrite Ey, Esy. f_equal. f_equal.
      apply rsum_ext. intros k Hk. unfold exponent, ref_top. cbv zeta. rewrite Ey, Esy. destruct (Nat.ltb k N); reflexivity. }
    unfold fld, fld_hb, fld_iso. apply der_plus; [apply der_plus|].
    - refine (der_eq _ _ _ _ _ (der_sum NQ (fun k y => sv_GC sv m l q k * (exp (sv_K sv m l k * (sl y - ref_top a l k)) / (a_scale a l * sv_K sv m l k))) t
        (fun k => sv_GC sv m l q k * (sv_K sv m l k * (a_scale a l - 0) * exp (sv_K sv m l k * (sl t - ref_top a l k)) / (a_scale a l * sv_K sv m l k))) _)).
      + apply rsum_ext. intros k Hk. specialize (HK k Hk). field. split; auto; lra.
      + intros k Hk. apply der_scal, der_div. apply (der_exp (fun y => sv_K sv m l k * (sl y - ref_top a l k))). apply der_scal, der_minus; [apply Hsl|apply der_const].
    - destruct (a_beam a); [|apply der_const]. specialize (Hmu0 eq_refl).
      refine (der_eq _ _ _ _ _ (der_scal _ _ _ _ (der_exp (fun y => - sl y / a_mu0 a) t (- a_scale a l / a_mu0 a) _))).
      + field. split; [auto|lra].
      + apply der_div, der_opp, Hsl.
    - destruct (Nat.eqb m 0 && a_iso a)%bool; [|apply der_const].
      refine (der_eq _ _ _ _ _ (der_div _ _ _ _ (der_comp _ sl t _ _ (Hsl t) (Vsol_der _ _ _ _ _ _ _ _)))). field. lra.
  Qed.

  Definition adirb (t : R) : R := if a_beam a then a_I0 a * a_mu0 a * exp (- t / a_mu0 a) * - a_mu0 a else 0.
  Definition adirb_s (t : R) : R := if a_beam a then a_I0 a * a_mu0 a * exp (- scaled_of a t / a_mu0 a) / (- a_scale a (layer_of a t) / a_mu0 a) else 0.
  Lemma adirb_s_der l t : (l < NL)%nat -> lay_top a l < t < lay_bot a l -> is_derive adirb_s t (dirb_s a t).
  Proof.
    intros Hl Ht. unfold adirb_s, dirb_s. destruct (a_beam a) eqn:Eb; [|apply der_const]. specialize (Hmu0 eq_refl).
    pose proof (g_NL a Ha) as H1. pose proof (g_len a Ha) as H2. pose proof (g_inc a Ha) as H3. pose proof (g_scale a Ha l Hl) as Hs.
    set (sl := fun y => a_stau0 a l + a_scale a l * (y - lay_top a l)).
    assert (Hloc : forall y, lay_top a l < y < lay_bot a l -> layer_of a y = l /\ scaled_of a y = sl y).
    { intros y Hy. assert (Hr : 0 <= y <= tau_bot a).
      { split; [pose proof (lay_top_nonneg a H1 H2 H3 l Hl); lra|]. pose proof (lay_bot_le a H1 H2 H3 l (NL - 1)%nat ltac:(lia)).
        apply Rle_trans with (lay_bot a l); [lra|]. apply Rle_trans with (lay_bot a (NL - 1)); [exact H|].
        unfold tau_bot, lay_bot. rewrite last_nth, H2. apply Rle_refl. }
      assert (E : layer_of a y = l) by (apply (layer_of_spec a H1 H2 H3 y l Hr Hl); split; [left; lra|lra]).
      split; [exact E|]. rewrite (scaled_of_eq a H1 H2 (g_st0 a Ha) (g_stS a Ha) y) by lra. rewrite E. reflexivity. }
    assert (Hsl : forall y, is_derive sl y (a_scale a l)).
    { intros y. unfold sl. apply (der_eq _ _ (0 + a_scale a l * (1 - 0))); [ring|]. apply der_plus; [apply der_const|]. apply der_scal, der_minus; [apply der_id|apply der_const]. }
    destruct (Hloc t Ht) as [El Es]. rewrite Es.
    apply (der_ext_loc (fun y => a_I0 a * a_mu0 a * exp (- sl y / a_mu0 a) / (- a_scale a l / a_mu0 a)) _ t _ (lay_top a l) (lay_bot a l)); [exact Ht| |].
    { intros y Hy. destruct (Hloc y Hy) as [Ey Esy]. rewrite Ey, Esy. reflexivity. }
    refine (der_eq _ _ _ _ _ (der_div _ _ _ _ (der_scal _ _ _ _ (der_exp (fun y => - sl y / a_mu0 a) t (- a_scale a l / a_mu0 a) _)))).
    - field. split; [auto|lra].
    - apply der_div, der_opp, Hsl.
  Qed.
  Lemma adirb_der t : is_derive adirb t (dirb a t).
  Proof.
    unfold adirb, dirb. destruct (a_beam a) eqn:Eb; [|apply der_const]. specialize (Hmu0 eq_refl).
    refine (der_eq _ _ _ _ _ (der_scal_r _ _ _ _ (der_scal _ _ _ _ (der_exp (fun y => - y / a_mu0 a) t (- (1) / a_mu0 a) _)))).
    - field. auto.
    - apply der_div, der_opp, der_id.
  Qed.

  Variable tau : list R.
  Hypothesis Htau : forall t, In t tau -> 0 <= t <= tau_bot a.
  Local Notation nt := (length tau).

  Lemma iso_anti_val r0 nr : a_iso a = true ->
    exists C, iso_part a sv true r0 nr tau = Ok C /\ T2 C nr nt (fun q t => aiso (r0 + q) (nth t tau 0)).
  Proof.
    intros Hiso. specialize (Hone Hiso). unfold iso_part.
    assert (HL : forall i, In i (layers a tau) -> (i < NL)%nat) by (intros i; apply (layers_lt a (g_NL a Ha) (g_len a Ha) tau Htau)).
    match goal with |- exists C, mathscr_v _ _ ?n ?ta ?sc ?l _ ?s ?G ?K ?gm _ = _ /\ _ =>
      destruct (mathscr_v_anti nr NQ n ta sc l (a_Ns a) s G K gm) with (c := a_scale a 0%nat) as (C & HC & SC & EC) end.
    - rewrite uniq_inv_len. unfold layers, scaled_taus. rewrite !map_length. reflexivity.
    - intros i. apply uniq_inv_lt. exact HL.
    - intros ll k Hll Hk. apply (sv_K_ne a Ha la Hla jk sv Hsv); auto; [apply (g_NF a Ha)|]. eapply uniq_lt. apply nth_In. exact Hll.
    - pose proof (g_scale a Ha 0%nat ltac:(lia)). lra.
    - rewrite Hone. reflexivity.
    - exists C. split; [exact HC|]. split; [rewrite SC; unfold scaled_taus; rewrite map_length; reflexivity|].
      assert (Ln : length (scaled_taus a tau) = nt) by (unfold scaled_taus; rewrite map_length; auto).
      intros q t Hq Ht. rewrite EC by (auto; rewrite Ln; auto). rewrite (staus_nth a tau) by auto.
      rewrite uniq_inv_nth by (try exact HL; unfold layers; rewrite map_length; auto).
      rewrite (layers_nth a tau) by auto. unfold aiso. cbv zeta.
      assert (E0 : layer_of a (nth t tau 0) = 0%nat).
      { assert (layer_of a (nth t tau 0%R) < NL)%nat; [|lia]. apply HL. unfold layers. apply in_map, nth_In, Ht. }
      rewrite E0. reflexivity.
  Qed.

  Lemma um_anti_core : T3 (um_core a sv true tau) NF NQ nt (fun m q t => ahb m q (nth t tau 0)).
  Proof. split; reflexivity. Qed.

  Theorem um_anti_val : exists C, um_all a sv true tau = Ok C /\ T3 C NF NQ nt (fun m q t => amode m q (nth t tau 0)).
  Proof.
    unfold um_all. assert (Ei : a_iso a = true \/ a_iso a = false) by (destruct (a_iso a); auto).
    destruct Ei as [Ei|Ei]; rewrite Ei.
    2:{ eexists. split; [reflexivity|]. refine (T3_ext _ _ _ _ _ _ _ um_anti_core). intros m q t _ _ _.
        unfold amode. rewrite Ei, andb_false_r. ring. }
    destruct (iso_anti_val 0 NQ Ei) as (v & Hv & Sv & Ev). rewrite Hv. cbn [bind].
    destruct um_anti_core as [Su Eu]. unfold um_add. pose proof (g_NF a Ha) as HNF.
    destruct (Nat.eqb_spec NF 1) as [E1|E1].
    - unfold tadd. destruct (bcast2_32 Rplus (um_core a sv true tau) v NF NQ nt NQ nt NQ nt Su Sv (bc_same _) (bc_same _)) as (C & HC & SC & EC).
      rewrite HC. exists C. split; [reflexivity|]. split; [exact SC|]. intros m q t Hm Hq Ht.
      rewrite EC, !bi_lt by auto. rewrite Eu, Ev by auto. unfold amode. rewrite Ei. replace m with 0%nat by lia. reflexivity.
    - destruct (a_autograd a).
      + set (s0 := tslice 0 0 1 (um_core a sv true tau)).
        assert (S0 : shp s0 = [1%nat; NQ; nt]) by reflexivity.
        unfold tadd. destruct (bcast2_32 Rplus s0 v 1 NQ nt NQ nt NQ nt S0 Sv (bc_same _) (bc_same _)) as (C & HC & SC & EC).
        rewrite HC. cbn [bind]. unfold tconcat. rewrite SC. cbn [tslice shp firstn skipn nth]. rewrite Su. cbn [firstn skipn nth].
        rewrite !list_eqb_refl. cbn [andb app]. eexists. split; [reflexivity|]. split; [cbn; f_equal; lia|].
        intros m q t Hm Hq Ht. cbn [elt nth]. destruct (Nat.ltb_spec m 1).
        * replace m with 0%nat by lia. rewrite EC, !bi_lt by (auto; lia). unfold s0, tslice; cbn [elt firstn nth skipn app].
          rewrite Eu, Ev by (auto; lia). unfold amode. rewrite Ei. reflexivity.
        * unfold tslice; cbn [elt firstn nth skipn app]. replace (1 + (m - 1))%nat with m by lia. rewrite Eu by auto.
          unfold amode. rewrite (proj2 (Nat.eqb_neq m 0)) by lia. cbn [andb]. ring.
      + unfold iop.
        set (s0 := mkT (tl (shp (um_core a sv true tau))) (fun idx => elt (um_core a sv true tau) (0%nat :: idx))).
        assert (T0' : T2 s0 NQ nt (fun q t => ahb 0 q (nth t tau 0))).
        { split; [reflexivity|]. intros q t Hq Ht. cbn [elt s0]. apply Eu; auto. }
        destruct (T2_op Rplus s0 v NQ nt _ _ T0' (conj Sv Ev)) as (C & HC & SC & EC).
        rewrite HC. cbn [bind]. rewrite SC, (proj1 T0'), list_eqb_refl. cbn [bind]. eexists. split; [reflexivity|].
        split; [exact Su|]. intros m q t Hm Hq Ht. cbn [elt]. destruct m.
        * rewrite EC by auto. unfold amode. rewrite Ei. reflexivity.
        * rewrite Eu by auto. unfold amode. cbn [Nat.eqb andb]. ring.
  Qed.

  Theorem u0_anti_val : a_beam a = true -> exists C, u0_all a sv true tau = Ok C /\ T2 C NQ nt (fun q t => amode 0 q (nth t tau 0)).
  Proof.
    intros Eb. unfold u0_all.
    assert (T : T2 (u0_core a sv true tau) NQ nt (fun q t => ahb 0 q (nth t tau 0))).
    { split; [reflexivity|]. intros q t Hq Ht. unfold u0_core, at_tau. rewrite Eb. reflexivity. }
    assert (Ei : a_iso a = true \/ a_iso a = false) by (destruct (a_iso a); auto).
    destruct Ei as [Ei|Ei]; rewrite Ei.
    - destruct (iso_anti_val 0 NQ Ei) as (v & Hv & Tv). rewrite Hv. cbn [bind].
      destruct (T2_op Rplus _ v NQ nt _ _ T Tv) as (C & HC & TC). exists C. split; [exact HC|].
      refine (T2_ext _ _ _ _ _ _ TC). intros q t _ _. unfold amode. rewrite Ei. reflexivity.
    - eexists. split; [reflexivity|]. refine (T2_ext _ _ _ _ _ _ T). intros q t _ _. unfold amode. rewrite Ei. cbn [andb Nat.eqb]. ring.
  Qed.

  Lemma add_v_anti r0 S : T2 S N nt (fun q t => ahb 0 (r0 + q) (nth t tau 0)) ->
    exists v U, (if a_iso a then iso_part a sv true r0 N tau else Ok (t0 0)) = Ok v /\ tadd S v = Ok U /\
      T2 U N nt (fun q t => amode 0 (r0 + q) (nth t tau 0)).
  Proof.
    intros T. assert (Ei : a_iso a = true \/ a_iso a = false) by (destruct (a_iso a); auto).
    destruct Ei as [Ei|Ei]; rewrite Ei.
    - destruct (iso_anti_val r0 N Ei) as (v & Hv & Tv). exists v.
      destruct (T2_op Rplus _ _ _ _ _ _ T Tv) as (C & HC & TC). exists C. split; [exact Hv|]. split; [exact HC|].
      refine (T2_ext _ _ _ _ _ _ TC). intros q t _ _. unfold amode. rewrite Ei. reflexivity.
    - destruct T as [ST ET]. destruct (bcast2_20 Rplus S (t0 0) N nt ST eq_refl) as (C & HC & SC & EC).
      exists (t0 0), C. split; [reflexivity|]. split; [exact HC|]. split; [exact SC|]. intros q t Hq Ht.
      rewrite EC, !bi_lt, ET by auto. unfold amode. rewrite Ei. reflexivity.
  Qed.

  Lemma half_anti r0 B : (a_beam a = true -> T2 B N nt (fun q t => beam_part a sv true 0 (r0 + q) (nth t tau 0))) -> (a_beam a = false -> B = t0 0) ->
    exists S, tadd (half_hom a sv r0 true tau) B = Ok S /\ T2 S N nt (fun q t => ahb 0 (r0 + q) (nth t tau 0)).
  Proof.
    intros HB HB0.
    assert (T : T2 (half_hom a sv r0 true tau) N nt (fun q t => hom a sv true 0 (r0 + q) (nth t tau 0))) by (split; reflexivity).
    destruct (a_beam a) eqn:Eb.
    - destruct (T2_op Rplus _ _ _ _ _ _ T (HB eq_refl)) as (C & HC & TC). exists C. split; [exact HC|].
      refine (T2_ext _ _ _ _ _ _ TC). intros q t _ _. reflexivity.
    - rewrite (HB0 eq_refl). destruct T as [ST ET]. destruct (bcast2_20 Rplus (half_hom a sv r0 true tau) (t0 0) N nt ST eq_refl) as (C & HC & SC & EC).
      exists C. split; [exact HC|]. split; [exact SC|]. intros q t Hq Ht. rewrite EC, !bi_lt, ET by auto.
      unfold ahb, beam_part. rewrite Eb. reflexivity.
  Qed.

  Theorem flux_up_anti : exists C, flux_up_arr a sv true tau = Ok C /\
    T1 C nt (fun t => rsum N (fun i => 2 * PI * muW a i * amode 0 i (nth t tau 0))).
  Proof.
    unfold flux_up_arr.
    destruct (half_anti 0 (if a_beam a then half_beam a sv 0 true tau else t0 0)) as (S & HS & TS).
    { intros E. rewrite E. split; reflexivity. } { intros E. rewrite E. reflexivity. }
    destruct (add_v_anti 0 S TS) as (v & U & Hv & HU & [SU EU]).
    rewrite Hv. cbn [bind]. rewrite HS. cbn [bind]. rewrite HU. cbn [bind]. unfold tvm. rewrite SU, Nat.eqb_refl.
    eexists. split; [reflexivity|]. split; [reflexivity|]. intros t Ht. cbn [elt hd]. apply rsum_ext. intros i Hi.
    rewrite EU by auto. reflexivity.
  Qed.

  Hypothesis Hmany : a_beam a = true -> NL = 1%nat \/ nt = 1%nat.
  Lemma down_beam_val : a_beam a = true -> exists C, down_beam_anti a sv tau = Ok C /\
    T2 C N nt (fun q t => beam_part a sv true 0 (N + q) (nth t tau 0)).
  Proof.
    intros Eb. unfold down_beam_anti. unfold tdiv.
    set (X := mkT _ _). set (Y := tnew 0 _).
    assert (Ly : length (map (fun i => - a_scale a i / a_mu0 a) (layers a tau)) = nt) by (unfold layers; rewrite !map_length; reflexivity).
    assert (SY : shp Y = [1%nat; nt]) by (cbn [Y tnew t1 shp firstn skipn app]; rewrite Ly; reflexivity).
    assert (HL : forall i, In i (layers a tau) -> (i < NL)%nat) by (intros i; apply (layers_lt a (g_NL a Ha) (g_len a Ha) tau Htau)).
    assert (Hc : exists d, bc NL nt d /\ (forall i, In i (layers a tau) -> (i < d)%nat /\ bi NL i = i) /\
                 forall t, (t < nt)%nat -> nth (bi nt (nth t (layers a tau) 0%nat)) (layers a tau) 0%nat = nth t (layers a tau) 0%nat).
    { destruct (Hmany Eb) as [E|E].
      - exists nt. split; [right; left; auto|]. 
        assert (Z : forall t, (t < nt)%nat -> nth t (layers a tau) 0%nat = 0%nat).
        { intros t Ht. assert (nth t (layers a tau) 0%nat < NL)%nat; [|lia]. apply HL, nth_In. unfold layers. rewrite map_length. exact Ht. }
        split.
        + intros i Hi. pose proof (HL i Hi). split; [|unfold bi; rewrite E; cbn; lia]. destruct tau; [destruct Hi|cbn; lia].
        + intros t Ht. rewrite (Z t Ht). apply Z. unfold bi. destruct (Nat.eqb nt 1); lia.
      - exists NL. split; [right; right; auto|]. split.
        + intros i Hi. pose proof (HL i Hi). split; [auto|]. apply bi_lt; auto.
        + intros t Ht. assert (t = 0%nat) by lia. subst t. unfold bi. rewrite E. reflexivity. }
    destruct Hc as (d & Hbc & Hin & Hsel).
    destruct (bcast2_2 Rdiv X Y N NL 1 nt N d eq_refl SY (bc_1r _) Hbc) as (D & HD & SD & ED). rewrite HD. cbn [bind].
    assert (TD : T2 D N d (fun q j => elt D [q; j])) by (split; [exact SD|reflexivity]).
    destruct (T2_take1 _ _ _ _ (layers a tau) TD (fun i Hi => proj1 (Hin i Hi))) as (E & HE & TE). rewrite HE. cbn [bind].
    assert (Ll : length (layers a tau) = nt) by (unfold layers; rewrite map_length; reflexivity). rewrite Ll in TE.
    destruct (T2_row Rmult _ _ _ _ _ _ TE (map_T1 tau (fun t => exp (- scaled_of a t / a_mu0 a)))) as (C & HC & TC).
    exists C. split; [exact HC|]. refine (T2_ext _ _ _ _ _ _ TC). intros q t Hq Ht. cbn beta.
    assert (Hlt : In (nth t (layers a tau) 0%nat) (layers a tau)) by (apply nth_In; lia).
    rewrite ED. rewrite (proj2 (Hin _ Hlt)). rewrite (bi_lt N q Hq).
    unfold X, Y. cbn [elt nth tnew t1 firstn skipn app hd]. unfold beam_part. rewrite Eb. cbv zeta.
    rewrite (nth_map_d _ _ _ 0%nat). 2:{ unfold bi. destruct (Nat.eqb nt 1) eqn:E1; [lia|]. apply Nat.eqb_neq in E1. destruct Hbc as [[A B]|[[A B]|[A B]]]; pose proof (proj1 (Hin _ Hlt)); lia. }
    rewrite (Hsel t Ht). rewrite (layers_nth a tau) by auto. reflexivity.
  Qed.

  Theorem flux_down_anti : exists C s, flux_down_arr a sv true tau = Ok C /\ (s = [nt] \/ s = [1%nat; nt]) /\ shp C = s /\
    forall t, (t < nt)%nat -> elt C (if Nat.eqb (length s) 1 then [t] else [0%nat; t])
      = rsum N (fun i => 2 * PI * muW a i * amode 0 (N + i) (nth t tau 0)) + adirb_s (nth t tau 0) - adirb (nth t tau 0).
  Proof.
    unfold flux_down_arr.
    assert (EB : exists B, (if a_beam a then down_beam_anti a sv tau else Ok (t0 0)) = Ok B /\
      (a_beam a = true -> T2 B N nt (fun q t => beam_part a sv true 0 (N + q) (nth t tau 0))) /\ (a_beam a = false -> B = t0 0)).
    { assert (Eb : a_beam a = true \/ a_beam a = false) by (destruct (a_beam a); auto). destruct Eb as [Eb|Eb]; rewrite Eb.
      - destruct (down_beam_val Eb) as (C & HC & TC). exists C. split; [exact HC|]. split; [auto|discriminate].
      - exists (t0 0). split; [reflexivity|]. split; [discriminate|auto]. }
    destruct EB as (B & EB & TB & TB0).
    destruct (half_anti N B TB TB0) as (S & HS & TS).
    destruct (add_v_anti N S TS) as (v & U & Hv & HU & [SU EU]).
    rewrite Hv. cbn [bind]. rewrite EB. cbn [bind]. rewrite HS. cbn [bind]. rewrite HU. cbn [bind]. unfold tvm. rewrite SU, Nat.eqb_refl. cbn [bind].
    match goal with |- context [tadd ?f _] => set (F := f) end.
    assert (TF : T1 F nt (fun t => rsum N (fun i => 2 * PI * muW a i * amode 0 (N + i) (nth t tau 0)))).
    { split; [reflexivity|]. intros t Ht. cbn [elt hd F]. apply rsum_ext. intros i Hi. rewrite EU by auto. reflexivity. }
    destruct TF as [SF EF]. unfold direct_beam_scaled, direct_beam, adirb, adirb_s. destruct (a_beam a).
    - set (Y := tnew 0 _). assert (SY : shp Y = [1%nat; nt]) by (cbn [Y tnew t1 shp firstn skipn app]; rewrite map_length; reflexivity).
      unfold tadd. destruct (bcast2_12 Rplus F Y 1 nt nt nt SF SY (bc_same _)) as (C & HC & SC & EC). rewrite HC. cbn [bind].
      unfold tsub. set (Z := t1 _). assert (SZ : shp Z = [nt]) by (cbn [Z t1 shp]; rewrite map_length; reflexivity).
      destruct (bcast2_21 Rminus C Z 1 nt nt nt SC SZ (bc_same _)) as (D & HD & SD & ED). rewrite HD.
      exists D, [1%nat; nt]. split; [reflexivity|]. split; [auto|]. split; [exact SD|]. intros t Ht. cbn [length Nat.eqb].
      rewrite ED, !bi_lt, EC, !bi_lt, EF by auto. unfold Y, Z. cbn [tnew t1 elt firstn skipn app nth hd]. rewrite !(nth_map_d _ _ _ 0) by auto. reflexivity.
    - destruct (bcast2_10 Rplus F (t0 0) nt SF eq_refl) as (C & HC & SC & EC).
      unfold tadd. rewrite HC. cbn [bind].
      destruct (bcast2_10 Rminus C (t0 0) nt SC eq_refl) as (D & HD & SD & ED). exists D, [nt]. split; [exact HD|]. split; [auto|].
      split; [exact SD|]. intros t Ht. cbn [length Nat.eqb]. rewrite ED, !bi_lt, EC, !bi_lt, EF by auto. cbn [elt t0]. ring.
  Qed.
End Anti.
