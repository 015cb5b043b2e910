(** Antiderivatives with respect to optical depth: the whole call. *)
From Coq Require Import String Reals Lra Lia List Bool Arith ZArith.
From Coquelicot Require Import Coquelicot.
From Verif Require Import Base Tensor Spec M_LinAlg Spec_RTE Calc M_Subroutines M_GenPart M_MathscrV M_Coeffs M_Assemble M_Pydisort
  P_Sub P_GenPart P_GenPart3 P_Tensor P_MathscrV P_Coeffs P_Coeffs2 P_Coeffs3 P_Assemble P_Solve Spec_Sol Spec_Valid P_Valid P_Pydisort P_Pydisort2 P_Pydisort3
  P_Pydisort4 P_Pydisort5 P_Pydisort6 P_Refute P_Error Spec_Anti P_Anti Examples P_Sub3.
Import ListNotations.
Local Open Scope R_scope.

Lemma squeezed_1 A n f : squeezed A [1%nat; n] (fun idx => f (tl idx)) -> squeezed A [n] f.
Proof. intros [H1 H2]. split; [exact H1|]. intros idx Hi. rewrite (H2 idx Hi). reflexivity. Qed.

Section Call.
  Variables (p : py_in) (lg : leggauss_t) (la : linalg) (jk : junk) (out : py_out).
  Hypothesis Hla : linalg_ok la.
  Hypothesis Hlg : leggauss_ok (half p) (lg (half p)).
  Hypothesis Hok : pydisort p lg la jk = Ok out.

  Section One.
  Hypothesis Hone : nlayers p = 1%nat \/ ~ has_source p.

  Theorem call_anti :
    (exists f F, flux_is p (po_flux_up out) false f /\ flux_is p (po_flux_up out) true F /\ antiderivative p F f) /\
    (exists fd fb Fd Fb, down_is p (fun _ => True) (po_flux_down out) false fd fb /\
       down_is p (fun tau => p_I0 p = 0 \/ nlayers p = 1%nat \/ length tau = 1%nat) (po_flux_down out) true Fd Fb /\
       antiderivative p Fd fd /\ antiderivative p Fb fb) /\
    (0 < p_I0 p -> exists f F, u0_is p (po_u0 out) false f /\ u0_is p (po_u0 out) true F /\
       forall i, (i < streams p)%nat -> antiderivative p (F i) (f i)) /\
    (forall u, po_u out = Some u -> ~ nt_applies p -> exists f F, u_is p u false f /\ u_is p u true F /\
       forall i phi, (i < streams p)%nat -> antiderivative p (fun t => F i t phi) (fun t => f i t phi)).
  Proof.
    destruct (pydisort_parts _ _ _ _ _ Hok) as (V & ss & r & sv & Hss & Hr & Hsv & Emu & Eup & Edn & Eu0 & Eu).
    set (a := assemble_args p lg r ss) in *.
    pose proof (a_good p V lg Hlg ss r) as Ha. fold a in Ha.
    assert (Hmu0 : a_beam a = true -> a_mu0 a <> 0).
    { intros Hb. apply Rltb_iff in Hb. pose proof (v_mu0 p V). change (a_mu0 a) with (p_mu0 p). lra. }
    assert (Hiso : a_iso a = true -> a_NLayers a = 1%nat).
    { intros Hi. destruct Hone as [E|E]; [exact E|]. exfalso. apply E, has_iso_iff, Hi. }
    pose proof (HKne p V lg Hlg ss r la Hla jk sv Hsv) as HK. fold a in HK.
    pose proof (streams_eq p V) as Es.
    assert (Hrg : forall tau, depths_ok p tau -> in_range a tau = true) by (intros; apply (range_ok p lg ss r); auto).
    assert (Hd : forall m q l t, (m < a_NFourier a)%nat -> (q < 2 * a_N a)%nat -> (l < nlayers p)%nat -> top_of p l < t < bot_of p l ->
      is_derive (amode a sv m q) t (mode_at a sv m q t)).
    { intros m q l t Hm Hq Hl Ht. apply (amode_der a Ha la jk sv Hla Hsv Hmu0 Hiso m q l t); auto. }
    pose proof (g_NF a Ha) as HNF.
    split; [|split; [|split]].
    - exists (fun t => r * rsum (a_N a) (fun i => 2 * PI * muW a i * mode_at a sv 0 i t)), (fun t => r * rsum (a_N a) (fun i => 2 * PI * muW a i * amode a sv 0 i t)).
      rewrite Eup. split; [|split].
      + intros tau Ht. unfold cl_flux_up, tau_check. rewrite Hrg by auto. cbn [check bind].
        destruct (flux_up_val a sv (g_NL a Ha) (g_len a Ha) HK tau Ht (g_NF a Ha)) as (C & HC & SC & EC). rewrite HC. cbn [bind].
        eexists. split; [reflexivity|]. apply squeezed_scal; [exact SC|]. intros idx Hi. apply inb_1 in Hi as (i & -> & Hi). cbn [nth]. rewrite EC by auto. reflexivity.
      + intros tau Ht. unfold cl_flux_up, tau_check. rewrite Hrg by auto. cbn [check bind].
        destruct (flux_up_anti a Ha la jk sv Hla Hsv Hmu0 Hiso tau Ht) as (C & HC & SC & EC). rewrite HC. cbn [bind].
        eexists. split; [reflexivity|]. apply squeezed_scal; [exact SC|]. intros idx Hi. apply inb_1 in Hi as (i & -> & Hi). cbn [nth]. rewrite EC by auto. reflexivity.
      + intros l t Hl Ht. apply der_scal. apply der_sum. intros i Hi. apply der_scal. apply (Hd 0%nat i l t); auto; lia.
    - exists (fun t => r * (rsum (a_N a) (fun i => 2 * PI * muW a i * mode_at a sv 0 (a_N a + i) t) + dirb_s a t - dirb a t)), (fun t => r * dirb a t),
        (fun t => r * (rsum (a_N a) (fun i => 2 * PI * muW a i * amode a sv 0 (a_N a + i) t) + adirb_s a t - adirb a t)), (fun t => r * adirb a t).
      rewrite Edn. split; [|split; [|split]].
      + intros tau Ht _. unfold cl_flux_down, tau_check. rewrite Hrg by auto. cbn [check bind].
        destruct (flux_down_val a sv (g_NL a Ha) (g_len a Ha) HK tau Ht (g_NF a Ha)) as (C & HC & SC & EC). rewrite HC. cbn [bind].
        eexists _, _. split; [reflexivity|]. split.
        * apply squeezed_scal; [exact SC|]. intros idx Hi. apply inb_1 in Hi as (i & -> & Hi). cbn [nth]. rewrite EC by auto. reflexivity.
        * intros HI. assert (Eb : a_beam a = true) by (apply Rltb_iff, HI). unfold direct_beam, dirb. rewrite Eb.
          apply squeezed_scal; [cbn; rewrite map_length; reflexivity|]. intros idx Hi. apply inb_1 in Hi as (i & -> & Hi). cbn [nth t1 elt hd].
          rewrite (nth_map_d _ tau i 0 0) by auto. reflexivity.
      + intros tau Ht Hm. unfold cl_flux_down, tau_check. rewrite Hrg by auto. cbn [check bind].
        assert (Hm' : a_beam a = true -> a_NLayers a = 1%nat \/ length tau = 1%nat).
        { intros Hb. apply Rltb_iff in Hb. destruct Hm as [H|[H|H]]; [lra|left; exact H|right; exact H]. }
        destruct (flux_down_anti a Ha la jk sv Hla Hsv Hmu0 Hiso tau Ht Hm') as (C & s & HC & Hs & SC & EC). rewrite HC. cbn [bind].
        eexists _, _. split; [reflexivity|]. split.
        * destruct Hs as [-> | ->].
          { apply squeezed_scal; [exact SC|]. intros idx Hi. apply inb_1 in Hi as (i & -> & Hi). cbn [nth]. exact (f_equal (Rmult r) (EC i Hi)). }
          apply squeezed_1. apply squeezed_scal; [exact SC|]. intros idx Hi. apply inb_2 in Hi as (j & i & -> & Hj & Hi). cbn [nth tl].
          assert (j = 0%nat) by lia. subst j. exact (f_equal (Rmult r) (EC i Hi)).
        * intros HI. assert (Eb : a_beam a = true) by (apply Rltb_iff, HI). unfold direct_beam, adirb. rewrite Eb.
          apply squeezed_scal; [cbn; rewrite map_length; reflexivity|]. intros idx Hi. apply inb_1 in Hi as (i & -> & Hi). cbn [nth t1 elt hd].
          rewrite (nth_map_d _ tau i 0 0) by auto. reflexivity.
      + intros l t Hl Ht. apply der_scal. apply der_minus; [apply der_plus|].
        * apply der_sum. intros i Hi. apply der_scal. apply (Hd 0%nat (a_N a + i)%nat l t); auto; lia.
        * apply (adirb_s_der a Ha Hmu0 Hiso l t); auto.
        * apply (adirb_der a Hmu0 t).
      + intros l t Hl Ht. apply der_scal. apply (adirb_der a Hmu0 t).
    - intros HI. assert (Eb : a_beam a = true) by (apply Rltb_iff, HI).
      exists (fun i t => r * mode_at a sv 0 i t), (fun i t => r * amode a sv 0 i t). rewrite Eu0. split; [|split].
      + intros tau Ht. unfold cl_u0, tau_check. rewrite Hrg by auto. cbn [check bind].
        destruct (u0_all_val a sv (g_NL a Ha) (g_len a Ha) HK tau Ht) as (C & HC & SC & EC). rewrite HC. cbn [bind].
        eexists. split; [reflexivity|]. apply squeezed_scal; [rewrite SC, Es; reflexivity|]. intros idx Hi.
        apply inb_2 in Hi as (i & j & -> & Hi & Hj). cbn [nth]. rewrite EC; auto. rewrite Es in Hi. exact Hi.
      + intros tau Ht. unfold cl_u0, tau_check. rewrite Hrg by auto. cbn [check bind].
        destruct (u0_anti_val a Ha la jk sv Hla Hsv Hiso tau Ht Eb) as (C & HC & SC & EC). rewrite HC. cbn [bind].
        eexists. split; [reflexivity|]. apply squeezed_scal; [rewrite SC, Es; reflexivity|]. intros idx Hi.
        apply inb_2 in Hi as (i & j & -> & Hi & Hj). cbn [nth]. rewrite EC; auto. rewrite Es in Hi. exact Hi.
      + intros i Hi l t Hl Ht. apply der_scal. apply (Hd 0%nat i l t); auto. rewrite Es in Hi. exact Hi.
    - intros u Hu HN. rewrite Eu in Hu. destruct (p_only_flux p); [discriminate|]. injection Hu as <-.
      destruct (NT_active p) eqn:En; [exfalso; apply HN, NT_iff, En|].
      exists (fun i t phi => r * rsum (a_NFourier a) (fun m => mode_at a sv m i t * azimuth a m phi)), (fun i t phi => r * rsum (a_NFourier a) (fun m => amode a sv m i t * azimuth a m phi)).
      split; [|split].
      + intros tau phi Ht. unfold cl_u, tau_check. rewrite Hrg by auto. cbn [check bind].
        destruct (um_all_val a sv (g_NL a Ha) (g_len a Ha) HK tau Ht (g_NF a Ha)) as (C & HC & SC & EC). rewrite HC. cbn [bind].
        eexists. split; [reflexivity|]. apply squeezed_scal; [unfold u_full; cbn [shp]; rewrite SC, Es; reflexivity|]. intros idx Hi.
        apply inb_3 in Hi as (i & j & h & -> & Hi & Hj & Hh). unfold u_full. cbn [elt nth]. f_equal. apply rsum_ext. intros m Hm.
        rewrite EC; auto. rewrite Es in Hi. exact Hi.
      + intros tau phi Ht. unfold cl_u, tau_check. rewrite Hrg by auto. cbn [check bind].
        destruct (um_anti_val a Ha la jk sv Hla Hsv Hiso tau Ht) as (C & HC & SC & EC). rewrite HC. cbn [bind].
        eexists. split; [reflexivity|]. apply squeezed_scal; [unfold u_full; cbn [shp]; rewrite SC, Es; reflexivity|]. intros idx Hi.
        apply inb_3 in Hi as (i & j & h & -> & Hi & Hj & Hh). unfold u_full. cbn [elt nth]. f_equal. apply rsum_ext. intros m Hm.
        rewrite EC; auto. rewrite Es in Hi. exact Hi.
      + intros i phi Hi l t Hl Ht. apply der_scal. apply der_sum. intros m Hm. apply der_scal_r. apply (Hd m i l t); auto. rewrite Es in Hi. exact Hi.
  Qed.
  End One.

  (** With a beam and several layers the flagged downward flux is an error unless the number of
      depths is 1 or the number of layers. *)
  Theorem down_anti_err tau rt : 0 < p_I0 p -> ~ has_source p -> (2 <= nlayers p)%nat -> (2 <= length tau)%nat -> length tau <> nlayers p -> depths_ok p tau ->
    po_flux_down out tau true rt = Err EShape.
  Proof.
    intros HI Hs HL Hn Hne Ht.
    destruct (pydisort_parts _ _ _ _ _ Hok) as (V & ss & r & sv & Hss & Hr & Hsv & Emu & Eup & Edn & Eu0 & Eu).
    rewrite Edn. unfold cl_flux_down, tau_check. rewrite (range_ok p lg ss r) by auto. cbn [check bind].
    unfold flux_down_arr. set (a := assemble_args p lg r ss).
    assert (Ei : a_iso a = false) by (apply not_true_is_false; intros E; apply Hs, has_iso_iff, E). rewrite Ei. cbn [bind].
    assert (Eb : a_beam a = true) by (apply Rltb_iff, HI). rewrite Eb.
    assert (ED : down_beam_anti a sv tau = Err EShape); [|rewrite ED; reflexivity].
    unfold down_beam_anti, tdiv.
    rewrite (bcast2_2_err Rdiv _ _ (a_N a) 1 (nlayers p) (length tau)); auto; try lia.
    cbn [tnew t1 shp firstn skipn app]. unfold layers. rewrite !map_length. reflexivity.
  Qed.

  (** With an isotropic source of at most two coefficients per layer and several layers every
      flagged function is an error unless the number of depths is 1 or the number of layers. *)
  Theorem iso_anti_err tau rt : has_source p -> (ncol (p_s p) <= 2)%nat -> (2 <= nlayers p)%nat -> (2 <= length tau)%nat -> length tau <> nlayers p -> depths_ok p tau ->
    po_flux_up out tau true rt = Err EShape /\ po_flux_down out tau true rt = Err EShape /\ po_u0 out tau true rt false = Err EShape /\
    (forall u phi e, po_u out = Some u -> ~ nt_applies p -> u tau phi true e rt = Err EShape).
  Proof.
    intros Hs Hc HL Hn Hne Ht.
    destruct (pydisort_parts _ _ _ _ _ Hok) as (V & ss & r & sv & Hss & Hr & Hsv & Emu & Eup & Edn & Eu0 & Eu).
    set (a := assemble_args p lg r ss) in *. pose proof (a_good p V lg Hlg ss r) as Ha. fold a in Ha.
    assert (Ei : a_iso a = true) by (apply has_iso_iff, Hs).
    assert (HE : forall r0 nr, iso_part a sv true r0 nr tau = Err EShape).
    { intros r0 nr. unfold iso_part.
      assert (HLt : forall i, In i (layers a tau) -> (i < a_NLayers a)%nat) by (intros i; apply (layers_lt a (g_NL a Ha) (g_len a Ha) tau Ht)).
      assert (Lst : length (scaled_taus a tau) = length tau) by (unfold scaled_taus; rewrite map_length; reflexivity).
      assert (Lsc : length (vlist (a_NLayers a) (a_scale a)) = nlayers p) by (unfold vlist; rewrite map_length, seq_length; reflexivity).
      apply mathscr_v_anti_err.
      - rewrite uniq_inv_len. unfold layers, scaled_taus. rewrite !map_length. reflexivity.
      - intros i. apply uniq_inv_lt. exact HLt.
      - change (a_Ns a) with (e_Ns p). unfold e_Ns. destruct (forall2b _ _ _) eqn:E.
        + exfalso. destruct Hs as (i & j & Hi & Hj & Hne'). apply Hne'. unfold forall2b in E. rewrite forallb_forall in E.
          specialize (E i). rewrite forallb_forall in E. apply Reqb_iff, E; apply in_seq; lia.
        + destruct Hs as (i & j & Hi & Hj & _). lia.
      - rewrite Lsc. exact HL.
      - rewrite Lst. exact Hn.
      - rewrite Lst, Lsc. exact Hne. }
    assert (Hrg : in_range a tau = true) by (apply (range_ok p lg ss r); auto).
    rewrite Eup, Edn, Eu0. unfold cl_flux_up, cl_flux_down, cl_u0, tau_check. rewrite Hrg. cbn [check bind].
    unfold flux_up_arr, flux_down_arr, u0_all. rewrite Ei. rewrite !HE. repeat (split; [reflexivity|]).
    intros u phi e Hu HN. rewrite Eu in Hu. destruct (p_only_flux p); [discriminate|]. injection Hu as <-.
    destruct (NT_active p) eqn:En; [exfalso; apply HN, NT_iff, En|].
    unfold cl_u, tau_check, um_all. rewrite Hrg, Ei. cbn [check bind]. rewrite HE. reflexivity.
  Qed.

  (** Without a beam and without an isotropic source the flag of u0 has no effect. *)
  Theorem u0_anti_ignored tau rt : p_I0 p = 0 -> ~ has_source p -> po_u0 out tau true rt false = po_u0 out tau false rt false.
  Proof.
    intros HI Hs.
    destruct (pydisort_parts _ _ _ _ _ Hok) as (V & ss & r & sv & Hss & Hr & Hsv & Emu & Eup & Edn & Eu0 & Eu).
    rewrite Eu0. unfold cl_u0. destruct (tau_check _ _) as [[]|]; [|reflexivity]. cbn [bind].
    set (a := assemble_args p lg r ss).
    assert (Ei : a_iso a = false) by (apply not_true_is_false; intros E; apply Hs, has_iso_iff, E).
    assert (Eb : a_beam a = false) by (apply Rltb_false; rewrite HI; lra).
    unfold u0_all, u0_core. rewrite Ei, Eb. reflexivity.
  Qed.
End Call.

(** ** Wrong values *)
Lemma u0_is_ext p g an f F : u0_is p g an f -> u0_is p g an F -> forall i t, (i < streams p)%nat -> 0 <= t <= bottom p -> f i t = F i t.
Proof.
  intros H1 H2 i t Hi Ht. assert (Hd : depths_ok p [t]) by (intros x [<-|[]]; auto).
  destruct (H1 [t] Hd) as (A & EA & SA). destruct (H2 [t] Hd) as (B & EB & SB). rewrite EA in EB. injection EB as <-.
  apply (squeezed_inj _ _ _ _ SA SB [i; 0%nat]). cbn [inb]. repeat split; auto; lia.
Qed.
Theorem u0_anti_wrong jk : exists out, pydisort p_dif lg_12 la_id jk = Ok out /\
  forall f F, u0_is p_dif (po_u0 out) false f -> u0_is p_dif (po_u0 out) true F -> ~ antiderivative p_dif (F 1%nat) (f 1%nat).
Proof.
  destruct (p_dif_ok jk) as (out & H). exists out. split; [exact H|]. intros f F Hf HF HA.
  assert (HF' : u0_is p_dif (po_u0 out) false F).
  { intros tau Ht. destruct (HF tau Ht) as (A & EA & SA). exists A. split; [|exact SA]. rewrite <- EA. symmetry.
    apply (u0_anti_ignored p_dif lg_12 la_id jk out H tau false eq_refl p_dif_nosource). }
  destruct (solution_exists p_dif lg_12 la_id jk out la_id_ok leggauss1_ok H) as (w & U & Fl & Hw & HU & HUF & Hode & Htop & _).
  assert (E : forall t, 0 <= t <= 1 -> f 1%nat t = U 0%nat 1%nat t /\ F 1%nat t = U 0%nat 1%nat t).
  { intros t Ht. assert (HU0 : u0_is p_dif (po_u0 out) false (U 0%nat)) by (intros tau Hd; apply (proj1 HU tau Hd)).
    assert (Hs : (1 < streams p_dif)%nat) by (cbn; lia). assert (Hb : 0 <= t <= bottom p_dif) by exact Ht.
    split; [exact (u0_is_ext _ _ _ _ _ Hf HU0 1%nat t Hs Hb)|exact (u0_is_ext _ _ _ _ _ HF' HU0 1%nat t Hs Hb)]. }
  assert (H1 : U 0%nat 1%nat 0 = 1).
  { assert (Ht : top_condition p_dif U) by (apply Htop; right; exact p_dif_source).
    apply (Ht (fun _ => 1)) with (m := 0%nat) (i := 0%nat); [apply bc_scal; reflexivity|cbn; lia|cbn; lia]. }
  assert (H0 : forall t, 0 < t < 1 -> U 0%nat 1%nat t = 0).
  { intros t Ht. assert (Hin : top_of p_dif 0 < t < bot_of p_dif 0) by (cbn; lra).
    pose proof (HA 0%nat t (Nat.lt_0_succ _) Hin) as D1.
    destruct (cutoff_ex (albedo_s p_dif 0) (wphase_s p_dif 0) (ncoeffs p_dif) 0) as (wg & Hwg).
    pose proof (Hode 0%nat 0%nat 1%nat wg t ltac:(cbn; lia) ltac:(cbn; lia) ltac:(cbn; lia) Hwg) as D2.
    assert (D3 : is_derive (F 1%nat) t (rte p_dif (po_mu out) w wg 0 0 1 t (fun j => Fl 0%nat 0%nat j t) / nth 1 (po_mu out) 0)).
    { refine (der_ext_loc _ _ t _ 0 1 Ht _ D2). intros y Hy. symmetry. rewrite (proj2 (E y ltac:(lra))).
      apply HUF; cbn; try lia; lra. }
    pose proof (is_derive_unique _ _ _ D1) as U1. pose proof (is_derive_unique _ _ _ D3) as U3. rewrite U1 in U3. clear D1 D2 D3 U1.
    rewrite (proj1 (E t ltac:(lra))) in U3.
    assert (Hnu : nth 1 (po_mu out) 0 < 0).
    { destruct Hw as (_ & Hn & _). specialize (Hn 0%nat ltac:(cbn; lia)). change (half p_dif + 0)%nat with 1%nat in Hn. lra. }
    unfold rte in U3. rewrite (rsum_0 (streams p_dif)) in U3.
    2:{ intros j Hj. unfold D_spec, albedo_s, albedo. cbn [p_dif p_abs p_omega nth]. unfold Rdiv. ring. }
    unfold X_spec, source, scl, albedo in U3. cbn [p_dif p_abs p_omega p_I0 p_s p_tau nrow ncol nth Nat.eqb Nat.ltb Nat.leb length rsum fwd] in U3.
    rewrite <- (HUF 0%nat 0%nat 1%nat t) in U3 by (cbn; try lia; lra).
    set (x := U 0%nat 1%nat t) in *. set (nu := nth 1 (po_mu out) 0) in *.
    assert (x * nu = x). { rewrite U3 at 1. unfold Rdiv. field. pose proof PI_RGT_0. split; lra. }
    nra. }
  assert (Hs : seen p_dif 0) by (split; [cbn; lia|auto]).
  destruct (call_continuous p_dif lg_12 la_id jk out la_id_ok leggauss1_ok H U HU 0%nat 1%nat Hs ltac:(cbn; lia) 0 ltac:(cbn; lra) 1 ltac:(lra)) as (d & Hd & Hc).
  specialize (Hc (Rmin (d / 2) (1 / 2))). pose proof (Rmin_l (d / 2) (1 / 2)). pose proof (Rmin_r (d / 2) (1 / 2)).
  assert (0 < Rmin (d / 2) (1 / 2)) by (apply Rmin_pos; lra).
  rewrite H1, H0 in Hc by lra. assert (Hb : 0 <= Rmin (d / 2) (1 / 2) <= bottom p_dif) by (cbn; lra).
  specialize (Hc Hb). rewrite Rminus_0_r, Rabs_pos_eq in Hc by lra. specialize (Hc ltac:(lra)).
  replace (0 - 1) with (- (1)) in Hc by ring. rewrite Rabs_Ropp, Rabs_R1 in Hc. lra.
Qed.
(** Two layers with a beam, and two layers with a constant isotropic source. *)
Definition p_iso2 : py_in := p_abs [1; 2] [0; 0] [0; 0] 1 1 0 0 [1] false.
Lemma p_iso2_ok jk : exists out, pydisort p_iso2 lg_12 la_id jk = Ok out.
Proof.
  apply abs_ok; cbn; try lra; try lia; auto.
  - intros [|[|l]] Hl; cbn; [lra|lra|lia].
  - split; auto. intros w [<-|[<-|[]]]; lra.
  - split; auto. intros w [<-|[<-|[]]]; lra.
  - intros [|[|l]] Hl; [left; reflexivity|left; reflexivity|lia].
Qed.
Lemma p_iso2_source : has_source p_iso2.
Proof. exists 0%nat, 0%nat. cbn. repeat split; try lia. lra. Qed.
Lemma p_two_nosource : ~ has_source p_two.
Proof. intros (i & j & _ & Hj & _). cbn in Hj. lia. Qed.
