(** Interpolation of the functions pydisort returns: final statements and an example. *)
From Coq Require Import String Reals Lra Lia List Bool Arith ZArith Classical.
From Coquelicot Require Import Coquelicot.
From Verif Require Import Base Tensor M_Subroutines M_LinAlg M_Assemble M_Pydisort M_Interp Spec Spec_RTE Spec_Sol Spec_Valid Spec_Interp Spec_Calls
  P_Quad P_Sub P_Sub2 P_Sub3 P_Teq P_Same P_Interp P_Interp2 P_Interp3 P_Valid P_Pydisort2 P_Pydisort3 P_Pydisort4 P_Pydisort8 P_Whole P_Refute P_Error Examples P_Solve Calc.
Import ListNotations.
Local Open Scope R_scope.

(** ** What an interpolant is *)
Lemma interpolant_nodes n nodes w mu A F : double_gauss n nodes w -> interpolant n nodes mu A F ->
  forall k idx i, (k < length mu)%nat -> inb (tl (shp A)) idx -> (i < 2 * n)%nat -> nth k mu 0 = nth i nodes 0 -> F (k :: idx) = elt A (i :: idx).
Proof.
  intros (_ & G & _) HI k idx i Hk Hi Hin E. destruct (HI idx Hi) as (P & Q & _ & _ & HV & HF). rewrite HF by auto. rewrite E.
  destruct (Nat.lt_ge_cases i n) as [H|H].
  - destruct (G i H) as ([G1 _] & _ & _). destruct (Rlt_dec 0 (nth i nodes 0)); [|lra]. apply (HV i H).
  - destruct (G (i - n)%nat ltac:(lia)) as ([G1 _] & G2 & _). replace (n + (i - n))%nat with i in G2 by lia.
    destruct (Rlt_dec 0 (nth i nodes 0)); [lra|]. destruct (HV (i - n)%nat ltac:(lia)) as [_ H2]. replace (n + (i - n))%nat with i in H2 by lia. exact H2.
Qed.
Lemma nth_firstn_lt (l : list R) d : forall n i, (i < n)%nat -> nth i (firstn n l) d = nth i l d.
Proof. induction l; intros [|n] [|i] H; cbn; auto; try lia. apply IHl. lia. Qed.
Lemma nth_skipn (l : list R) d : forall n i, nth i (skipn n l) d = nth (n + i) l d.
Proof. induction l; intros [|n] i; cbn; auto. destruct i; auto. Qed.
Lemma poly_agree (nodes : list R) n P Q : (length P <= n)%nat -> (length Q <= n)%nat -> (length nodes = n)%nat -> distinct nodes ->
  (forall i, (i < n)%nat -> peval P (nth i nodes 0) = peval Q (nth i nodes 0)) -> forall x, peval P x = peval Q x.
Proof.
  intros LP LQ LN D H x. rewrite <- (barycentric_exact nodes (fun i => peval P (nth i nodes 0)) P); auto; try lia.
  apply (barycentric_exact nodes (fun i => peval P (nth i nodes 0)) Q); auto; try lia. intros. apply H. lia.
Qed.
Lemma interpolant_poly n nodes w mu A F : double_gauss n nodes w -> interpolant n nodes mu A F ->
  forall k idx (pu pd : list R), (k < length mu)%nat -> inb (tl (shp A)) idx -> (length pu <= n)%nat -> (length pd <= n)%nat ->
  (forall i, (i < n)%nat -> elt A (i :: idx) = peval pu (nth i nodes 0) /\ elt A ((n + i)%nat :: idx) = peval pd (nth (n + i) nodes 0)) ->
  F (k :: idx) = if Rlt_dec 0 (nth k mu 0) then peval pu (nth k mu 0) else peval pd (nth k mu 0).
Proof.
  intros (L & G & D & _) HI k idx pu pd Hk Hi Lu Ld HA. destruct (HI idx Hi) as (P & Q & LP & LQ & HV & HF). rewrite HF by auto.
  assert (D1 : distinct (firstn n nodes) /\ distinct (skipn n nodes)).
  { split; intros i j Hii Hjj Hij.
    - rewrite firstn_length in Hii, Hjj. rewrite !nth_firstn_lt by lia. apply D; lia.
    - rewrite skipn_length in Hii, Hjj. rewrite !nth_skipn. apply D; lia. }
  destruct (Rlt_dec 0 (nth k mu 0)).
  - apply (poly_agree (firstn n nodes) n); auto; [rewrite firstn_length; lia|apply D1|]. intros i Hii. rewrite nth_firstn_lt by lia.
    rewrite (proj1 (HV i Hii)). apply (HA i Hii).
  - apply (poly_agree (skipn n nodes) n); auto; [rewrite skipn_length; lia|apply D1|]. intros i Hii. rewrite nth_skipn.
    rewrite (proj2 (HV i Hii)). apply (HA i Hii).
Qed.

Section Api.
  Variable p : py_in.
  Variable lg : leggauss_t.
  Variable la : linalg.
  Variable jk : junk.
  Variable out : py_out.
  Hypothesis Hla : linalg_ok la.
  Hypothesis Hlg : leggauss_ok (half p) (lg (half p)).
  Hypothesis Hok : pydisort p lg la jk = Ok out.

  Theorem interpolate_u0 : exists it, interpolate lg (FU0 (po_u0 out)) = Ok it.
  Proof.
    destruct (modes_exist p lg la jk out Hla Hlg Hok) as (U & H0 & _).
    destruct (H0 [0]) as (A & HA & _). { intros t [<-|[]]. pose proof (bottom_nonneg p lg la jk out Hok). lra. }
    unfold interpolate, call00. rewrite HA. cbn [bind].
    destruct (fn0_outputs p lg la jk out Hok _ _ _ _ _ HA) as (B & s & rest & SB & E & ->). cbn in E. injection E as ->. cbn [py_len]. rewrite SB. cbn [bind]. eauto.
  Qed.
  Theorem interpolate_u u : po_u out = Some u -> ~ nt_applies p -> exists it, interpolate lg (FU u) = Ok it.
  Proof.
    intros Hu Hn. destruct (modes_exist p lg la jk out Hla Hlg Hok) as (U & _ & H0).
    destruct (H0 u Hu Hn [0] [0]) as (A & HA & _). { intros t [<-|[]]. pose proof (bottom_nonneg p lg la jk out Hok). lra. }
    unfold interpolate, call00. rewrite HA. cbn [bind].
    destruct (fn_outputs p lg la jk out Hok u _ _ _ _ _ _ Hu HA) as (B & s & SB & E). cbn in E. injection E as ->. cbn [py_len]. rewrite SB. cbn [bind]. eauto.
  Qed.

  Variable f : pyfun.
  Variable it : interp.
  Hypothesis Hf : returned out f.
  Hypothesis Hit : interpolate lg f = Ok it.

  Theorem plain_value o mu tau phi anti j A : cosines_ok mu -> plain f tau phi anti = Ok (PVal (PT A)) ->
    exists B F, snd (i_call it o (mkIA mu tau phi anti false false) j) = Ok (PVal (PT B)) /\ squeezed B (length mu :: tl (shp A)) F /\
      interpolant (half p) (po_mu out) mu A F.
  Proof.
    intros Hm HA. apply (call_value p lg la jk out Hlg Hok f it Hf Hit o (mkIA mu tau phi anti false false) j A []); auto.
    unfold fetch. cbn. destruct Hf as [->|(u & _ & ->)]; cbn in HA; rewrite HA; reflexivity.
  Qed.
  Theorem plain_error o mu tau phi anti j e : cosines_ok mu -> plain f tau phi anti = Err e ->
    snd (i_call it o (mkIA mu tau phi anti false false) j) = Err e.
  Proof.
    intros Hm HA. apply (call_error p lg la jk out Hok f it Hf Hit); auto. unfold fetch. cbn. destruct Hf as [->|(u & _ & ->)]; cbn in HA; rewrite HA; reflexivity.
  Qed.
  (** Outputs asked for by the flags. *)
  Theorem flags_u u o mu tau phi anti e t j r : f = FU u -> po_u out = Some u -> cosines_ok mu -> u tau phi anti e t = Ok r ->
    exists r' A B F, snd (i_call it o (mkIA mu tau phi anti e t) j) = Ok r' /\ first_replaced r r' A B /\
      squeezed B (length mu :: tl (shp A)) F /\ interpolant (half p) (po_mu out) mu A F /\
      (t = true -> exists vs, r' = PTup vs /\ last vs (PR 0) = PA (p_tau p)).
  Proof.
    intros -> Hu Hm Hr. destruct (fn_outputs p lg la jk out Hok u _ _ _ _ _ _ Hu Hr) as (A & s & SA & Er).
    set (ex := (if e then _ else []) ++ _) in Er.
    assert (HF : fetch (FU u) (mkIA mu tau phi anti e t) = Ok (A, ex)).
    { unfold fetch, flagged. cbn [ia_err ia_ret ia_tau ia_phi ia_anti]. destruct (e || t)%bool eqn:EF.
      - rewrite Hr. cbn [bind]. rewrite Er. reflexivity.
      - apply orb_false_elim in EF as [-> ->]. rewrite Hr. cbn [bind]. rewrite Er. reflexivity. }
    destruct (call_value p lg la jk out Hlg Hok (FU u) it Hf Hit o (mkIA mu tau phi anti e t) j A ex Hm HF) as (B & F & E1 & E2 & E3).
    eexists _, A, B, F. split; [exact E1|]. split; [|split; [exact E2|split; [exact E3|]]].
    - unfold flagged. cbn [ia_err ia_ret]. rewrite Er. destruct (e || t)%bool; [right; exists ex; split; reflexivity|left; split; reflexivity].
    - intros ->. unfold flagged. cbn [ia_err ia_ret]. rewrite orb_true_r. eexists. split; [reflexivity|]. unfold ex. rewrite app_comm_cons, last_last. reflexivity.
  Qed.
  Theorem flags_u0 o mu tau phi anti e t j r : f = FU0 (po_u0 out) -> cosines_ok mu -> po_u0 out tau anti e t = Ok r ->
    exists r' A B F, snd (i_call it o (mkIA mu tau phi anti e t) j) = Ok r' /\ first_replaced r r' A B /\
      squeezed B (length mu :: tl (shp A)) F /\ interpolant (half p) (po_mu out) mu A F.
  Proof.
    intros -> Hm Hr. destruct (fn0_outputs p lg la jk out Hok _ _ _ _ _ Hr) as (A & s & rest & SA & Er & HX).
    set (ex := (if e then _ else []) ++ _) in Er.
    assert (HF : fetch (FU0 (po_u0 out)) (mkIA mu tau phi anti e t) = Ok (A, ex)).
    { unfold fetch, flagged. cbn [ia_err ia_ret ia_tau ia_phi ia_anti]. destruct (e || t)%bool eqn:EF.
      - rewrite Hr. cbn [bind]. rewrite Er. reflexivity.
      - apply orb_false_elim in EF as [-> ->]. rewrite Hr. cbn [bind]. rewrite Er. unfold ex. rewrite HX. reflexivity. }
    destruct (call_value p lg la jk out Hlg Hok (FU0 (po_u0 out)) it Hf Hit o (mkIA mu tau phi anti e t) j A ex Hm HF) as (B & F & E1 & E2 & E3).
    eexists _, A, B, F. split; [exact E1|]. split; [|split; [exact E2|exact E3]].
    unfold flagged. cbn [ia_err ia_ret]. rewrite Er. destruct (e || t)%bool; [right; exists ex; split; reflexivity|left; split; reflexivity].
  Qed.
  (** The flag return_tau_arr of an interpolated [u0] never gives tau_arr without delta-M scaling. *)
  Theorem flags_u0_wrong o mu tau phi j : f = FU0 (po_u0 out) -> cosines_ok mu -> depths_ok p tau -> (forall l, (l < nlayers p)%nat -> scl p l = 1) ->
    exists B D, snd (i_call it o (mkIA mu tau phi false false true) j) = Ok (PTup [PT B; PT D]) /\ shp D = [] /\ elt D [] = 0.
  Proof.
    intros Ef Hm Hd Hs. destruct (modes_exist p lg la jk out Hla Hlg Hok) as (U & H0 & _). destruct (H0 tau Hd) as (A & HA & _).
    destruct (pydisort_parts _ _ _ _ _ Hok) as (V & ss & r0 & sv & _ & _ & Hsv & _ & _ & _ & E0 & _).
    set (a := assemble_args p lg r0 ss) in *.
    assert (HA' : po_u0 out tau false false true = Ok (PTup [PT A; PT (t0 0)])).
    { rewrite E0 in HA |- *. unfold cl_u0 in *. destruct (tau_check a tau) as [[]|]; cbn [bind] in *; [|discriminate].
      assert (AS : any_scaled a = false).
      { apply not_true_is_false. intros E. unfold any_scaled in E. apply existsb_exists in E as (l & Hl & Hx). apply in_seq in Hl.
        change (a_NLayers a) with (nlayers p) in Hl. assert (Ex : a_scale a l = 1); [|rewrite Ex in Hx; unfold Reqb in Hx; destruct (Req_EM_T 1 1); [discriminate|lra]].
        change (a_scale a l) with (scale_tau p l). rewrite <- (Hs l ltac:(lia)). unfold scale_tau, scl, albedo, fwd, omega_at, f_at.
        destruct (delta_M p) eqn:ED; auto. unfold delta_M in ED.
        assert (F0 : nth l (p_f p) 0 = 0); [|rewrite F0; ring].
        destruct (Nat.lt_ge_cases l (length (p_f p))) as [Hlt|Hge]; [|apply nth_overflow; auto].
        pose proof (v_f p V (nth l (p_f p) 0) (nth_In _ _ Hlt)) as B1. assert (B2 : ~ 0 < nth l (p_f p) 0); [|lra].
        intros B2. assert (existsb (fun f => Rltb 0 f) (p_f p) = true); [|congruence]. apply existsb_exists. exists (nth l (p_f p) 0). split; [apply nth_In; auto|apply Rltb_t; auto]. }
      unfold act_reclass. rewrite AS. cbn [bind app orb ret hd] in HA |- *.
      destruct (u0_all a sv false tau) as [x|]; cbn [bind] in HA |- *; [|discriminate]. cbn in HA. injection HA as <-. reflexivity. }
    destruct (flags_u0 o mu tau phi false false true j _ Ef Hm HA') as (r' & A1 & B & F & E1 & [[X _]|(rest & X & Y)] & _ & _); [discriminate|].
    injection X as -> <-. exists B, (t0 0). rewrite E1, Y. repeat split.
  Qed.
  Theorem history o o' hist c j j' : same_ret (snd (i_call it (fst (i_calls it o hist)) c j)) (snd (i_call it o' c j')).
  Proof.
    pose proof (call_alone it (it_len p lg la jk out Hlg Hok f it Hf Hit) (it_rows p lg la jk out Hok f it Hf Hit)) as CA.
    eapply same_ret_trans; [apply CA|apply same_ret_sym, CA].
  Qed.
  Theorem no_conflict o calls sched i c j r : let w := (o, map (fun cj => TStart (fst cj) (snd cj)) calls) in
    exclusive it sched w -> nth_error calls i = Some (c, j) -> nth_error (snd (wrun it sched w)) i = Some (TDone r) -> same_ret r (alone it c).
  Proof.
    intros w HE Hc Hr.
    destruct (exclusive_alone it (it_len p lg la jk out Hlg Hok f it Hf Hit) (it_rows p lg la jk out Hok f it Hf Hit) sched w (map fst calls) HE) with (i := i) (t := TDone r) as (c' & E & T); auto.
    - intros k t Ht. unfold w in Ht. cbn [snd] in Ht. rewrite nth_error_map in Ht. destruct (nth_error calls k) as [[c' j']|] eqn:Ek; [|discriminate]. cbn in Ht. injection Ht as <-.
      exists c'. rewrite nth_error_map, Ek. split; reflexivity.
    - rewrite nth_error_map, Hc in E. cbn in E. injection E as <-. exact T.
  Qed.
  Theorem in_turn o mu tau tau' phi phi' anti j j' A A' : cosines_ok mu ->
    plain f tau phi anti = Ok (PVal (PT A)) -> plain f tau' phi' anti = Ok (PVal (PT A')) -> shp A = shp A' ->
    let c := mkIA mu tau phi anti false false in let c' := mkIA mu tau' phi' anti false false in
    exists r r', snd (wrun it (alternating 5) (o, [TStart c j; TStart c' j'])) = [TDone r; TDone r'] /\
      same_ret r (alone it c') /\ same_ret r' (alone it c').
  Proof.
    intros Hm HA HA' HS c c'.
    pose proof (it_len p lg la jk out Hlg Hok f it Hf Hit) as HL. pose proof (it_rows p lg la jk out Hok f it Hf Hit) as HR.
    assert (Ef : in_fun it = f) by (rewrite (it_eq p lg la jk out Hok f it Hf Hit); reflexivity).
    assert (F0 : fetch (in_fun it) c = Ok (A, [])). { rewrite Ef. unfold fetch. cbn. destruct Hf as [->|(u & _ & ->)]; cbn in HA; rewrite HA; reflexivity. }
    assert (F1 : fetch (in_fun it) c' = Ok (A', [])). { rewrite Ef. unfold fetch. cbn. destruct Hf as [->|(u & _ & ->)]; cbn in HA'; rewrite HA'; reflexivity. }
    destruct (HR c A [] F0) as (s & S0). pose proof S0 as S1. rewrite HS in S1.
    destruct (turns it HL c c' A A' s [] [] eq_refl Hm F0 F1 S0 S1 o j j') as (o' & r & r' & E & R & R').
    exists r, r'. rewrite E. split; [reflexivity|].
    assert (AL : final it c' [] s A' A' (alone it c')) by apply (call_final it HL c' A' [] s Hm F1 S1).
    split; [|apply (final_same it c' [] s A' A'); auto].
    apply (final_same it c' [] s A' A'); auto.
  Qed.
End Api.

(** ** An example of interference: diffuse light from above into an absorbing layer. *)
Lemma dif_differs jk out : pydisort p_dif lg_12 la_id jk = Ok out -> forall U, modes_of p_dif out U ->
  exists t, 0 < t < 1 /\ U 0%nat 1%nat t <> U 0%nat 1%nat 0.
Proof.
  intros H U HU. destruct (classic (exists t, 0 < t < 1 /\ U 0%nat 1%nat t <> U 0%nat 1%nat 0)) as [|N]; auto. exfalso.
  assert (E : forall t, 0 < t < 1 -> U 0%nat 1%nat t = U 0%nat 1%nat 0) by (intros t Ht; apply NNPP; intros X; apply N; eauto).
  assert (Hlg : leggauss_ok (half p_dif) (lg_12 (half p_dif))) by exact leggauss1_ok.
  assert (HB : bc_values (p_bneg p_dif) (half p_dif) (fun _ => 1)) by (apply bc_scal; reflexivity).
  pose proof (call_top p_dif lg_12 la_id jk out la_id_ok Hlg H U HU (fun _ => 1) (or_intror p_dif_source) HB 0%nat 0%nat) as HT.
  assert (S0 : seen p_dif 0) by (split; [cbn; lia|left; reflexivity]).
  specialize (HT S0 ltac:(cbn; lia)). change (half p_dif + 0)%nat with 1%nat in HT. cbn [Nat.eqb] in HT.
  destruct (call_rte p_dif lg_12 la_id jk out la_id_ok Hlg H U HU) as (w & (_ & G & _) & HD).
  destruct (P_Solve.cutoff_ex (albedo_s p_dif 0) (wphase_s p_dif 0) (ncoeffs p_dif) 0) as (wg & Hc).
  specialize (HD 0%nat 0%nat 1%nat wg (1 / 2) S0 ltac:(cbn; lia) ltac:(cbn; lia)). cbn [top_of bot_of p_dif p_abs p_tau nth] in HD. specialize (HD ltac:(lra) Hc).
  assert (D0 : is_derive (U 0%nat 1%nat) (1 / 2) 0).
  { apply (der_ext_loc (fun _ => 1) _ (1 / 2) 0 0 1); [lra|intros y Hy; rewrite E, HT by lra; reflexivity|apply der_const]. }
  pose proof (eq_trans (eq_sym (is_derive_unique _ _ _ HD)) (is_derive_unique _ _ _ D0)) as Z.
  destruct (G 0%nat ltac:(cbn; lia)) as ([G1 _] & G2 & _). change (half p_dif + 0)%nat with 1%nat in G2.
  assert (Al : albedo_s p_dif 0 = 0) by (unfold albedo_s, scl, albedo, fwd; cbn; field).
  unfold rte in Z. rewrite Al in Z. rewrite E, HT in Z by lra.
  rewrite (rsum_0 (streams p_dif)) in Z by (intros; unfold D_spec; lra). unfold X_spec in Z.
  assert (Sc : scl p_dif 0 = 1) by (unfold scl, albedo, fwd; cbn; ring). rewrite Sc in Z.
  assert (So : source p_dif 0 (1 / 2) = 0) by reflexivity. cbn [Nat.eqb] in Z. rewrite So in Z.
  rewrite G2 in Z. rewrite Rmult_0_r, !Rmult_0_l in Z. set (m := nth 0 (po_mu out) 0) in *.
  assert (Z' : 1 / - m * - m = 1) by (field; lra). rewrite !Rmult_0_r, !Rminus_0_r, !Rmult_1_r in Z. rewrite Z in Z'. lra.
Qed.
Theorem race_example : exists p lg la, linalg_ok la /\ leggauss_ok (half p) (lg (half p)) /\ forall jk, exists out it c c',
  pydisort p lg la jk = Ok out /\ interpolate lg (FU0 (po_u0 out)) = Ok it /\
  forall o j j', exists r r', snd (wrun it (alternating 5) (o, [TStart c j; TStart c' j'])) = [TDone r; TDone r'] /\
    same_ret r (alone it c') /\ ~ same_ret r (alone it c).
Proof.
  exists p_dif, lg_12, la_id. split; [exact la_id_ok|]. assert (Hlg : leggauss_ok (half p_dif) (lg_12 (half p_dif))) by exact leggauss1_ok. split; [exact Hlg|].
  intros jk. destruct (p_dif_ok jk) as (out & H).
  destruct (modes_exist p_dif lg_12 la_id jk out la_id_ok Hlg H) as (U & HU). destruct (dif_differs jk out H U HU) as (t & Ht & Hd).
  destruct (interpolate_u0 p_dif lg_12 la_id jk out la_id_ok Hlg H) as (it & Hit).
  destruct (call_rte p_dif lg_12 la_id jk out la_id_ok Hlg H U HU) as (w & DG & _).
  destruct (proj1 HU [0]) as (A & HA & SA). { intros x [<-|[]]. unfold bottom. cbn. lra. }
  destruct (proj1 HU [t]) as (A' & HA' & SA'). { intros x [<-|[]]. unfold bottom. cbn. lra. }
  set (m := nth 1 (po_mu out) 0). assert (Hm : cosines_ok [m]).
  { destruct DG as (_ & G & _). destruct (G 0%nat ltac:(cbn; lia)) as ([G1 G1'] & G2 & _). change (half p_dif + 0)%nat with 1%nat in G2.
    intros x [<-|[]]. unfold m. rewrite G2. apply Rabs_le. lra. }
  set (c := mkIA [m] [0] [] false false false). set (c' := mkIA [m] [t] [] false false false).
  exists out, it, c, c'. split; [exact H|]. split; [exact Hit|]. intros o j j'.
  assert (R : returned out (FU0 (po_u0 out))) by (left; reflexivity).
  destruct (in_turn p_dif lg_12 la_id jk out Hlg H _ it R Hit o [m] [0] [t] [] [] false j j' A A' Hm HA HA') as (r & r' & E & E1 & E2).
  { rewrite (proj1 SA), (proj1 SA'). reflexivity. }
  exists r, r'. split; [exact E|]. split; [exact E1|]. intros X.
  pose proof (same_ret_trans _ _ _ (same_ret_sym _ _ X) E1) as Y.
  destruct (plain_value p_dif lg_12 la_id jk out Hlg H _ it R Hit fresh [m] [0] [] false (fun _ => 0) A Hm HA) as (B & F & P1 & P2 & P3).
  destruct (plain_value p_dif lg_12 la_id jk out Hlg H _ it R Hit fresh [m] [t] [] false (fun _ => 0) A' Hm HA') as (B' & F' & P1' & P2' & P3').
  unfold alone in Y. fold c in P1, Y. fold c' in P1', Y. rewrite P1, P1' in Y. cbn in Y.
  assert (SS : shp A = [2%nat] /\ shp A' = [2%nat]) by (rewrite (proj1 SA), (proj1 SA'); split; reflexivity). destruct SS as [S1 S2].
  pose proof (interpolant_nodes _ _ _ _ _ _ DG P3 0%nat [] 1%nat ltac:(cbn; lia) ltac:(rewrite S1; cbn; auto) ltac:(cbn; lia) eq_refl) as N1.
  pose proof (interpolant_nodes _ _ _ _ _ _ DG P3' 0%nat [] 1%nat ltac:(cbn; lia) ltac:(rewrite S2; cbn; auto) ltac:(cbn; lia) eq_refl) as N2.
  rewrite S1 in P2. rewrite S2 in P2'. cbn [tl length] in P2, P2'.
  assert (Z : F [0%nat] = F' [0%nat]).
  { refine (squeezed_inj _ _ _ _ (_ : squeezed B [1%nat] F) (_ : squeezed B [1%nat] F') [0%nat] ltac:(cbn; lia)); [exact P2|]. unfold squeezed in *. eapply teq_trans; [exact Y|exact P2']. }
  apply Hd. rewrite N1, N2 in Z. destruct SA as [_ SA]. destruct SA' as [_ SA'].
  rewrite (SA [1%nat]) in Z by (rewrite S1; cbn; lia). rewrite (SA' [1%nat]) in Z by (rewrite S2; cbn; lia). cbn in Z. symmetry. exact Z.
Qed.
