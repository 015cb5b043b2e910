(** Two calls of pydisort that differ in options or in uninitialised memory. *)
From Coq Require Import String Reals Lra Lia List Bool Arith ZArith.
From Verif Require Import Base Tensor P_Tensor P_Teq Spec M_LinAlg Spec_RTE M_Subroutines M_GenPart M_MathscrV M_Coeffs M_Assemble M_Pydisort
  P_GenPart P_GenPart2 P_GenPart3 P_GenPart4 P_Coeffs P_Coeffs2 P_Coeffs3 P_Assemble P_Solve Spec_Sol P_Valid P_Pydisort P_Pydisort2 P_Pydisort3 P_Pydisort4
  P_Cong Spec_Calls P_Same P_Cong2.
Import ListNotations.
Local Open Scope R_scope.

(** Uninitialised memory and the solver stages. *)
Lemma solve_junk a (Ha : as_good a) la (Hla : linalg_ok la) jk jk' :
  match solve_all a la jk, solve_all a la jk' with
  | Ok sv, Ok sv' => sv_same a (a_NFourier a) sv sv'
  | Err e, Err e' => e = e'
  | _, _ => False
  end.
Proof.
  assert (Eid : a_with a (a_NFourier a) (a_only_flux a) (a_banded a) (a_autograd a) = a) by (destruct a; reflexivity).
  pose proof (fun j j' => solve_cong a Ha la Hla (a_NFourier a) (a_only_flux a) (a_banded a) (a_autograd a) j j') as HC.
  rewrite Eid in HC. specialize (fun j j' sv => HC j j' sv (conj (g_NF a Ha) (le_n _)) eq_refl).
  destruct (solve_all a la jk) as [sv|e] eqn:E1.
  { destruct (HC jk jk' sv E1) as (sv' & -> & H). exact H. }
  destruct (solve_all a la jk') as [sv'|e'] eqn:E2.
  { destruct (HC jk' jk sv' E2) as (sv & E & _). congruence. }
  unfold solve_all in E1, E2.
  pose proof (junk_indep (gp_of a) la (j_G jk) (j_K jk) (j_A jk) (j_X jk) (j_Gi jk) (j_G jk') (j_K jk') (j_A jk') (j_X jk') (j_Gi jk')) as HJ.
  destruct (gen_and_part_sols (gp_of a) la (j_G jk) _ _ _ _) as [o|x] eqn:Eo; destruct (gen_and_part_sols (gp_of a) la (j_G jk') _ _ _ _) as [o'|x'] eqn:Eo'; try tauto; cbn [bind] in *; [|congruence].
  pose proof (coeffs_char (sc_of a o) (g_N a Ha) (g_NL a Ha) la (j_clob jk) (j_C jk) (j_R jk)) as H.
  pose proof (coeffs_char (sc_of a o') (g_N a Ha) (g_NL a Ha) la (j_clob jk') (j_C jk') (j_R jk')) as H'.
  destruct (solve_for_coeffs (sc_of a o) _ _ _ _) as [|y]; [discriminate|]. destruct (solve_for_coeffs (sc_of a o') _ _ _ _) as [|y']; [discriminate|].
  cbn [bind] in *. injection E1 as <-. injection E2 as <-.
  assert (Hmc : forall m, (m < a_NFourier a)%nat -> mode_coeffs (sc_of a o) la m = mode_coeffs (sc_of a o') la m).
  { intros m Hm. pose proof (stage1_same a la (a_NFourier a) (a_only_flux a) (a_banded a) (a_autograd a) jk jk' o o' Eo) as HS. rewrite Eid in HS.
    destruct (HS Eo' m Hm Hm) as (S1 & S2 & S3 & S4).
    apply (mode_coeffs_cong (sc_of a o) (a_NFourier a) (o_G o') (o_K o') (o_B o') (inv_mu_inv a (o_Ginv o')) (a_banded a) (g_N a Ha) (g_NL a Ha) (g_multi a Ha) m S1 S2 S3 (fun h _ => S4 h)).
    - intros _ _ l k Hl Hk. exact (K_ne a Ha la Hla jk o Eo l k Hl Hk).
    - reflexivity. }
  destruct H as (m & Hm & Em & Hb). destruct H' as (m' & Hm' & Em' & Hb'). cbn in Hm, Hm'.
  destruct (Nat.lt_trichotomy m m') as [L|[->|L]].
  - destruct (Hb' m L) as (C & EC). rewrite <- Hmc in EC by auto. congruence.
  - rewrite Hmc in Em by auto. congruence.
  - destruct (Hb m' L) as (C & EC). rewrite Hmc in EC by auto. congruence.
Qed.

(** The corrections for the truncated phase function depend on the intensity they correct only
    through its value. *)
Lemma pv_nth k : forall vs ws d, Forall2 pv_eq vs ws -> pv_eq (nth k vs d) (nth k ws d).
Proof. induction k; intros vs ws d H; destruct H; cbn; auto using pv_eq_refl. Qed.
Lemma pv_firstn k : forall vs ws, Forall2 pv_eq vs ws -> Forall2 pv_eq (firstn k vs) (firstn k ws).
Proof. induction k; intros vs ws H; destruct H; cbn; auto. Qed.

Section Corr.
  Variable p : py_in.
  Variable lg : leggauss_t.
  Variables a a' : as_in.
  Hypothesis Hr : a_rescale a = a_rescale a'.
  Lemma u_corrected_cong u u' tau phi anti re rt p' :
    same_ret (u tau phi anti re rt true) (u' tau phi anti re rt true) ->
    has_iso p' = has_iso p ->
    (forall ls, rteq (NT_corrections p lg a tau phi anti ls) (NT_corrections p' lg a' tau phi anti ls)) ->
    same_ret (u_corrected p lg a u tau phi anti re rt) (u_corrected p' lg a' u' tau phi anti re rt).
  Proof.
    intros H Hi HN. unfold u_corrected. destruct (u tau phi anti re rt true) as [v|e], (u' tau phi anti re rt true) as [v'|e']; cbn [same_ret bind] in *; try tauto.
    destruct v as [v|vs], v' as [v'|vs']; cbn [pret_eq] in H; try tauto; [reflexivity|].
    destruct H as [|x y vs ws Hxy H]; [reflexivity|].
    destruct x as [A| | |], y as [B| | |]; cbn [pv_eq] in Hxy; try tauto; try reflexivity; [].
    assert (Hl : length vs = length ws) by (clear -H; induction H; cbn; auto). rewrite Hi, <- Hl.
    set (k := (length vs - _)%nat). pose proof (pv_nth k vs ws (PR 0) H) as Hk.
    destruct (nth k vs (PR 0)) as [| | |ls], (nth k ws (PR 0)) as [| | |ls']; cbn [pv_eq] in Hk; try tauto; try reflexivity. subst ls'.
    apply same_bind; [apply HN|]. intros X Y HXY. apply same_bind.
    { apply bcast2_cong; [auto|]. rewrite Hr. apply tscal_cong, tsqueeze_cong. exact HXY. }
    intros X' Y' HX. cbn [same_ret]. apply ret_cong. constructor; [exact HX|]. apply pv_firstn. exact H.
  Qed.
End Corr.

(** The two ways of adding the second correction (with and without the autograd flag). *)
Lemma add_rows n nt k f v : (1 <= n)%nat -> shp v = [n; nt; k] ->
  rteq (let! s := tadd (tslice 0 n n (mkT [(2 * n)%nat; nt; k] f)) v in tconcat 0 (tslice 0 0 n (mkT [(2 * n)%nat; nt; k] f)) s)
       (let! s := iop Rplus (tslice 0 n n (mkT [(2 * n)%nat; nt; k] f)) v in
        Ok (mkT [(2 * n)%nat; nt; k] (fun idx => match idx with
              | q :: idx' => if Nat.ltb q n then f idx else elt s ((q - n)%nat :: idx')
              | [] => f idx
              end))).
Proof.
  intros Hn Hv.
  assert (E : tadd (tslice 0 n n (mkT [(2 * n)%nat; nt; k] f)) v = Ok (mkT [n; nt; k] (fun idx =>
     f ((n + nth 0 (bidx [n; nt; k] idx) 0)%nat :: skipn 1 (bidx [n; nt; k] idx)) + elt v (bidx [n; nt; k] idx)))).
  { unfold tadd, bcast2. rewrite Hv. cbn. unfold padl. cbn. rewrite !bdim_refl. reflexivity. }
  unfold iop. change (bcast2 Rplus) with tadd. rewrite E. cbn [bind shp tslice firstn skipn app]. rewrite list_eqb_refl. cbn [bind].
  unfold tconcat. cbn [shp tslice firstn skipn nth app]. rewrite !list_eqb_refl. cbn [andb].
  replace (n + n)%nat with (2 * n)%nat by lia. apply teq_mk3. intros i j x Hi Hj Hx. cbn [nth firstn skipn app elt tslice].
  rewrite !(Nat.add_0_l i). reflexivity.
Qed.

Section NTc.
  Variable p : py_in.
  Variable lg : leggauss_t.
  Variable a : as_in.
  Variables (nf : option Z) (fl : bool) (bn : Z) (ag : bool) (nf' bn' : nat).
  Let p' := with_options p nf fl bn ag.
  Let a' := a_with a nf' fl bn' ag.
  Lemma TMS_same tau phi anti ls : TMS_correction p' lg a' tau phi anti ls = TMS_correction p lg a tau phi anti ls.
  Proof. reflexivity. Qed.
  Lemma IMS_same tau phi anti : IMS_correction p' lg a' tau phi anti = IMS_correction p lg a tau phi anti.
  Proof. reflexivity. Qed.
  Lemma nu_shape mus phi x y : (2 <= length mus)%nat ->
    shp (atleast_2d_append (calculate_nu mus phi [x] [y])) = [length mus; length phi].
  Proof.
    intros H. unfold atleast_2d_append, calculate_nu, tsqueeze. cbn [shp calculate_nu_4d length sq_shape filter Nat.eqb negb].
    rewrite (proj2 (Nat.eqb_neq (length mus) 1)) by lia. cbn [negb].
    destruct (Nat.eqb_spec (length phi) 1) as [->|]; cbn; reflexivity.
  Qed.
  Lemma TMS_shape tau phi anti ls T : (1 <= pN p)%nat -> TMS_correction p lg a tau phi anti ls = Ok T ->
    exists f, T = mkT [(2 * pN p)%nat; length tau; length phi] f.
  Proof.
    intros HN H. unfold TMS_correction in H. destruct ls; [discriminate|]. destruct (existsb _ _) in H; [discriminate|].
    rewrite nu_shape in H.
    2:{ unfold mu_arr. rewrite app_length, !map_length, !seq_length. lia. }
    destruct (Nat.eqb _ _) in H; [|discriminate]. injection H as <-. eauto.
  Qed.
  Lemma IMS_shape tau phi anti T : (2 <= pN p)%nat -> IMS_correction p lg a tau phi anti = Ok T ->
    shp T = [pN p; length tau; length phi].
  Proof.
    intros HN H. unfold IMS_correction in H. destruct (_ || _)%bool in H; [discriminate|].
    rewrite nu_shape in H by (rewrite map_length, seq_length; lia). rewrite map_length, seq_length in H.
    unfold tmul, bcast2 in H. cbn in H. unfold padl in H. cbn in H. rewrite bdim_refl, bdim_1_l, bdim_1_r in H. injection H as <-. reflexivity.
  Qed.
  Lemma NT_same tau phi anti ls : (ag = p_autograd p \/ 2 <= pN p)%nat ->
    rteq (NT_corrections p lg a tau phi anti ls) (NT_corrections p' lg a' tau phi anti ls).
  Proof.
    intros H. unfold NT_corrections. rewrite TMS_same, IMS_same. change (p_autograd p') with ag. change (pN p') with (pN p).
    destruct (bool_dec ag (p_autograd p)) as [->|Hne]; [apply rteq_refl|]. destruct H as [H|H]; [congruence|].
    destruct (TMS_correction p lg a tau phi anti ls) as [T|] eqn:ET; cbn [bind]; [|reflexivity].
    destruct (IMS_correction p lg a tau phi anti) as [V|] eqn:EV; cbn [bind]; [|reflexivity].
    apply IMS_shape in EV; [|lia]. apply TMS_shape in ET as (f & ->); [|lia].
    pose proof (add_rows (pN p) (length tau) (length phi) f V ltac:(lia) EV) as HR.
    assert (S : forall x y, rteq x y -> rteq y x) by (intros [x|] [y|]; cbn; auto using teq_sym).
    destruct (p_autograd p), ag; try congruence; [exact HR|apply S; exact HR].
  Qed.

  (** One stream per hemisphere: with two or more azimuth angles the correction cannot be added
      either way. *)
  Lemma nu_shape1 x phi y z : shp (atleast_2d_append (calculate_nu [x] phi [y] [z])) = [length phi; 1%nat].
  Proof.
    unfold atleast_2d_append, calculate_nu, tsqueeze. cbn [shp calculate_nu_4d length sq_shape filter Nat.eqb negb].
    destruct (Nat.eqb_spec (length phi) 1) as [->|]; cbn; reflexivity.
  Qed.
  Lemma IMS_shape1 tau phi anti T : pN p = 1%nat -> IMS_correction p lg a tau phi anti = Ok T ->
    shp T = [length phi; length tau; 1%nat].
  Proof.
    intros HN H. unfold IMS_correction in H. destruct (_ || _)%bool in H; [discriminate|]. rewrite HN in H. cbn [seq map] in H.
    rewrite nu_shape1 in H. unfold tmul, bcast2 in H. cbn in H. unfold padl in H. cbn in H. rewrite bdim_1_l, bdim_1_r in H. injection H as <-. reflexivity.
  Qed.
End NTc.

Lemma bdim_2_big k : (2 <= k)%nat -> bdim 2 (1 + k) = None.
Proof. intros H. unfold bdim. destruct k as [|[|k]]; try lia. reflexivity. Qed.
Lemma sq3 n nt k : (2 <= n)%nat -> (2 <= k)%nat -> sq_shape [n; nt; k] = n :: (if Nat.eqb nt 1 then [k] else [nt; k]).
Proof.
  intros Hn Hk. unfold sq_shape. cbn [filter]. rewrite (proj2 (Nat.eqb_neq n 1)), (proj2 (Nat.eqb_neq k 1)) by lia.
  destruct (Nat.eqb nt 1); reflexivity.
Qed.
Section One.
  Variable p : py_in.
  Variable lg : leggauss_t.
  Variable a : as_in.
  Hypothesis HN : pN p = 1%nat.
  (** The outcome does not mention the autograd flag. *)
  Lemma one_outcome sv tau phi anti re rt : (2 <= length phi)%nat -> has_iso p = a_iso a ->
    (forall A, tau_check a tau = Ok tt -> um_all a sv anti tau = Ok A -> shp A = [a_NFourier a; 2%nat; length tau]) ->
    u_corrected p lg a (cl_u a sv) tau phi anti re rt =
      match cl_u a sv tau phi anti re rt true with
      | Err e => Err e
      | Ok _ => match TMS_correction p lg a tau phi anti (layers a tau) with
                | Err e => Err e
                | Ok _ => match IMS_correction p lg a tau phi anti with Err e => Err e | Ok _ => Err EShape end
                end
      end.
  Proof.
    intros Hp Hiso Hsh. unfold u_corrected, cl_u. destruct (tau_check a tau) as [[]|]; cbn [bind]; [|reflexivity].
    destruct (um_all a sv anti tau) as [um|]; cbn [bind]; [|reflexivity]. specialize (Hsh um eq_refl eq_refl).
    match goal with |- bind (bind ?x _) _ = _ => destruct x as [E|] eqn:EE; cbn [bind]; [|reflexivity] end.
    rewrite !orb_true_r. cbn [ret].
    set (ts := if rt then [PA (a_tau a)] else []).
    set (ls := PI_ (layers a tau) :: _).
    assert (Hl : (length (E ++ ts ++ ls) - (if has_iso p then 3 else 1) = length (E ++ ts))%nat).
    { rewrite app_assoc, (app_length (E ++ ts)). unfold ls. rewrite Hiso. destruct (a_iso a); cbn [length]; lia. }
    rewrite Hl. rewrite app_assoc, app_nth2, Nat.sub_diag by lia. unfold ls at 1. cbn [nth].
    unfold NT_corrections. destruct (TMS_correction p lg a tau phi anti (layers a tau)) as [T|] eqn:ET; cbn [bind]; [|reflexivity].
    destruct (IMS_correction p lg a tau phi anti) as [V|] eqn:EV; cbn [bind]; [|reflexivity].
    apply IMS_shape1 in EV; [|exact HN]. apply TMS_shape in ET as (f & ->); [|lia]. rewrite HN.
    set (k := length phi) in *. set (nt := length tau) in *.
    assert (ES : bshape [1%nat; nt; k] [k; nt; 1%nat] = Some [k; nt; k]).
    { cbn. rewrite bdim_1_l, bdim_refl, bdim_1_r. reflexivity. }
    assert (EA : exists g, tadd (tslice 0 1 1 (mkT [(2 * 1)%nat; nt; k] f)) V = Ok (mkT [k; nt; k] g)).
    { unfold tadd, bcast2. rewrite EV. cbn [shp tslice firstn skipn app length Nat.max]. unfold padl. cbn [length Nat.sub repeat app].
      rewrite ES. eauto. }
    destruct EA as (g & EA).
    destruct (p_autograd p).
    - rewrite EA. cbn [bind]. unfold tconcat. cbn [shp tslice firstn skipn nth app]. rewrite !list_eqb_refl. cbn [andb bind].
      match goal with |- bind (tadd ?A ?B) _ = _ => assert (X : tadd A B = Err EShape); [|rewrite X; reflexivity] end.
      unfold tadd, bcast2. cbn [shp tscal tmap tsqueeze u_full]. rewrite Hsh. cbn [nth]. fold nt k. rewrite !sq3 by lia.
      cbn [length]. rewrite Nat.max_id. unfold padl. cbn [length]. rewrite Nat.sub_diag. cbn [repeat app bshape].
      rewrite bdim_2_big by auto. reflexivity.
    - unfold iop. change (bcast2 Rplus) with tadd. rewrite EA. cbn [bind shp tslice firstn skipn app list_eqb].
      rewrite (proj2 (Nat.eqb_neq k 1)) by lia. reflexivity.
  Qed.
End One.

(** The modes computed by a call. *)
Lemma call_Umode p lg la jk out : linalg_ok la -> leggauss_ok (half p) (lg (half p)) -> pydisort p lg la jk = Ok out ->
  exists ss r sv, scaled_s p = Ok ss /\ rescale p ss = Ok r /\ solve_all (assemble_args p lg r ss) la jk = Ok sv /\ modes_of p out (Umode p lg ss r sv).
Proof.
  intros Hla Hlg Hok. destruct (pydisort_parts _ _ _ _ _ Hok) as (V & ss & r & sv & Hss & Hr & Hsv & Emu & Eup & Edn & Eu0 & Eu).
  exists ss, r, sv. repeat (split; [assumption|]). split.
  - intros tau Ht. rewrite Eu0. apply (u0_reports p V lg Hlg ss r la Hla jk sv Hsv tau false Ht).
  - intros u Hu HN tau phi Ht. rewrite Eu in Hu. destruct (p_only_flux p); [discriminate|].
    destruct (NT_active p) eqn:EN; [exfalso; apply HN, NT_iff; auto|]. injection Hu as <-.
    apply (u_reports p V lg Hlg ss r la Hla jk sv Hsv tau phi false Ht).
Qed.

(** Whole calls. *)
Section Whole.
  Variable p : py_in.
  Variable lg : leggauss_t.
  Variable la : linalg.
  Hypothesis Hla : linalg_ok la.
  Hypothesis Hlg : leggauss_ok (half p) (lg (half p)).

  Section Opt.
    Variables (nf : option Z) (fl : bool) (bn : Z) (ag : bool).
    Let p' := with_options p nf fl bn ag.

    Lemma valid_options : valid p -> (1 <= nmodes p' <= nmodes p)%nat -> (3 <= bn)%Z -> valid p'.
    Proof.
      intros V Hn Hb. pose proof (v_nfou p V) as H.
      assert (E : (0 < NFourierZ p' <= NFourierZ p)%Z).
      { unfold nmodes in Hn. unfold NFourierZ in *. destruct (p_only_flux p'), (p_only_flux p); lia. }
      destruct V. constructor; auto. change (NLegZ p') with (NLegZ p). lia.
    Qed.
    Lemma args_options r ss : assemble_args p' lg r ss = a_with (assemble_args p lg r ss) (pNF p') fl (Z.to_nat bn) ag.
    Proof. reflexivity. Qed.

    (** The parts of the second call. *)
    Lemma call_options jk' ss r sv' : valid p' -> NT_angle_ok p lg = true -> scaled_s p = Ok ss -> rescale p ss = Ok r ->
      solve_all (a_with (assemble_args p lg r ss) (pNF p') fl (Z.to_nat bn) ag) la jk' = Ok sv' ->
      exists out', pydisort p' lg la jk' = Ok out'.
    Proof.
      intros V' HNT Hs Hr Hsv. unfold pydisort. rewrite (proj2 (validate_iff p') V'). cbn [bind].
      change (NT_angle_ok p' lg) with (NT_angle_ok p lg). rewrite HNT. cbn [check bind].
      change (scaled_s p') with (scaled_s p). rewrite Hs. cbn [bind]. change (rescale p' ss) with (rescale p ss). rewrite Hr. cbn [bind].
      rewrite args_options, Hsv. cbn [bind]. eauto.
    Qed.
    Lemma angle_ok jk out : pydisort p lg la jk = Ok out -> NT_angle_ok p lg = true.
    Proof.
      unfold pydisort. intros H. apply bind_Ok in H as (u & _ & H). apply bind_Ok in H as (u' & H & _). unfold check in H. destruct (NT_angle_ok p lg); [reflexivity|discriminate].
    Qed.
    Lemma po_Leg_eq q jk out : pydisort q lg la jk = Ok out -> po_Leg out = mkA2 (nrow (p_Leg q)) (ncol (p_Leg q)) (Leg_all q).
    Proof.
      unfold pydisort. intros H. apply bind_Ok in H as (u & _ & H). apply bind_Ok in H as (u' & _ & H). apply bind_Ok in H as (ss & _ & H).
      apply bind_Ok in H as (r & _ & H). apply bind_Ok in H as (sv & _ & H). injection H as <-. reflexivity.
    Qed.

    Lemma outputs_same jk jk' out out' : pydisort p lg la jk = Ok out -> pydisort p' lg la jk' = Ok out' ->
      (nmodes p' <= nmodes p)%nat ->
      (forall ss r sv sv', scaled_s p = Ok ss -> rescale p ss = Ok r -> solve_all (assemble_args p lg r ss) la jk = Ok sv ->
         solve_all (a_with (assemble_args p lg r ss) (pNF p') fl (Z.to_nat bn) ag) la jk' = Ok sv' -> sv_same (assemble_args p lg r ss) (pNF p') sv sv') ->
      same_fluxes out out' /\
      (nmodes p' = nmodes p -> fl = p_only_flux p -> (nt_applies p -> ag = p_autograd p \/ (2 <= half p)%nat) -> same_intensity out out').
    Proof.
      intros H H' Hn HS. destruct (pydisort_parts _ _ _ _ _ H) as (V & ss & r & sv & Hs & Hr & Hsv & E1 & E2 & E3 & E4 & E5).
      destruct (pydisort_parts _ _ _ _ _ H') as (V' & ss' & r' & sv' & Hs' & Hr' & Hsv' & F1 & F2 & F3 & F4 & F5).
      change (scaled_s p') with (scaled_s p) in Hs'. rewrite Hs in Hs'. injection Hs' as <-.
      change (rescale p' ss) with (rescale p ss) in Hr'. rewrite Hr in Hr'. injection Hr' as <-.
      rewrite args_options in Hsv', F2, F3, F4, F5. set (a := assemble_args p lg r ss) in *.
      pose proof (HS ss r sv sv' Hs Hr Hsv Hsv') as Hss. fold a in Hss.
      pose proof (a_good p V lg Hlg ss r) as Ga. fold a in Ga.
      assert (HNF : (1 <= pNF p')%nat) by (rewrite <- nmodes_eq; apply (nmodes_pos p' V')).
      split; [constructor|].
      - rewrite E1, F1. reflexivity.
      - intros. rewrite E2, F2. apply (cl_flux_up_same a eq_refl (g_NL a Ga) (pNF p')); auto.
      - intros. rewrite E3, F3. apply (cl_flux_down_same a eq_refl (g_NL a Ga) (pNF p')); auto.
      - intros. rewrite E4, F4. apply (cl_u0_same a eq_refl (g_NL a Ga) (pNF p')); auto.
      - rewrite (po_Leg_eq p jk out H), (po_Leg_eq p' jk' out' H'). reflexivity.
      - intros Hnm Hfl Hag. unfold same_intensity. rewrite E5, F5. change (p_only_flux p') with fl. rewrite Hfl.
        destruct (p_only_flux p) eqn:Efl; [exact I|].
        assert (HF : pNF p' = a_NFourier a) by (change (a_NFourier a) with (pNF p); rewrite <- !nmodes_eq; exact Hnm).
        assert (HU : forall tau phi anti re rt rl, same_ret (cl_u a sv tau phi anti re rt rl) (cl_u (a_with a (pNF p') fl (Z.to_nat bn) ag) sv' tau phi anti re rt rl)).
        { intros. rewrite HF. apply (cl_u_same a eq_refl (g_NL a Ga)); try (rewrite <- HF; assumption); try exact (g_N a Ga). }
        assert (ENT : NT_active p' = NT_active p) by (unfold NT_active; change (p_only_flux p') with fl; rewrite Hfl, Efl; reflexivity).
        rewrite <- Hfl in *. rewrite ENT.
        destruct (NT_active p) eqn:EN; intros tau phi anti re rt; [|apply HU].
        apply u_corrected_cong; [reflexivity|apply HU|reflexivity|]. intros ls. apply NT_same. apply Hag, NT_iff; auto.
    Qed.

    (** The same solver is used, or both solvers answer only if the answer is unique. *)
    Definition comparable : Prop := linalg_unique la \/ (Z.of_nat (nlayers p) < p_banded p <-> Z.of_nat (nlayers p) < bn)%Z.
    Lemma same_side ss r : valid p -> (3 <= bn)%Z -> (Z.of_nat (nlayers p) < p_banded p <-> Z.of_nat (nlayers p) < bn)%Z ->
      Nat.leb (a_banded (assemble_args p lg r ss)) (a_NLayers (assemble_args p lg r ss)) = Nat.leb (Z.to_nat bn) (a_NLayers (assemble_args p lg r ss)).
    Proof.
      intros V Hb Hbs. pose proof (v_band p V) as Hb0. cbn. unfold nlayers in Hbs. unfold pNL.
      destruct (Nat.leb_spec (Z.to_nat (p_banded p)) (length (p_tau p))), (Nat.leb_spec (Z.to_nat bn) (length (p_tau p))); auto; lia.
    Qed.
    Lemma solutions_same jk jk' : comparable -> valid p -> valid p' -> (nmodes p' <= nmodes p)%nat ->
      forall ss r sv sv', scaled_s p = Ok ss -> rescale p ss = Ok r -> solve_all (assemble_args p lg r ss) la jk = Ok sv ->
         solve_all (a_with (assemble_args p lg r ss) (pNF p') fl (Z.to_nat bn) ag) la jk' = Ok sv' -> sv_same (assemble_args p lg r ss) (pNF p') sv sv'.
    Proof.
      intros HC V V' Hn ss r sv sv' Hs Hr Hsv Hsv'.
      assert (Hn' : (1 <= pNF p' <= a_NFourier (assemble_args p lg r ss))%nat).
      { split; [rewrite <- nmodes_eq; apply (nmodes_pos p' V')|]. change (a_NFourier (assemble_args p lg r ss)) with (pNF p). rewrite <- !nmodes_eq. exact Hn. }
      destruct HC as [Hlu|Hb].
      - apply (solve_agree _ (a_good p V lg Hlg ss r) la Hla (pNF p') fl (Z.to_nat bn) ag Hlu jk jk' sv sv'); auto.
      - destruct (solve_cong _ (a_good p V lg Hlg ss r) la Hla (pNF p') fl (Z.to_nat bn) ag jk jk' sv Hn' (same_side ss r V (v_band p' V') Hb) Hsv) as (x & X & Y).
        rewrite X in Hsv'. injection Hsv' as <-. exact Y.
    Qed.
    Theorem options_agree jk jk' out out' : comparable -> pydisort p lg la jk = Ok out -> pydisort p' lg la jk' = Ok out' -> (nmodes p' <= nmodes p)%nat ->
      same_fluxes out out' /\
      (nmodes p' = nmodes p -> fl = p_only_flux p -> (nt_applies p -> ag = p_autograd p \/ (2 <= half p)%nat) -> same_intensity out out').
    Proof.
      intros HC H H' Hn. apply (outputs_same jk jk' out out' H H' Hn).
      apply solutions_same; auto; [apply (pydisort_parts _ _ _ _ _ H)|apply (pydisort_parts _ _ _ _ _ H')].
    Qed.
    (** With the same solver, success of the first call implies success of the second. *)
    Theorem options_ok jk jk' out : pydisort p lg la jk = Ok out -> (1 <= nmodes p' <= nmodes p)%nat -> (3 <= bn)%Z ->
      (Z.of_nat (nlayers p) < p_banded p <-> Z.of_nat (nlayers p) < bn)%Z -> exists out', pydisort p' lg la jk' = Ok out'.
    Proof.
      intros H Hn Hb Hbs. pose proof (angle_ok jk out H) as HNT. destruct (pydisort_parts _ _ _ _ _ H) as (V & ss & r & sv & Hs & Hr & Hsv & _).
      pose proof (valid_options V Hn Hb) as V'.
      assert (Hn' : (1 <= pNF p' <= a_NFourier (assemble_args p lg r ss))%nat) by (change (a_NFourier (assemble_args p lg r ss)) with (pNF p); rewrite <- !nmodes_eq; exact Hn).
      destruct (solve_cong _ (a_good p V lg Hlg ss r) la Hla (pNF p') fl (Z.to_nat bn) ag jk jk' sv Hn' (same_side ss r V Hb Hbs) Hsv) as (sv' & Hsv' & _).
      exact (call_options jk' ss r sv' V' HNT Hs Hr Hsv').
    Qed.

    (** So it does with exact solvers. *)
    Theorem options_found jk jk' out : linalg_unique la -> linalg_complete la -> pydisort p lg la jk = Ok out -> (1 <= nmodes p' <= nmodes p)%nat -> (3 <= bn)%Z ->
      exists out', pydisort p' lg la jk' = Ok out'.
    Proof.
      intros Hlu Hlc H Hn Hb. pose proof (angle_ok jk out H) as HNT. destruct (pydisort_parts _ _ _ _ _ H) as (V & ss & r & sv & Hs & Hr & Hsv & _).
      pose proof (valid_options V Hn Hb) as V'.
      assert (Hn' : (1 <= pNF p' <= a_NFourier (assemble_args p lg r ss))%nat) by (change (a_NFourier (assemble_args p lg r ss)) with (pNF p); rewrite <- !nmodes_eq; exact Hn).
      destruct (solve_found _ (a_good p V lg Hlg ss r) la Hla (pNF p') fl (Z.to_nat bn) ag Hlu Hlc jk jk' sv Hn' Hsv) as (sv' & Hsv').
      exact (call_options jk' ss r sv' V' HNT Hs Hr Hsv').
    Qed.

    (** Modes shared by the two calls. *)
    Theorem options_modes jk jk' out out' U U' : comparable -> pydisort p lg la jk = Ok out -> pydisort p' lg la jk' = Ok out' -> (nmodes p' <= nmodes p)%nat ->
      modes_of p out U -> modes_of p' out' U' ->
      forall m i t, seen p m -> seen p' m -> (i < streams p)%nat -> 0 <= t <= bottom p -> U m i t = U' m i t.
    Proof.
      intros HC H H' Hn HU HU' m i t [Hm Hs] [Hm' Hs'] Hi Ht.
      destruct (Nat.eq_dec m 0) as [->|Hm0].
      - assert (Ht1 : depths_ok p [t]) by (intros x [<-|[]]; auto).
        destruct (options_agree jk jk' out out' HC H H' Hn) as [SF _].
        destruct HU as [U0 _], HU' as [U0' _]. destruct (U0 [t] Ht1) as (A & EA & SA). destruct (U0' [t] Ht1) as (B & EB & SB).
        pose proof (sf_u0 _ _ SF [t] false false false) as E. rewrite EA, EB in E. cbn [same_ret pret_eq pv_eq] in E.
        change (streams p') with (streams p) in SB. assert (SB' : squeezed A [streams p; length [t]] _) by (eapply teq_trans; [exact E|exact SB]).
        apply (squeezed_inj _ _ _ _ SA SB' [i; 0%nat]). cbn. auto.
      - destruct (call_Umode p lg la jk out Hla Hlg H) as (ss & r & sv & Es & Er & Esv & HW).
        destruct (call_Umode p' lg la jk' out' Hla Hlg H') as (ss' & r' & sv' & Es' & Er' & Esv' & HW').
        change (scaled_s p') with (scaled_s p) in Es'. rewrite Es in Es'. injection Es' as <-.
        change (rescale p' ss) with (rescale p ss) in Er'. rewrite Er in Er'. injection Er' as <-.
        rewrite (modes_unique p lg la jk out H U _ HU HW m i t Hm Hs Hi Ht).
        rewrite (modes_unique p' lg la jk' out' H' U' _ HU' HW' m i t Hm' Hs' Hi Ht). unfold Umode. f_equal.
        assert (V : valid p) by apply (pydisort_parts _ _ _ _ _ H). assert (V' : valid p') by apply (pydisort_parts _ _ _ _ _ H').
        rewrite args_options in Esv' |- *. pose proof (solutions_same jk jk' HC V V' Hn ss r sv sv' Es Er Esv Esv') as Hss.
        pose proof (a_good p V lg Hlg ss r) as Ga. set (a := assemble_args p lg r ss) in *.
        unfold mode_at, fld. rewrite (proj2 (Nat.eqb_neq m 0)) by auto. cbn [andb]. rewrite !Rplus_0_r.
        rewrite <- !hom_beam. rewrite nmodes_eq in Hm'.
        rewrite (hom_same a eq_refl (g_NL a Ga) (pNF p') (pNF p') fl (Z.to_nat bn) ag sv sv' Hss), (beam_same a eq_refl (g_NL a Ga) (pNF p') (pNF p') fl (Z.to_nat bn) ag sv sv' Hss); auto; try lia.
        all: rewrite (streams_eq p V) in Hi; exact Hi.
    Qed.
  End Opt.

  (** One stream per hemisphere and the corrections: the autograd flag. *)
  Lemma um_shape ss r jk sv tau A : valid p -> solve_all (assemble_args p lg r ss) la jk = Ok sv -> let a := assemble_args p lg r ss in
    tau_check a tau = Ok tt -> um_all a sv false tau = Ok A -> shp A = [a_NFourier a; (2 * a_N a)%nat; length tau].
  Proof.
    intros V Hsv a Ht HA. pose proof (a_good p V lg Hlg ss r) as Ga. fold a in Ga.
    unfold tau_check, check in Ht. destruct (in_range a tau) eqn:ER; [|discriminate]. pose proof (proj1 (in_range_iff a tau) ER) as ER'.
    destruct (um_all_val a sv (g_NL a Ga) (g_len a Ga) (HKne p V lg Hlg ss r la Hla jk sv Hsv) tau ER' (g_NF a Ga)) as (C & HC & SC & _).
    rewrite HA in HC. injection HC as <-. exact SC.
  Qed.
  Theorem autograd_one jk jk' ag out out' : half p = 1%nat -> nt_applies p ->
    pydisort p lg la jk = Ok out -> pydisort (with_autograd p ag) lg la jk' = Ok out' -> same_intensity_values out out'.
  Proof.
    intros HN HT H H'. set (p' := with_autograd p ag) in *.
    destruct (pydisort_parts _ _ _ _ _ H) as (V & ss & r & sv & Hs & Hr & Hsv & _ & _ & _ & _ & E5).
    destruct (pydisort_parts _ _ _ _ _ H') as (V' & ss' & r' & sv' & Hs' & Hr' & Hsv' & _ & _ & _ & _ & F5).
    change (scaled_s p') with (scaled_s p) in Hs'. rewrite Hs in Hs'. injection Hs' as <-.
    change (rescale p' ss) with (rescale p ss) in Hr'. rewrite Hr in Hr'. injection Hr' as <-.
    assert (HS : sv_same (assemble_args p lg r ss) (pNF p) sv sv').
    { apply (solutions_same (p_NFourier p) (p_only_flux p) (p_banded p) ag jk jk' (or_intror (iff_refl _)) V V' (le_n _) ss r sv sv' Hs Hr Hsv Hsv'). }
    pose proof (a_good p V lg Hlg ss r) as Ga. set (a := assemble_args p lg r ss) in *.
    set (a' := assemble_args p' lg r ss) in *. assert (Ea : a' = a_with a (pNF p) (p_only_flux p) (Z.to_nat (p_banded p)) ag) by reflexivity.
    assert (HNF : (1 <= pNF p)%nat) by (rewrite <- nmodes_eq; apply (nmodes_pos p V)).
    unfold same_intensity_values. rewrite E5, F5. change (p_only_flux p') with (p_only_flux p). destruct (p_only_flux p) eqn:Efl; [exact I|].
    change (NT_active p') with (NT_active p). rewrite (proj2 (NT_iff p) HT). intros tau phi re rt Hphi.
    assert (HU : forall re rt, same_ret (cl_u a sv tau phi false re rt true) (cl_u a' sv' tau phi false re rt true)).
    { intros. rewrite Ea. apply (cl_u_same a eq_refl (g_NL a Ga)); auto; try exact (g_N a Ga). }
    destruct (le_lt_dec 2 (length phi)) as [Hp|Hp].
    - rewrite (one_outcome p lg a HN sv tau phi false re rt Hp eq_refl).
      2:{ intros A Ht HA. rewrite (um_shape ss r jk sv tau A V Hsv Ht HA). fold a. change (a_N a) with (half p). rewrite HN. reflexivity. }
      rewrite (one_outcome p' lg a' HN sv' tau phi false re rt Hp eq_refl).
      2:{ intros A Ht HA. assert (Hsv2 := Hsv').
          pose proof (a_good p' V' lg Hlg ss r) as Ga'. fold a' in Ga'.
          unfold tau_check, check in Ht. destruct (in_range a' tau) eqn:ER; [|discriminate]. pose proof (proj1 (in_range_iff a' tau) ER) as ER'.
          destruct (um_all_val a' sv' (g_NL a' Ga') (g_len a' Ga') (HKne p' V' lg Hlg ss r la Hla jk' sv' Hsv') tau ER' (g_NF a' Ga')) as (C & HC & SC & _).
          rewrite HA in HC. injection HC as <-. rewrite SC. change (a_N a') with (half p). rewrite HN. reflexivity. }
      specialize (HU re rt). destruct (cl_u a sv tau phi false re rt true), (cl_u a' sv' tau phi false re rt true); cbn [same_ret] in HU; try tauto; [].
      change (TMS_correction p' lg a' tau phi false (layers a' tau)) with (TMS_correction p lg a tau phi false (layers a tau)).
      change (IMS_correction p' lg a' tau phi false) with (IMS_correction p lg a tau phi false).
      destruct (TMS_correction p lg a tau phi false (layers a tau)); cbn; [|reflexivity]. destruct (IMS_correction p lg a tau phi false); reflexivity.
    - apply u_corrected_cong; [reflexivity|apply HU|reflexivity|]. intros ls. unfold NT_corrections.
      change (TMS_correction p' lg a' tau phi false ls) with (TMS_correction p lg a tau phi false ls).
      change (IMS_correction p' lg a' tau phi false) with (IMS_correction p lg a tau phi false).
      change (p_autograd p') with ag. change (pN p') with (pN p).
      assert (Hp1 : length phi = 1%nat) by (destruct phi; [congruence|cbn in *; lia]).
      destruct (TMS_correction p lg a tau phi false ls) as [T|] eqn:ET; cbn [bind]; [|reflexivity].
      destruct (IMS_correction p lg a tau phi false) as [W|] eqn:EV; cbn [bind]; [|reflexivity].
      apply IMS_shape1 in EV; [|exact HN]. apply TMS_shape in ET as (f & ->); [|change (pN p) with (half p); rewrite HN; lia].
      rewrite Hp1 in *. assert (HN1 : pN p = 1%nat) by exact HN. rewrite HN1 in *.
      pose proof (add_rows 1 (length tau) 1 f W (le_n _) EV) as HR.
      assert (SY : forall x y, rteq x y -> rteq y x) by (intros [x|] [y|]; cbn; auto using teq_sym).
      destruct (p_autograd p), ag; first [apply rteq_refl|exact HR|apply SY; exact HR].
  Qed.

  (** Uninitialised memory. *)
  Theorem junk_same jk jk' :
    match pydisort p lg la jk, pydisort p lg la jk' with
    | Ok out, Ok out' => same_outputs out out'
    | Err e, Err e' => e = e'
    | _, _ => False
    end.
  Proof.
    assert (Ep : with_options p (p_NFourier p) (p_only_flux p) (p_banded p) (p_autograd p) = p) by (destruct p; reflexivity).
    assert (HE : forall e, pydisort p lg la jk = Err e -> match pydisort p lg la jk' with Err e' => e = e' | Ok _ => False end).
    { intros e. unfold pydisort. destruct (validate p) as [[]|] eqn:Ev; cbn [bind]; [|congruence]. destruct (check _ _); cbn [bind]; [|congruence].
      destruct (scaled_s p) as [ss|]; cbn [bind]; [|congruence]. destruct (rescale p ss) as [r|]; cbn [bind]; [|congruence].
      pose proof (solve_junk _ (a_good p (proj1 (validate_iff p) Ev) lg Hlg ss r) la Hla jk jk') as HJ.
      destruct (solve_all _ la jk), (solve_all _ la jk'); cbn [bind]; try tauto; congruence. }
    destruct (pydisort p lg la jk) as [out|e] eqn:E1.
    - pose proof (options_agree (p_NFourier p) (p_only_flux p) (p_banded p) (p_autograd p) jk jk' out) as HA. rewrite Ep in HA.
      pose proof (options_ok (p_NFourier p) (p_only_flux p) (p_banded p) (p_autograd p) jk jk' out) as HO. rewrite Ep in HO.
      assert (V : valid p) by apply (pydisort_parts _ _ _ _ _ E1).
      destruct (HO E1 (conj (nmodes_pos p V) (le_n _)) (v_band p V) ltac:(tauto)) as (out' & E2). rewrite E2.
      destruct (HA out' (or_intror (iff_refl _)) E1 E2 (le_n _)) as [S1 S2]. split; [exact S1|]. apply S2; auto.
    - specialize (HE e eq_refl). destruct (pydisort p lg la jk'); auto.
  Qed.
End Whole.
