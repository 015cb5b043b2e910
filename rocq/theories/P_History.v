(** Proofs about histories of writes and calls. *)
From Coq Require Import String Reals Lra Lia List Bool Arith ZArith.
From Verif Require Import Base Tensor Spec M_LinAlg Calc M_Subroutines M_GenPart M_MathscrV M_Coeffs M_Assemble M_Pydisort M_History
  Spec_Sol P_Sub P_Valid Spec_Valid P_Pydisort P_Pydisort2 P_Pydisort3 Spec_History.
Import ListNotations.
Local Open Scope R_scope.

Lemma read1_nth st x (l : list R) : (forall i, st x [i] = nth i l 0) -> read1 st x (length l) = l.
Proof.
  intros H. unfold read1. apply (nth_ext _ _ 0 0); [rewrite map_length, seq_length; reflexivity|]. intros i Hi. rewrite map_length, seq_length in Hi.
  rewrite (nth_indep _ 0 (st x [0%nat])) by (rewrite map_length, seq_length; exact Hi). rewrite (map_nth (fun i => st x [i])), seq_nth by exact Hi. apply H.
Qed.
Lemma with_tau_same a t : t = a_tau a -> with_tau a t = a.
Proof. intros ->. destruct a. reflexivity. Qed.

Section Hist.
  Variables (p : py_in) (lg : leggauss_t) (la : linalg) (jk : junk) (out : py_out).
  Hypothesis Hlg : leggauss_ok (half p) (lg (half p)).
  Hypothesis Hok : pydisort p lg la jk = Ok out.

  Lemma angles_fine : NT_active p = true -> existsb (fun x => Rltb 1 (Rabs x) || Reqb (p_mu0 p + x) 0) (mu_arr p lg) = false.
  Proof.
    intros HN. destruct (pydisort_parts _ _ _ _ _ Hok) as (V & _). apply NT_iff in HN as (H1 & H2 & H3 & _).
    assert (HA : NT_angle_ok p lg = true).
    { unfold pydisort in Hok. apply bind_Ok in Hok as (? & _ & H). apply bind_Ok in H as (? & H & _). destruct (NT_angle_ok p lg); [reflexivity|discriminate]. }
    pose proof (v_mu0 p V H3) as Hm0.
    apply not_true_is_false. intros E. apply existsb_exists in E as (x & Hx & E).
    assert (HQ : forall i, (i < half p)%nat -> 0 < quad_mu p lg i < 1 /\ quad_mu p lg i <> p_mu0 p).
    { intros i Hi. split; [apply (quad_in p lg Hlg i Hi)|]. intros Em. unfold NT_angle_ok in HA. rewrite H1 in HA. cbn [andb negb] in HA.
      apply negb_true_iff in HA. rewrite <- not_true_iff_false in HA. apply HA. apply existsb_exists. exists i. split; [apply in_seq; change (pN p) with (half p); lia|].
      apply Rltb_iff. rewrite Em, Rminus_eq_0, Rabs_R0. lra. }
    unfold mu_arr in Hx. apply in_app_or in Hx as [Hx|Hx]; apply in_map_iff in Hx as (i & <- & Hi); apply in_seq in Hi; destruct (HQ i ltac:(unfold half; cbn in Hi; exact (proj2 Hi))) as (Hq & Hne).
    - apply orb_true_iff in E as [E|E]; [apply Rltb_iff in E; rewrite Rabs_pos_eq in E by lra; lra|apply Reqb_iff in E; lra].
    - apply orb_true_iff in E as [E|E]; [apply Rltb_iff in E; rewrite Rabs_Ropp, Rabs_pos_eq in E by lra; lra|apply Reqb_iff in E; lra].
  Qed.

  Lemma live_TMS_same a tau phi anti ls : NT_active p = true ->
    live_TMS p lg a (p_tau p) (p_f p) (mu_arr p lg) tau phi anti ls = TMS_correction p lg a tau phi anti ls.
  Proof.
    intros HN. unfold live_TMS, TMS_correction. rewrite (angles_fine HN), orb_false_r. reflexivity.
  Qed.
  Lemma live_corrected_same a us tau phi anti re rt : NT_active p = true ->
    live_corrected p lg a (p_tau p) (p_f p) (mu_arr p lg) us tau phi anti re rt = u_corrected p lg a us tau phi anti re rt.
  Proof.
    intros HN. unfold live_corrected, u_corrected. destruct (us tau phi anti re rt true) as [r|]; [|reflexivity]. cbn [bind].
    destruct r as [v|[|[u| | |] rest]]; try reflexivity. destruct (nth _ rest (PR 0)); try reflexivity.
    unfold live_NT, NT_corrections. rewrite (live_TMS_same a tau phi anti l HN). reflexivity.
  Qed.

  Lemma live_TMS_f a fL muL tau phi anti ls fL' muL' tauL tauL': tauL = tauL' -> fL = fL' -> muL = muL' ->
    live_TMS p lg a tauL fL muL tau phi anti ls = live_TMS p lg a tauL' fL' muL' tau phi anti ls.
  Proof. intros -> -> ->. reflexivity. Qed.

  Lemma start_tau given i : start p lg (ref_tau given) [i] = nth i (p_tau p) 0.
  Proof. unfold ref_tau. destruct (given ATau); reflexivity. Qed.
  Lemma start_f given i : start p lg (ref_f given) [i] = nth i (p_f p) 0.
  Proof. unfold ref_f. destruct (given AF); reflexivity. Qed.

  (** A call made while the fragile arrays hold their first contents. *)
  Lemma do_call_fresh given ss r sv st c :
    (forall x, fragile p given x -> forall i, st x i = start p lg x i) ->
    po_flux_up out = cl_flux_up (assemble_args p lg r ss) sv ->
    po_flux_down out = cl_flux_down (assemble_args p lg r ss) sv ->
    po_u0 out = cl_u0 (assemble_args p lg r ss) sv ->
    po_u out = (if p_only_flux p then None else Some (if NT_active p
      then u_corrected p lg (assemble_args p lg r ss) (cl_u (assemble_args p lg r ss) sv)
      else fun tau phi anti e t => cl_u (assemble_args p lg r ss) sv tau phi anti e t false)) ->
    do_call p lg given (assemble_args p lg r ss) sv st c = answer out c.
  Proof.
    intros Hst E1 E2 E3 E4.
    assert (Et : read1 st (ref_tau given) (length (p_tau p)) = p_tau p).
    { apply read1_nth. intros i. rewrite <- (start_tau given i). apply Hst. unfold ref_tau. destruct (given ATau) eqn:E; exact E. }
    unfold do_call. rewrite Et. rewrite (with_tau_same (assemble_args p lg r ss) (p_tau p) eq_refl).
    destruct c as [tau anti rt|tau anti rt|tau anti rt ra|tau phi anti re rt]; cbn [answer]; rewrite ?E1, ?E2, ?E3, ?E4; try reflexivity.
    destruct (p_only_flux p); [reflexivity|]. destruct (NT_active p) eqn:HN; [|reflexivity].
    assert (Hn : nt_applies p) by (apply NT_iff; exact HN).
    assert (Ef : read1 st (ref_f given) (length (p_f p)) = p_f p).
    { apply read1_nth. intros i. rewrite <- (start_f given i). unfold ref_f. destruct (given AF) eqn:E; apply Hst; split; auto. }
    assert (Em : read1 st AMu (length (mu_arr p lg)) = mu_arr p lg).
    { apply read1_nth. intros i. rewrite (Hst AMu Hn [i]). reflexivity. }
    rewrite Ef, Em. apply live_corrected_same, HN.
  Qed.

  Lemma run_fresh given ss r sv h : forall st,
    (forall h1 c h2, h = h1 ++ Call c :: h2 -> forall x, fragile p given x -> forall i, after st h1 x i = start p lg x i) ->
    po_flux_up out = cl_flux_up (assemble_args p lg r ss) sv ->
    po_flux_down out = cl_flux_down (assemble_args p lg r ss) sv ->
    po_u0 out = cl_u0 (assemble_args p lg r ss) sv ->
    po_u out = (if p_only_flux p then None else Some (if NT_active p
      then u_corrected p lg (assemble_args p lg r ss) (cl_u (assemble_args p lg r ss) sv)
      else fun tau phi anti e t => cl_u (assemble_args p lg r ss) sv tau phi anti e t false)) ->
    run p lg given (assemble_args p lg r ss) sv st h = map (answer out) (calls h).
  Proof.
    induction h as [|[x i v|c] h IH]; intros st Hst E1 E2 E3 E4; [reflexivity| |].
    - cbn [run calls]. apply IH; auto. intros h1 c h2 Eh y Hy j. specialize (Hst (Write x i v :: h1) c h2). cbn in Hst. apply Hst; [rewrite Eh; reflexivity|exact Hy].
    - cbn [run calls map]. f_equal.
      + apply do_call_fresh; auto; intros; apply (Hst [] c h eq_refl); auto.
      + apply IH; auto. intros h1 c1 h2 Eh y Hy j. specialize (Hst (Call c :: h1) c1 h2). cbn in Hst. apply Hst; [rewrite Eh; reflexivity|exact Hy].
  Qed.

  Lemma session_run given h : exists ss r sv,
    session p lg la jk given h = Ok (run p lg given (assemble_args p lg r ss) sv (start p lg) h) /\
    po_flux_up out = cl_flux_up (assemble_args p lg r ss) sv /\
    po_flux_down out = cl_flux_down (assemble_args p lg r ss) sv /\
    po_u0 out = cl_u0 (assemble_args p lg r ss) sv /\
    po_u out = (if p_only_flux p then None else Some (if NT_active p
      then u_corrected p lg (assemble_args p lg r ss) (cl_u (assemble_args p lg r ss) sv)
      else fun tau phi anti e t => cl_u (assemble_args p lg r ss) sv tau phi anti e t false)).
  Proof.
    pose proof Hok as H. unfold pydisort in H. unfold session.
    apply bind_Ok in H as (? & E1 & H). rewrite E1. cbn [bind]. apply bind_Ok in H as (? & E2 & H). rewrite E2. cbn [bind].
    apply bind_Ok in H as (ss & E3 & H). rewrite E3. cbn [bind]. apply bind_Ok in H as (r & E4 & H). rewrite E4. cbn [bind].
    apply bind_Ok in H as (sv & E5 & H). rewrite E5. cbn [bind]. injection H as <-. exists ss, r, sv. repeat split; reflexivity.
  Qed.

  (** No call writes. *)
  Theorem session_fresh given h :
    (forall h1 c h2, h = h1 ++ Call c :: h2 -> forall x, fragile p given x -> forall i, after (start p lg) h1 x i = start p lg x i) ->
    session p lg la jk given h = Ok (map (answer out) (calls h)).
  Proof.
    intros Hst. destruct (session_run given h) as (ss & r & sv & E & E1 & E2 & E3 & E4). rewrite E. f_equal. apply run_fresh; auto.
  Qed.

  Theorem session_untouched given h :
    (forall x i v, In (Write x i v) h -> ~ fragile p given x) ->
    session p lg la jk given h = Ok (map (answer out) (calls h)).
  Proof.
    intros HW. apply session_fresh. intros h1 c h2 Eh x Hx i.
    assert (HH : forall y j v, In (Write y j v) h1 -> y <> x).
    { intros y j v Hin ->. apply (HW x j v ltac:(rewrite Eh; apply in_or_app; left; exact Hin)). exact Hx. }
    clear Eh. generalize (start p lg) as st. induction h1 as [|[y j v|c0] h1 IH]; intros st; [reflexivity| |]; cbn [after].
    - rewrite IH by (intros; eapply HH; right; eauto). unfold write. pose proof (HH y j v (or_introl eq_refl)). destruct y, x; try reflexivity; contradiction.
    - apply IH. intros; eapply HH; right; eauto.
  Qed.
End Hist.
