(** The reported values do not depend on which solutions the linear algebra returns. *)
From Coq Require Import Classical String Reals Lra Lia List Bool Arith ZArith.
From Coquelicot Require Import Coquelicot.
From Verif Require Import Base Tensor Spec M_LinAlg Spec_RTE Calc M_Subroutines M_GenPart M_MathscrV M_Coeffs M_Assemble M_Pydisort
  P_Quad P_Sub P_Sub2 P_GenPart3 P_Tensor P_Teq P_MathscrV P_Coeffs P_Coeffs2 P_Coeffs3 P_Assemble P_Solve Spec_Sol P_Valid P_Pydisort P_Pydisort2 P_Pydisort3 P_Pydisort4 P_Pydisort5
  Spec_Calls P_Same P_Whole P_NT3 P_LinA P_Unique Spec_Unique P_Unique2.
Import ListNotations.
Local Open Scope R_scope.

(** A field without sources vanishes. *)
Definition zero_only (p : py_in) (lg : leggauss_t) (a : as_in) : Prop :=
  forall m bd (Z : nat -> R -> R), (m < nmodes p)%nat -> (exists o, bd_terms (sc_of a o) m = Ok bd) ->
    (forall l i wg t, (l < nlayers p)%nat -> (i < 2 * half p)%nat -> top_of p l < t < bot_of p l ->
       is_cutoff (a_omega a l) (a_wLeg a l) (a_NLeg a) m wg ->
       is_derive (Z i) t (scl p l * rsum (2 * half p) (fun j => A_spec (half p) (quad_mu p lg) (quad_W p lg) (a_omega a l) wg (ncoeffs p) m i j * Z j t))) ->
    (forall i, (i < 2 * half p)%nat -> cont_on 0 (bottom p) (Z i)) ->
    (forall i, (i < half p)%nat -> Z (half p + i)%nat 0 = 0) ->
    (forall i, (i < half p)%nat -> Z i (bottom p) = rsum (half p) (fun j => bdR bd i j * Z (half p + j)%nat (bottom p))) ->
    forall i t, (i < 2 * half p)%nat -> 0 <= t <= bottom p -> Z i t = 0.

Section Two.
  Variables (p : py_in) (lg : leggauss_t).
  Hypothesis V : valid p.
  Hypothesis Hlg : leggauss_ok (half p) (lg (half p)).
  Variables (ss : nat -> vec) (r : R).
  Let a := assemble_args p lg r ss.
  Let Ha : as_good a := a_good p V lg Hlg ss r.
  Variables (la la' : linalg) (jk jk' : junk) (sv sv' : solved).
  Hypothesis Hla : linalg_ok la.
  Hypothesis Hla' : linalg_ok la'.
  Hypothesis Hzo : zero_only p lg a.
  Hypothesis Hsv : solve_all a la jk = Ok sv.
  Hypothesis Hsv' : solve_all a la' jk' = Ok sv'.
  Let N := half p.

  (** Derivative of one mode inside a layer. *)
  Definition src m l (wg : vec) i x : R :=
    (if a_beam a then X_spec (a_I0_div_4pi a) (a_omega a l) wg (a_NLeg a) m (a_mu0 a) (node N (a_mu a) i) / node N (a_mu a) i * exp (- x / a_mu0 a) else 0)
    + (if (Nat.eqb m 0 && a_iso a)%bool then rsum (a_Ns a) (fun j => a_s a l j * x ^ j) / node N (a_mu a) i else 0).
  Lemma mode_der la0 jk0 sv0 : linalg_ok la0 -> solve_all a la0 jk0 = Ok sv0 ->
    forall m l i wg t, (m < nmodes p)%nat -> (l < nlayers p)%nat -> (i < 2 * N)%nat -> top_of p l < t < bot_of p l ->
       is_cutoff (a_omega a l) (a_wLeg a l) (a_NLeg a) m wg ->
       is_derive (fun t => mode_at a sv0 m i t) t (scl p l * (rsum (2 * N) (fun j => A_spec N (quad_mu p lg) (quad_W p lg) (a_omega a l) wg (ncoeffs p) m i j * mode_at a sv0 m j t) - src m l wg i (depth_s p l t))).
  Proof.
    intros H0 Hs m l i wg t Hm Hl Hi Ht Hc.
    assert (HmF : (m < a_NFourier a)%nat) by (cbn; rewrite <- nmodes_eq; exact Hm).
    assert (Hfl : forall j y, (j < 2 * N)%nat -> top_of p l < y < bot_of p l -> mode_at a sv0 m j y = fld a sv0 m l j (depth_s p l y)).
    { intros j y Hj Hy. apply (mode_fld p V lg Hlg ss r la0 H0 jk0 sv0 Hs); auto; [rewrite (streams_eq p V); exact Hj|lra]. }
    apply (der_ext_loc (fun y => fld a sv0 m l i (depth_s p l y)) _ t _ (top_of p l) (bot_of p l)); [exact Ht|intros y Hy; symmetry; apply Hfl; auto|].
    refine (der_eq _ _ _ _ _ (der_comp (fld a sv0 m l i) (fun t => depth_s p l t) t _ _ (depth_s_der p l t) (fld_ode a Ha la0 H0 jk0 sv0 Hs m l wg HmF Hl Hc i (depth_s p l t) Hi))).
    rewrite (rsum_ext (2 * N) (fun j => _ * mode_at a sv0 m j t) (fun j => A_spec N (quad_mu p lg) (quad_W p lg) (a_omega a l) wg (ncoeffs p) m i j * fld a sv0 m l j (depth_s p l t)))
      by (intros j Hj; rewrite Hfl by auto; reflexivity).
    unfold src. change (a_N a) with N. change (a_mu a) with (quad_mu p lg). change (a_W a) with (quad_W p lg). change (a_NLeg a) with (ncoeffs p). ring.
  Qed.
  Lemma mode_cont la0 jk0 sv0 : linalg_ok la0 -> solve_all a la0 jk0 = Ok sv0 ->
    forall m i, (m < nmodes p)%nat -> (i < 2 * N)%nat -> cont_on 0 (bottom p) (fun t => mode_at a sv0 m i t).
  Proof.
    intros H0 Hs m i Hm Hi. apply (cont_layers p V). intros l Hl.
    assert (HmF : (m < a_NFourier a)%nat) by (cbn; rewrite <- nmodes_eq; exact Hm).
    destruct (cutoff_ex (a_omega a l) (a_wLeg a l) (a_NLeg a) m) as (wg & Hc).
    apply (cont_on_ext _ _ (fun y => fld a sv0 m l i (depth_s p l y))).
    - intros y Hy. symmetry. apply (mode_fld p V lg Hlg ss r la0 H0 jk0 sv0 Hs); auto. rewrite (streams_eq p V); exact Hi.
    - apply cont_on_derive. intros x _. eexists.
      exact (der_comp (fld a sv0 m l i) (fun t => depth_s p l t) x _ _ (depth_s_der p l x) (fld_ode a Ha la0 H0 jk0 sv0 Hs m l wg HmF Hl Hc i (depth_s p l x) Hi)).
  Qed.

  Theorem modes_same m i t : (m < nmodes p)%nat -> (i < 2 * N)%nat -> 0 <= t <= bottom p -> mode_at a sv m i t = mode_at a sv' m i t.
  Proof.
    intros Hm Hi Ht. enough (mode_at a sv m i t - mode_at a sv' m i t = 0) by lra.
    assert (HmF : (m < a_NFourier a)%nat) by (cbn; rewrite <- nmodes_eq; exact Hm).
    assert (HNL : (1 <= nlayers p)%nat) by exact (v_ne p V).
    destruct (fld_bc a Ha la Hla jk sv Hsv m HmF) as (bd & bn & bp & o & Ebd & En & Ep & B1 & _ & B3).
    destruct (fld_bc a Ha la' Hla' jk' sv' Hsv' m HmF) as (bd' & bn' & bp' & o' & Ebd' & En' & Ep' & B1' & _ & B3').
    assert (bd' = bd) by (change (bd_terms (sc_of a o') m) with (bd_terms (sc_of a o) m) in Ebd'; congruence). subst bd'.
    change (b_mode (sc_of a o') (a_bneg_scalar a) (a_bneg_vector a) (a_bneg a) m) with (b_mode (sc_of a o) (a_bneg_scalar a) (a_bneg_vector a) (a_bneg a) m) in En'.
    change (b_mode (sc_of a o') (a_bpos_scalar a) (a_bpos_vector a) (a_bpos a) m) with (b_mode (sc_of a o) (a_bpos_scalar a) (a_bpos_vector a) (a_bpos a) m) in Ep'.
    assert (bn' = bn) by congruence. assert (bp' = bp) by congruence. subst bn' bp'.
    assert (T0 : forall la0 jk0 sv0 j, linalg_ok la0 -> solve_all a la0 jk0 = Ok sv0 -> (j < 2 * N)%nat -> mode_at a sv0 m j 0 = fld a sv0 m 0 j 0).
    { intros la0 jk0 sv0 j H0 Hs Hj. etransitivity; [apply (mode_fld p V lg Hlg ss r la0 H0 jk0 sv0 Hs m 0%nat j 0); auto|].
      - rewrite (streams_eq p V); exact Hj.
      - pose proof (v_inc p V 0%nat HNL) as H. cbn [top_of] in *. change (bot_of p 0) with (nth 0 (p_tau p) 0) in *. lra.
      - fold a. f_equal. unfold depth_s. cbn [top_of rsum]. ring. }
    assert (Tb : forall la0 jk0 sv0 j, linalg_ok la0 -> solve_all a la0 jk0 = Ok sv0 -> (j < 2 * N)%nat -> mode_at a sv0 m j (bottom p) = fld a sv0 m (nlayers p - 1) j (a_stau0 a (nlayers p))).
    { intros la0 jk0 sv0 j H0 Hs Hj. etransitivity; [apply (mode_fld p V lg Hlg ss r la0 H0 jk0 sv0 Hs m (nlayers p - 1)%nat j); auto; try lia|].
      - rewrite (streams_eq p V); exact Hj.
      - rewrite (bottom_eq p). pose proof (v_inc p V (nlayers p - 1)%nat ltac:(unfold nlayers in *; lia)) as H. change (bot_of p (nlayers p - 1)) with (nth (nlayers p - 1) (p_tau p) 0) in *.
        change (top_of p (nlayers p - 1) < nth (nlayers p - 1) (p_tau p) 0) in H. lra.
      - fold a. f_equal. rewrite (bottom_eq p). rewrite <- depth_s_bot by (auto; lia). cbn [a assemble_args a_stau0]. f_equal. lia. }
    refine (Hzo m bd (fun i t => mode_at a sv m i t - mode_at a sv' m i t) Hm (ex_intro _ o Ebd) _ _ _ _ i t Hi Ht).
    - intros l k wg x Hl Hk Hx Hc.
      refine (der_eq _ _ _ _ _ (der_minus _ _ _ _ _ (mode_der la jk sv Hla Hsv m l k wg x Hm Hl Hk Hx Hc) (mode_der la' jk' sv' Hla' Hsv' m l k wg x Hm Hl Hk Hx Hc))).
      fold a N. match goal with |- ?c * (?s1 - ?z) - ?c * (?s2 - ?z) = ?c * ?s3 => enough (s3 = s1 - s2) as -> by ring end.
      rewrite <- rsum_minus. apply rsum_ext. intros j Hj. ring.
    - intros k Hk. apply (cont_on_ext _ _ (fun x => mode_at a sv m k x + (-1) * mode_at a sv' m k x)); [intros; ring|].
      apply cont_on_plus; [apply (mode_cont la jk); auto|apply cont_on_scal; apply (mode_cont la' jk'); auto].
    - intros k Hk. fold N. rewrite (T0 la jk), (T0 la' jk') by (auto; fold N in Hk; lia). change N with (a_N a). rewrite B1, B1' by (exact Hk). ring.
    - intros k Hk. fold N in Hk |- *. rewrite (Tb la jk), (Tb la' jk') by (auto; lia).
      change (a_NLayers a) with (nlayers p) in B3, B3'. rewrite B3, B3' by exact Hk. change (a_N a) with N.
      match goal with |- ?b + ?s1 + ?z - (?b + ?s2 + ?z) = ?s3 => enough (s3 = s1 - s2) as -> by ring end.
      rewrite <- rsum_minus. apply rsum_ext. intros j Hj. rewrite (Tb la jk), (Tb la' jk') by (auto; lia). ring.
  Qed.

  Lemma Kne la0 jk0 sv0 : linalg_ok la0 -> solve_all a la0 jk0 = Ok sv0 -> a_iso a = true -> forall l k, (l < a_NLayers a)%nat -> (k < 2 * a_N a)%nat -> sv_K sv0 0 l k <> 0.
  Proof. intros H0 Hs _ l k Hl Hk. apply (sv_K_ne a Ha la0 H0 jk0 sv0 Hs); auto. apply (g_NF a Ha). Qed.
  Lemma NF_pos : (0 < nmodes p)%nat.
  Proof. exact (nmodes_pos p V). Qed.
  Lemma nthIn (tau : list R) j : (forall t, In t tau -> 0 <= t <= tau_bot a) -> (j < length tau)%nat -> 0 <= nth j tau 0 <= bottom p.
  Proof. intros H Hj. apply (H (nth j tau 0)). apply nth_In. auto. Qed.
  Lemma check_in tau u : tau_check a tau = Ok u -> forall t, In t tau -> 0 <= t <= tau_bot a.
  Proof.
    unfold tau_check, check. destruct (in_range a tau) eqn:E; [|discriminate]. intros _. apply in_range_iff. exact E.
  Qed.
  Lemma T3_teq A B n m k f g : T3 A n m k f -> T3 B n m k g -> (forall i j h, (i < n)%nat -> (j < m)%nat -> (h < k)%nat -> f i j h = g i j h) -> teq A B.
  Proof.
    intros [SA EA] [SB EB] H. split; [congruence|]. rewrite SA. intros idx Hi. destruct idx as [|x [|y [|z [|? ?]]]]; cbn in Hi; try tauto.
    rewrite EA, EB by tauto. apply H; tauto.
  Qed.
  Lemma T2_teq A B n m f g : T2 A n m f -> T2 B n m g -> (forall i j, (i < n)%nat -> (j < m)%nat -> f i j = g i j) -> teq A B.
  Proof.
    intros [SA EA] [SB EB] H. split; [congruence|]. rewrite SA. intros idx Hi. destruct idx as [|x [|y [|? ?]]]; cbn in Hi; try tauto.
    rewrite EA, EB by tauto. apply H; tauto.
  Qed.
  Lemma T1_teq A B n f g : T1 A n f -> T1 B n g -> (forall i, (i < n)%nat -> f i = g i) -> teq A B.
  Proof.
    intros [SA EA] [SB EB] H. split; [congruence|]. rewrite SA. intros idx Hi. destruct idx as [|x [|? ?]]; cbn in Hi; try tauto.
    rewrite EA, EB by tauto. apply H; tauto.
  Qed.

  Lemma cl_up tau rt : same_ret (cl_flux_up a sv tau false rt) (cl_flux_up a sv' tau false rt).
  Proof.
    unfold cl_flux_up. destruct (tau_check a tau) as [u|] eqn:E; [|cbn; reflexivity]. cbn [bind]. pose proof (check_in tau u E) as Ht.
    destruct (flux_up_val a sv (g_NL a Ha) (g_len a Ha) (Kne la jk sv Hla Hsv) tau Ht (g_NF a Ha)) as (C & -> & HC).
    destruct (flux_up_val a sv' (g_NL a Ha) (g_len a Ha) (Kne la' jk' sv' Hla' Hsv') tau Ht (g_NF a Ha)) as (C' & -> & HC'). cbn [bind same_ret].
    apply ret_cong. constructor; [|apply pvs_refl]. cbn [pv_eq]. apply tscal_cong, tsqueeze_cong. apply (T1_teq _ _ _ _ _ HC HC'). intros j Hj.
    apply rsum_ext. intros i Hi. rewrite modes_same; auto using NF_pos, nthIn. change (a_N a) with N in Hi. lia.
  Qed.
  Lemma cl_down tau rt : same_ret (cl_flux_down a sv tau false rt) (cl_flux_down a sv' tau false rt).
  Proof.
    unfold cl_flux_down. destruct (tau_check a tau) as [u|] eqn:E; [|cbn; reflexivity]. cbn [bind]. pose proof (check_in tau u E) as Ht.
    destruct (flux_down_val a sv (g_NL a Ha) (g_len a Ha) (Kne la jk sv Hla Hsv) tau Ht (g_NF a Ha)) as (C & -> & HC).
    destruct (flux_down_val a sv' (g_NL a Ha) (g_len a Ha) (Kne la' jk' sv' Hla' Hsv') tau Ht (g_NF a Ha)) as (C' & -> & HC'). cbn [bind same_ret].
    constructor; [|constructor; [apply teq_refl|apply pvs_refl]]. cbn [pv_eq]. apply tscal_cong, tsqueeze_cong. apply (T1_teq _ _ _ _ _ HC HC'). intros j Hj.
    f_equal. f_equal. apply rsum_ext. intros i Hi. change (a_N a) with N in *. rewrite modes_same; auto using NF_pos, nthIn. lia.
  Qed.
  Lemma cl_0 tau rt ra : same_ret (cl_u0 a sv tau false rt ra) (cl_u0 a sv' tau false rt ra).
  Proof.
    unfold cl_u0. destruct (tau_check a tau) as [u|] eqn:E; [|cbn; reflexivity]. cbn [bind]. pose proof (check_in tau u E) as Ht.
    apply same_bind_eq; [reflexivity|]. intros act.
    destruct (u0_all_val a sv (g_NL a Ha) (g_len a Ha) (Kne la jk sv Hla Hsv) tau Ht) as (C & -> & HC).
    destruct (u0_all_val a sv' (g_NL a Ha) (g_len a Ha) (Kne la' jk' sv' Hla' Hsv') tau Ht) as (C' & -> & HC'). cbn [bind same_ret].
    apply ret_cong. constructor; [|apply pvs_refl]. cbn [pv_eq]. apply tscal_cong, tsqueeze_cong. apply (T2_teq _ _ _ _ _ _ HC HC'). intros i j Hi Hj.
    apply modes_same; auto using NF_pos, nthIn.
  Qed.
  Lemma cl_uu tau phi rt rl : same_ret (cl_u a sv tau phi false false rt rl) (cl_u a sv' tau phi false false rt rl).
  Proof.
    unfold cl_u. destruct (tau_check a tau) as [u|] eqn:E; [|cbn; reflexivity]. cbn [bind]. pose proof (check_in tau u E) as Ht.
    destruct (um_all_val a sv (g_NL a Ha) (g_len a Ha) (Kne la jk sv Hla Hsv) tau Ht (g_NF a Ha)) as (C & -> & HC).
    destruct (um_all_val a sv' (g_NL a Ha) (g_len a Ha) (Kne la' jk' sv' Hla' Hsv') tau Ht (g_NF a Ha)) as (C' & -> & HC'). cbn [bind same_ret].
    apply ret_cong. constructor; [|apply pvs_refl]. cbn [pv_eq]. apply tscal_cong, tsqueeze_cong.
    destruct HC as [SC EC]. destruct HC' as [SC' EC']. unfold u_full. rewrite SC, SC'. cbn [nth]. apply teq_mk3. intros i j k Hi Hj Hk. cbn [nth].
    apply rsum_ext. intros m Hm. rewrite EC, EC' by auto. f_equal. apply modes_same; auto using nthIn. rewrite nmodes_eq. exact Hm.
  Qed.
End Two.

Theorem same_problem_zo p lg la la' jk jk' out out' : linalg_ok la -> linalg_ok la' -> leggauss_ok (half p) (lg (half p)) ->
  pydisort p lg la jk = Ok out -> pydisort p lg la' jk' = Ok out' ->
  (forall ss r sv, solve_all (assemble_args p lg r ss) la jk = Ok sv -> zero_only p lg (assemble_args p lg r ss)) -> same_values out out'.
Proof.
  intros Hla Hla' Hlg H H' Hz. destruct (pydisort_parts _ _ _ _ _ H) as (V & ss & r & sv & Hs & Hr & Hsv & E1 & E2 & E3 & E4 & E5).
  destruct (pydisort_parts _ _ _ _ _ H') as (_ & ss' & r' & sv' & Hs' & Hr' & Hsv' & F1 & F2 & F3 & F4 & F5).
  rewrite Hs in Hs'. injection Hs' as <-. rewrite Hr in Hr'. injection Hr' as <-. specialize (Hz ss r sv Hsv).
  constructor.
  - congruence.
  - intros. rewrite E2, F2. apply (cl_up p lg V Hlg ss r la la' jk jk'); auto.
  - intros. rewrite E3, F3. apply (cl_down p lg V Hlg ss r la la' jk jk'); auto.
  - intros. rewrite E4, F4. apply (cl_0 p lg V Hlg ss r la la' jk jk'); auto.
  - rewrite E5, F5. destruct (p_only_flux p); [exact I|]. destruct (NT_active p); intros tau phi rt.
    + apply u_corrected_cong; [reflexivity| |reflexivity|intros; apply rteq_refl]. apply (cl_uu p lg V Hlg ss r la la' jk jk'); auto.
    + apply (cl_uu p lg V Hlg ss r la la' jk jk'); auto.
Qed.
Theorem same_problem p lg la la' jk jk' out out' : linalg_ok la -> linalg_ok la' -> linalg_unique la -> leggauss_ok (half p) (lg (half p)) ->
  pydisort p lg la jk = Ok out -> pydisort p lg la' jk' = Ok out' -> same_values out out'.
Proof.
  intros Hla Hla' Hlu Hlg H H'. assert (V : valid p) by apply (pydisort_parts _ _ _ _ _ H). apply (same_problem_zo p lg la la' jk jk'); auto.
  intros ss r sv Hsv m bd Z Hm Hbd. exact (hom_unique_bd p V lg Hlg ss r la Hla Hlu jk sv Hsv m Hm bd Z Hbd).
Qed.
