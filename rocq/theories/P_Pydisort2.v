(** The boundary value problem solved by the returned functions. *)
From Coq Require Import String Reals Lra Lia List Bool Arith ZArith.
From Coquelicot Require Import Coquelicot.
From Verif Require Import Base Tensor Spec M_LinAlg Spec_RTE Calc M_Subroutines M_GenPart M_MathscrV M_Coeffs M_Assemble M_Pydisort
  P_Sub P_GenPart3 P_Tensor P_Coeffs2 P_Coeffs3 P_Assemble P_Solve Spec_Sol P_Valid P_Pydisort.
Import ListNotations.
Local Open Scope R_scope.

(** Parts of a successful call. *)
Lemma pydisort_parts {IM : IntModel} p lg la jk out : pydisort p lg la jk = Ok out ->
  valid p /\ exists ss r sv, scaled_s p = Ok ss /\ rescale p ss = Ok r /\
    solve_all (assemble_args p lg r ss) la jk = Ok sv /\
    po_mu out = mu_arr p lg /\
    po_flux_up out = cl_flux_up (assemble_args p lg r ss) sv /\
    po_flux_down out = cl_flux_down (assemble_args p lg r ss) sv /\
    po_u0 out = cl_u0 (assemble_args p lg r ss) sv /\
    po_u out = (if p_only_flux p then None else Some (if NT_active p
      then u_corrected p lg (assemble_args p lg r ss) (cl_u (assemble_args p lg r ss) sv)
      else fun tau phi anti e t => cl_u (assemble_args p lg r ss) sv tau phi anti e t false)).
Proof.
  unfold pydisort. intros H. apply bind_Ok in H as (u & Hv & H). destruct u. split; [apply validate_iff; auto|].
  apply bind_Ok in H as (u & _ & H). apply bind_Ok in H as (ss & Hs & H). apply bind_Ok in H as (r & Hr & H).
  apply bind_Ok in H as (sv & Hsv & H). injection H as <-. exists ss, r, sv. repeat (split; [auto; fail|]). reflexivity.
Qed.

Section Sol.
  Variable p : py_in.
  Hypothesis V : valid p.
  Variable lg : leggauss_t.
  Hypothesis Hlg : leggauss_ok (half p) (lg (half p)).
  Variables (ss : nat -> vec) (r : R).
  Hypothesis Hss : scaled_s p = Ok ss.
  Hypothesis Hr : rescale p ss = Ok r.
  Let a := assemble_args p lg r ss.
  Let N := half p.
  Let NL := nlayers p.

  Lemma half_pos : (1 <= half p)%nat.
  Proof. unfold half. pose proof (v_nq p V). assert (1 <= p_NQuad p / 2)%Z by (apply Z.div_le_lower_bound; lia). lia. Qed.
  Lemma streams_eq : streams p = (2 * half p)%nat.
  Proof.
    unfold streams, half. pose proof (v_nq p V). pose proof (v_even p V) as E.
    assert (p_NQuad p = 2 * (p_NQuad p / 2))%Z as H0 by (apply Z.div_exact; lia).
    assert (0 <= p_NQuad p / 2)%Z by (apply Z.div_pos; lia). lia.
  Qed.
  Lemma nmodes_eq : nmodes p = pNF p.
  Proof. unfold nmodes, pNF, e_NFourier. destruct (p_only_flux p); reflexivity. Qed.
  Lemma nmodes_pos : (1 <= nmodes p)%nat.
  Proof. rewrite nmodes_eq. pose proof (v_nfou p V) as H. unfold pNF. change (e_NFourier p) with (NFourierZ p). lia. Qed.

  Lemma quad_in i : (i < N)%nat -> 0 < quad_mu p lg i < 1 /\ 0 < quad_W p lg i.
  Proof. intros Hi. exact (GL_inside lg N 0 1 i Hlg ltac:(lra) Hi). Qed.

  Lemma mu_arr_len : length (mu_arr p lg) = (2 * N)%nat.
  Proof. unfold mu_arr. rewrite app_length, !map_length, !seq_length. change (pN p) with N. lia. Qed.
  Lemma mu_arr_node i : (i < 2 * N)%nat -> nth i (mu_arr p lg) 0 = node N (quad_mu p lg) i.
  Proof.
    intros Hi. unfold mu_arr, node. change (pN p) with N. destruct (Nat.ltb_spec i N).
    - rewrite app_nth1 by (rewrite map_length, seq_length; auto). apply nth_seq0_map; auto.
    - rewrite app_nth2 by (rewrite map_length, seq_length; auto). rewrite map_length, seq_length. apply (nth_seq0_map (fun i => - quad_mu p lg i)). lia.
  Qed.
  Lemma mu_arr_gauss : double_gauss N (mu_arr p lg) (quad_W p lg).
  Proof.
    split; [apply mu_arr_len|]. split.
    - intros i Hi. rewrite !mu_arr_node by lia. unfold node. rewrite (proj2 (Nat.ltb_lt i N)) by auto.
      rewrite (proj2 (Nat.ltb_ge (N + i) N)) by lia. replace (N + i - N)%nat with i by lia.
      pose proof (quad_in i Hi). tauto.
    - split.
      + intros i j Hi Hj Hne. rewrite mu_arr_len in Hi, Hj. rewrite !mu_arr_node by auto. unfold node.
        destruct (Nat.ltb_spec i N), (Nat.ltb_spec j N).
        * apply (GL_distinct lg N 0 1); auto. lra.
        * pose proof (quad_in i ltac:(auto)). pose proof (quad_in (j - N)%nat ltac:(lia)). lra.
        * pose proof (quad_in j ltac:(auto)). pose proof (quad_in (i - N)%nat ltac:(lia)). lra.
        * intros E. apply (GL_distinct lg N 0 1 (i - N) (j - N) Hlg ltac:(lra) ltac:(lia) ltac:(lia) ltac:(lia)).
          apply Ropp_eq_compat in E. rewrite !Ropp_involutive in E. exact E.
      + pose proof (GL_exact lg N 0 1 Hlg) as HE. destruct (GL_lengths lg N 0 1 Hlg) as [L1 L2].
        assert (forall l n, length l = n -> l = map (fun i => nth i l 0) (seq 0 n)) as Hl.
        { intros l n <-. apply (nth_ext _ _ 0 0); [rewrite map_length, seq_length; auto|]. intros i Hi. rewrite nth_seq0_map; auto. }
        unfold mu_arr. change (pN p) with N. rewrite firstn_app, map_length, seq_length, Nat.sub_diag. cbn [firstn]. rewrite app_nil_r.
        rewrite firstn_all2 by (rewrite map_length, seq_length; auto).
        unfold quad_mu, quad_W. change (pN p) with N.
        rewrite (Hl _ N L1) in HE at 1. rewrite (Hl _ N L2) in HE at 1. exact HE.
  Qed.

  Lemma a_good : as_good a.
  Proof.
    constructor; cbn [a assemble_args a_N a_NFourier a_NLayers a_tau a_mu a_M_inv a_multi a_stau0 a_scale].
    - exact half_pos.
    - rewrite <- nmodes_eq. exact nmodes_pos.
    - exact (v_ne p V).
    - reflexivity.
    - exact (v_inc p V).
    - intros i Hi. split; [apply quad_in; auto|reflexivity].
    - reflexivity.
    - rewrite scaled_tau0_eq by (auto; unfold nlayers; lia). reflexivity.
    - intros l Hl. rewrite !scaled_tau0_eq by (auto; unfold nlayers, pNL in *; lia). rewrite scale_tau_eq by auto. reflexivity.
    - intros l Hl. rewrite scale_tau_eq by auto. apply scl_pos; auto.
  Qed.

  (** Rescaling by r. *)
  Lemma r_iso : has_iso p = true -> r <> 0.
  Proof.
    intros Hi E. unfold rescale in Hr. apply bind_Ok in Hr as (mp & _ & H). apply bind_Ok in H as (mn & _ & H).
    rewrite Hi in H. match type of H with (if Reqb ?x 0 then _ else _) = _ => destruct (Reqb x 0) eqn:E0 end; [discriminate|].
    apply Reqb_false in E0. apply E0. congruence.
  Qed.
  Lemma tmax_ge b x : tmax b = Ok x -> forall idx, inb (shp b) idx -> elt b idx <= x.
  Proof.
    unfold tmax. intros H idx Hi. assert (Hin : In (elt b idx) (entries b)) by (apply entries_In; eauto).
    destruct (entries b) as [|y ys]; [destruct Hin|]. assert (x = lmax (y :: ys)) as -> by congruence. apply lmax_ge; auto.
  Qed.
  Lemma r_le : exists mp mn, tmax (e_bpos p) = Ok mp /\ tmax (e_bneg p) = Ok mn /\ (r = 0 -> p_I0 p <= 0 /\ mp <= 0 /\ mn <= 0).
  Proof.
    pose proof Hr as H. unfold rescale in H. apply bind_Ok in H as (mp & H1 & H). apply bind_Ok in H as (mn & H2 & H).
    exists mp, mn. split; auto. split; auto. intros E.
    destruct (has_iso p) eqn:Ei; [exfalso; exact (r_iso Ei E)|]. assert (Er : r = lmax [p_I0 p; mp; mn]) by congruence.
    assert (Hx : forall x, In x [p_I0 p; mp; mn] -> x <= 0) by (intros x Hx; rewrite <- E, Er; apply lmax_ge; auto).
    repeat split; apply Hx; cbn; auto.
  Qed.
  Lemma r_I0 : r = 0 -> p_I0 p = 0.
  Proof. destruct r_le as (mp & mn & _ & _ & H). intros E. pose proof (v_I0 p V). specialize (H E). lra. Qed.
  Lemma unscale x : (r = 0 -> x = 0) -> r * (x / divisor r) = x.
  Proof.
    intros H. unfold divisor. destruct (Req_EM_T r 0) as [E|E].
    - rewrite (H E). unfold Rdiv. ring.
    - rewrite Reqb_f by auto. field. auto.
  Qed.
  Lemma divisor_ne : divisor r <> 0.
  Proof. unfold divisor. destruct (Req_EM_T r 0) as [->|E]; [rewrite Reqb_refl; lra|rewrite Reqb_f; auto]. Qed.

  Lemma norm_zero_r b : nonneg b -> (forall mx, tmax (norm_b b) = Ok mx -> mx <= 0) -> tmax (norm_b b) <> Err (EValue "zero-size array to reduction operation maximum which has no identity") -> forall idx, inb (shp (norm_b b)) idx -> elt (norm_b b) idx = 0.
  Proof.
    intros Hn Hm Hok idx Hi. destruct (tmax (norm_b b)) as [mx|e] eqn:E.
    - specialize (Hm mx eq_refl). pose proof (tmax_ge _ _ E idx Hi). unfold norm_b in *. destruct (all0 b) eqn:E0; [reflexivity|].
      specialize (Hn idx Hi). lra.
    - exfalso. apply Hok. unfold tmax in E. destruct (entries (norm_b b)); [congruence|discriminate].
  Qed.

  (** Depth and layers. *)
  Lemma scaled_of_depth t : t <= bottom p -> scaled_of a t = depth_s p (layer_of a t) t.
  Proof.
    intros Ht. pose proof (g_NL a a_good) as H1.
    rewrite (scaled_of_eq a H1 eq_refl (g_st0 a a_good) (g_stS a a_good) t Ht).
    assert (Hl : (layer_of a t < NL)%nat) by (apply (layer_of_lt a H1 eq_refl); auto).
    cbn [a assemble_args a_stau0 a_scale]. rewrite scaled_tau0_eq by (auto; unfold NL in *; lia). rewrite scale_tau_eq by auto. reflexivity.
  Qed.

  Definition Umode (sv : solved) (m i : nat) (t : R) : R := r * mode_at a sv m i t.
  Definition Flay (sv : solved) (m l i : nat) (t : R) : R := r * fld a sv m l i (depth_s p l t).

  Section Continuity.
  Variable la : linalg.
  Hypothesis Hla : linalg_ok la.
  Variable jk : junk.
  Variable sv : solved.
  Hypothesis Hsv : solve_all a la jk = Ok sv.

  Lemma mode_fld m l i t : (m < nmodes p)%nat -> (l < NL)%nat -> (i < streams p)%nat ->
    top_of p l <= t <= bot_of p l -> mode_at a sv m i t = fld a sv m l i (depth_s p l t).
  Proof.
    intros Hm Hl Hi Ht. unfold mode_at.
    pose proof (g_NL a a_good) as H1. pose proof (g_inc a a_good) as Hinc.
    assert (Hb : bottom p = bot_of p (NL - 1)) by (unfold bottom, bot_of; rewrite last_nth; reflexivity).
    assert (Hr0 : 0 <= t <= bottom p).
    { split.
      - apply Rle_trans with (top_of p l); [apply (lay_top_nonneg a H1 eq_refl Hinc l Hl)|lra].
      - apply Rle_trans with (bot_of p l); [lra|]. rewrite Hb. apply (lay_bot_le a H1 eq_refl Hinc). unfold NL, nlayers in *. cbn. unfold pNL. lia. }
    destruct (Req_EM_T t (top_of p l)) as [E|E].
    - destruct l.
      + assert (El : layer_of a t = 0%nat).
        { apply (layer_of_spec a H1 eq_refl Hinc t 0 Hr0 ltac:(exact H1)). split; [right; split; [auto|exact E]|exact (proj2 Ht)]. }
        rewrite scaled_of_depth by lra. rewrite El. reflexivity.
      + cbn [top_of] in E.
        assert (El : layer_of a t = l).
        { assert (Hl' : (l < a_NLayers a)%nat) by (change (a_NLayers a) with NL; lia).
          apply (layer_of_spec a H1 eq_refl Hinc t l Hr0 Hl'). pose proof (Hinc l Hl') as Hi'.
          change (lay_bot a l) with (nth l (p_tau p) 0) in *. split; [left; lra|lra]. }
        rewrite scaled_of_depth by lra. rewrite El.
        destruct (fld_bc a a_good la Hla jk sv Hsv m ltac:(cbn; rewrite <- nmodes_eq; exact Hm)) as (bd & bneg & bpos & o & _ & _ & _ & _ & HC & _).
        rewrite streams_eq in Hi.
        specialize (HC l i Hl Hi). cbn [a assemble_args a_stau0] in HC.
        rewrite E. replace (depth_s p l (nth l (p_tau p) 0)) with (scaled_tau0 p (S l)) by (apply depth_s_bot; auto; lia).
        replace (depth_s p (S l) (nth l (p_tau p) 0)) with (scaled_tau0 p (S l)) by (apply (depth_s_top p V (S l)); auto; unfold NL in *; lia).
        exact HC.
    - assert (El : layer_of a t = l).
      { apply (layer_of_spec a H1 eq_refl Hinc t l Hr0 Hl). change (lay_top a l) with (top_of p l). change (lay_bot a l) with (bot_of p l). split; [left; lra|lra]. }
      rewrite scaled_of_depth by lra. rewrite El. reflexivity.
  Qed.

  Lemma Umode_Flay m l i t : (m < nmodes p)%nat -> (l < NL)%nat -> (i < streams p)%nat ->
    top_of p l <= t <= bot_of p l -> Umode sv m i t = Flay sv m l i t.
  Proof. intros Hm Hl Hi Ht. unfold Umode, Flay. f_equal. apply mode_fld; auto. Qed.
  End Continuity.

  Section Ode.
  Context {IM : IntModel}.
  Variable la : linalg.
  Hypothesis Hla : linalg_ok la.
  Variable jk : junk.
  Variable sv : solved.
  Hypothesis Hsv : solve_all a la jk = Ok sv.

  (** ODE. *)
  Lemma X_spec_scal c k om wg n m mu0 x : k * X_spec c om wg n m mu0 x = X_spec (k * c) om wg n m mu0 x.
  Proof. unfold X_spec. ring. Qed.

  Theorem Flay_ode m l i wg t : (m < nmodes p)%nat -> (l < NL)%nat -> (i < streams p)%nat ->
    is_cutoff (albedo_s p l) (wphase_s p l) (ncoeffs p) m wg ->
    is_derive (Flay sv m l i) t (rte p (mu_arr p lg) (quad_W p lg) wg m l i t (fun j => Flay sv m l j t) / nth i (mu_arr p lg) 0).
  Proof.
    intros Hm Hl Hi Hc. pose proof Hi as Hi'. rewrite streams_eq in Hi'. fold N in Hi'.
    destruct (cutoff_transfer (albedo_s p l) (weighted_scaled_Leg p l) (wphase_s p l) (ncoeffs p) m wg) as (wg' & Hc' & Hw); auto.
    { intros k. apply wleg_eq; auto. }
    assert (Hom : a_omega a l = albedo_s p l) by (apply scaled_omega_eq; auto).
    pose proof (fld_ode a a_good la Hla jk sv Hsv m l wg' ltac:(cbn; rewrite <- nmodes_eq; exact Hm) Hl) as HO.
    rewrite Hom in HO. specialize (HO Hc' i (depth_s p l t) Hi').
    assert (Hd : is_derive (fun t => depth_s p l t) t (scl p l)).
    { unfold depth_s. apply (der_eq _ _ (0 + scl p l * (1 - 0))); [ring|]. apply der_plus; [apply der_const|]. apply der_scal, der_minus; [apply der_id|apply der_const]. }
    unfold Flay. refine (der_eq _ _ _ _ _ (der_scal _ r _ _ (der_comp (fld a sv m l i) (fun t => depth_s p l t) t _ _ Hd HO))).
    set (nu := fun k => nth k (mu_arr p lg) 0).
    assert (Hnu : forall k, (k < 2 * N)%nat -> node N (quad_mu p lg) k = nu k) by (intros k Hk; symmetry; apply mu_arr_node; auto).
    assert (Hnu0 : nu i <> 0).
    { unfold nu. rewrite mu_arr_node by auto. unfold node. destruct (Nat.ltb_spec i N).
      - pose proof (quad_in i ltac:(auto)). lra.
      - pose proof (quad_in (i - N)%nat ltac:(lia)). lra. }
    unfold rte. change (nth i (mu_arr p lg) 0) with (nu i).
    change (a_N a) with N. change (a_mu a) with (quad_mu p lg). change (a_W a) with (quad_W p lg). change (a_NLeg a) with (ncoeffs p).
    change (a_mu0 a) with (p_mu0 p). change (a_I0_div_4pi a) with (p_I0 p / divisor r / (4 * PI)). change (a_beam a) with (has_beam p).
    change (a_iso a) with (has_iso p). change (a_Ns a) with (e_Ns p). rewrite Hnu by auto. rewrite streams_eq. fold N.
    set (f := fun j => fld a sv m l j (depth_s p l t)).
    (* scattering sum *)
    assert (ES : rsum (2 * N) (fun j => A_spec N (quad_mu p lg) (quad_W p lg) (albedo_s p l) wg' (ncoeffs p) m i j * f j)
              = (f i - rsum (2 * N) (fun j => wnode N (quad_W p lg) j * D_spec (albedo_s p l) wg (ncoeffs p) m (nu i) (nu j) * f j)) / nu i).
    { rewrite (rsum_ext (2 * N) _ (fun j => (delta i j * f j - wnode N (quad_W p lg) j * D_spec (albedo_s p l) wg (ncoeffs p) m (nu i) (nu j) * f j) / nu i)).
      - rewrite rsum_div, rsum_minus. rewrite (rsum_single (2 * N) i (fun j => delta i j * f j)); auto.
        + rewrite delta_eq. f_equal. ring.
        + intros j Hj Hne. rewrite delta_ne by auto. ring.
      - intros j Hj. unfold A_spec. rewrite !Hnu by auto. rewrite (D_spec_om _ wg' wg) by auto. unfold Rdiv. ring. }
    unfold f in ES. rewrite ES. clear ES.
    (* beam *)
    assert (EX : r * (if has_beam p then X_spec (p_I0 p / divisor r / (4 * PI)) (albedo_s p l) wg' (ncoeffs p) m (p_mu0 p) (nu i) / nu i * exp (- depth_s p l t / p_mu0 p) else 0)
              = X_spec (p_I0 p / (4 * PI)) (albedo_s p l) wg (ncoeffs p) m (p_mu0 p) (nu i) * exp (- depth_s p l t / p_mu0 p) / nu i).
    { rewrite (X_spec_om _ _ wg' wg) by auto. unfold has_beam. destruct (Rltb 0 (p_I0 p)) eqn:Eb.
      - replace (r * (X_spec (p_I0 p / divisor r / (4 * PI)) (albedo_s p l) wg (ncoeffs p) m (p_mu0 p) (nu i) / nu i * exp (- depth_s p l t / p_mu0 p)))
          with ((r * X_spec (p_I0 p / divisor r / (4 * PI)) (albedo_s p l) wg (ncoeffs p) m (p_mu0 p) (nu i)) * exp (- depth_s p l t / p_mu0 p) / nu i) by (unfold Rdiv; ring).
        rewrite X_spec_scal. replace (r * (p_I0 p / divisor r / (4 * PI))) with (r * (p_I0 p / divisor r) / (4 * PI)) by (unfold Rdiv; ring).
        rewrite unscale by apply r_I0. reflexivity.
      - apply Rltb_false in Eb. pose proof (v_I0 p V). replace (p_I0 p) with 0 by lra. unfold X_spec, Rdiv. ring. }
    (* isotropic source *)
    assert (EI : r * scl p l * (if (Nat.eqb m 0 && has_iso p)%bool then rsum (e_Ns p) (fun j => a_s a l j * depth_s p l t ^ j) / nu i else 0)
              = (if Nat.eqb m 0 then (1 - albedo p l) * source p l t else 0) / nu i).
    { destruct (Nat.eqb m 0); cbn [andb]; [|unfold Rdiv; ring]. destruct (has_iso p) eqn:Ei.
      - rewrite <- (scaled_s_val p V ss Hss Ei l t Hl).
        rewrite (rsum_ext (e_Ns p) (fun j => a_s a l j * depth_s p l t ^ j) (fun j => / divisor r * (ss l j * depth_s p l t ^ j))) by (intros j Hj; cbn; unfold Rdiv; ring).
        rewrite rsum_scal. set (S0 := rsum (e_Ns p) _). unfold divisor. rewrite Reqb_f by (apply r_iso; auto).
        field. split; auto. apply r_iso; auto.
      - assert (Es : source p l t = 0).
        { unfold source. destruct (Nat.ltb_spec l (nrow (p_s p))) as [Hlt|Hge]; [|reflexivity].
          apply rsum_0. intros j Hj. replace (at2 (p_s p) l j) with 0; [ring|].
          destruct (Req_EM_T (at2 (p_s p) l j) 0) as [|Hne]; auto. exfalso.
          assert (Hs : has_source p) by (exists l, j; auto). apply has_iso_iff in Hs. congruence. }
        rewrite Es. unfold Rdiv. ring. }
    assert (EF : rsum (2 * N) (fun j => wnode N (quad_W p lg) j * D_spec (albedo_s p l) wg (ncoeffs p) m (nu i) (nth j (mu_arr p lg) 0) * (r * fld a sv m l j (depth_s p l t)))
               = r * rsum (2 * N) (fun j => wnode N (quad_W p lg) j * D_spec (albedo_s p l) wg (ncoeffs p) m (nu i) (nu j) * fld a sv m l j (depth_s p l t))).
    { rewrite <- rsum_scal. apply rsum_ext. intros j Hj. unfold nu. ring. }
    rewrite EF. set (SD := rsum (2 * N) (fun j => wnode N (quad_W p lg) j * D_spec (albedo_s p l) wg (ncoeffs p) m (nu i) (nu j) * fld a sv m l j (depth_s p l t))).
    set (fi := fld a sv m l i (depth_s p l t)).
    match type of EX with r * ?x = _ => set (XB := x) in * end. match type of EI with _ * ?x = _ => set (XI := x) in * end.
    transitivity (scl p l * ((r * fi - r * SD) / nu i - r * XB) - r * scl p l * XI).
    - unfold Rdiv. ring.
    - rewrite EX, EI. unfold Rdiv. ring.
  Qed.
  End Ode.
End Sol.
