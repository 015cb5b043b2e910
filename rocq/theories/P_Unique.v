(** The boundary system has one solution, so the boundary-value problem has one. *)
From Coq Require Import Classical String Reals Lra Lia List Bool Arith ZArith.
From Coquelicot Require Import Coquelicot.
From Verif Require Import Base Tensor Spec M_LinAlg Spec_RTE Calc M_Subroutines M_GenPart M_MathscrV M_Coeffs M_Assemble M_Pydisort
  P_Sub P_GenPart3 P_Tensor P_MathscrV P_Coeffs P_Coeffs2 P_Coeffs3 P_Assemble P_Solve Spec_Sol P_Valid P_Pydisort P_Pydisort2 P_Pydisort3 P_Pydisort4 P_Pydisort5 P_LinA.
Import ListNotations.
Local Open Scope R_scope.

(** The answer of either linear solver is the only solution of the dense system. *)
Lemma mode_only g la m C bd r0 r1 : (1 <= sc_N g)%nat -> (1 <= sc_NLayers g)%nat -> linalg_unique la ->
  mode_coeffs g la m = Ok C -> bd_terms g m = Ok bd -> rhs_bc g m (fun _ => 0) = Ok r0 -> rhs_iso g m bd r0 = Ok r1 ->
  forall y : vec, (forall i, (i < sc_NLayers g * (2 * sc_N g))%nat ->
    rsum (sc_NLayers g * (2 * sc_N g)) (fun j => dense_lhs g m bd (fun _ _ => 0) i j * y j) = rhs_beam g m bd r1 i) ->
  forall i, (i < sc_NLayers g * (2 * sc_N g))%nat -> y i = of_list C i.
Proof.
  intros HN HNL Hlu H Hb E0 E1 y Hy. set (dim := (sc_NLayers g * (2 * sc_N g))%nat) in *.
  unfold mode_coeffs in H. rewrite Hb in H. cbn [bind] in H. unfold mode_rhs in H. rewrite E0 in H. cbn [bind] in H. rewrite E1 in H. cbn [bind] in H.
  unfold mode_solve in H. destruct (Nat.leb _ _) in H.
  - destruct (band_sim g HN HNL m bd _ _ (Rel_0 g)) as (F0 & EF & R0). rewrite EF in H. cbn [bind] in H.
    destruct (la_solve_banded la _ _ _ _) as [z|] eqn:Es; [|discriminate]. injection H as ->.
    intros i Hi. refine (banded_unique la Hlu dim _ _ _ _ _ Es y _ i Hi).
    intros k Hk. rewrite <- (Hy k Hk). apply rsum_ext. intros j Hj. f_equal.
    pose proof (banded_reads g HN HNL F0 k j Hk Hj) as HBr. etransitivity; [exact HBr|]. apply (proj1 R0); auto.
  - destruct (la_solve la _ _) as [z|] eqn:Es; [|discriminate]. injection H as ->.
    intros i Hi. exact (solve_unique la Hlu dim _ _ _ Es y Hy i Hi).
Qed.

Section Hom.
  Variable a : as_in.
  Hypothesis Ha : as_good a.
  Variable la : linalg.
  Hypothesis Hla : linalg_ok la.
  Hypothesis Hlu : linalg_unique la.
  Variable jk : junk.
  Variable sv : solved.
  Hypothesis Hsv : solve_all a la jk = Ok sv.
  Let N := a_N a.
  Let NQ := (2 * a_N a)%nat.
  Let NL := a_NLayers a.
  Let NF := a_NFourier a.
  Variable m : nat.
  Hypothesis Hm : (m < NF)%nat.

  (** Combination of the exponential solutions with coefficients [y l k]. *)
  Definition hom (y : nat -> nat -> R) (l q : nat) (x : R) : R :=
    rsum NQ (fun k => sv_G sv m l q k * y l k * exp (sv_K sv m l k * (x - ref_top a l k))).

  Theorem hom_zero bd y : (exists o, bd_terms (sc_of a o) m = Ok bd) ->
    (forall i, (i < N)%nat -> hom y 0 (N + i) 0 = 0) ->
    (forall l i, (S l < NL)%nat -> (i < NQ)%nat -> hom y l i (a_stau0 a (S l)) = hom y (S l) i (a_stau0 a (S l))) ->
    (forall i, (i < N)%nat -> hom y (NL - 1) i (a_stau0 a NL) = rsum N (fun p => bdR bd i p * hom y (NL - 1) (N + p) (a_stau0 a NL))) ->
    forall l k, (l < NL)%nat -> (k < NQ)%nat -> y l k = 0.
  Proof.
    intros (o' & Hbd') T I B.
    destruct (solve_parts a Ha la jk sv Hsv) as (o & Ho & EG & EK & EB & Egm & HGC). destruct (HGC m Hm) as (C & HC & EGC).
    destruct (mode_system (sc_of a o) (g_N a Ha) (g_NL a Ha) la Hla m C HC) as (bd0 & r0 & r1 & Hbd & H0 & H1 & Hsys).
    assert (bd0 = bd) by (change (bd_terms (sc_of a o') m) with (bd_terms (sc_of a o) m) in Hbd'; congruence). subst bd0.
    assert (HK' : sc_iso (sc_of a o) = true -> forall l k, (l < sc_NLayers (sc_of a o))%nat -> (k < 2 * sc_N (sc_of a o))%nat -> sc_K (sc_of a o) 0%nat l k <> 0).
    { intros _ l k Hl Hk. cbn. rewrite <- EK. apply (sv_K_ne a Ha la Hla jk sv Hsv); auto. apply (g_NF a Ha). }
    assert (Hanti : forall l j, (l < sc_NLayers (sc_of a o))%nat -> (j < sc_N (sc_of a o))%nat -> sc_K (sc_of a o) m l j = - sc_K (sc_of a o) m l (sc_N (sc_of a o) + j)%nat).
    { intros l j Hl Hj. cbn. rewrite <- EK. apply (sv_K_sign a Ha la Hla jk sv Hsv); auto. }
    pose proof (fun M => system_bc (sc_of a o) (g_N a Ha) (g_NL a Ha) (g_multi a Ha) m HK' bd Hanti (g_st0 a Ha) (of_list C)
                M (fun _ => 0) r0 r1) as SB.
    destruct (SB _ (zero_out_0 _) H0 H1 Hsys) as (bneg & bpos & E1 & E2 & B1 & B2 & B3). clear SB.
    assert (HNQ : (1 <= NQ)%nat) by (pose proof (g_N a Ha); unfold NQ; lia).
    set (C' := fun idx => of_list C idx + y (idx / NQ)%nat (idx mod NQ)%nat).
    assert (EC' : forall l k, (k < NQ)%nat -> C' (l * NQ + k)%nat = of_list C (l * NQ + k)%nat + y l k).
    { intros l k Hk. unfold C'. f_equal. f_equal.
      - rewrite Nat.div_add_l by lia. rewrite Nat.div_small by auto. lia.
      - rewrite Nat.add_comm, Nat.mod_add by lia. apply Nat.mod_small; auto. }
    assert (HF : forall l q x, field (sc_of a o) m (fun l i j => sc_G (sc_of a o) m l i j * C' (l * (2 * sc_N (sc_of a o)) + j)%nat) l q x
      = field (sc_of a o) m (fun l i j => sc_G (sc_of a o) m l i j * of_list C (l * (2 * sc_N (sc_of a o)) + j)%nat) l q x + hom y l q x).
    { intros l q x. unfold field, hom. cbn [sc_of sc_N sc_G sc_K]. fold N NQ.
      match goal with |- ?s1 + ?b + ?c = ?s2 + ?b + ?c + ?s3 => enough (s1 = s2 + s3) by lra end.
      rewrite <- rsum_plus. apply rsum_ext. intros k Hk. rewrite EC' by auto. rewrite EG, EK.
      replace (ref_depth (sc_of a o) l k) with (ref_top a l k); [change (2 * N)%nat with NQ; ring|]. unfold ref_top, ref_depth. cbn [sc_of sc_N sc_tau0]. rewrite Nat.add_1_r. reflexivity. }
    assert (Hy : forall i, (i < NL * NQ)%nat -> C' i = of_list C i).
    { apply (mode_only (sc_of a o) la m C bd r0 r1 (g_N a Ha) (g_NL a Ha) Hlu HC Hbd H0 H1).
      apply (bc_system (sc_of a o) (g_N a Ha) (g_NL a Ha) (g_multi a Ha) m HK' bd Hanti (g_st0 a Ha) C' (fun _ _ => 0) (fun _ => 0) r0 r1 bneg bpos (zero_out_0 _) H0 H1 E1 E2).
      - intros i Hi. rewrite HF, (B1 i Hi). change (sc_N (sc_of a o)) with N. rewrite T by auto. ring.
      - intros l i Hl Hi. rewrite !HF, (B2 l i Hl Hi). change (sc_tau0 (sc_of a o)) with (a_stau0 a). rewrite Nat.add_1_r. f_equal. apply I; auto.
        change (sc_NLayers (sc_of a o)) with NL in Hl. lia.
      - intros i Hi. rewrite HF, (B3 i Hi). change (sc_tau0 (sc_of a o)) with (a_stau0 a). change (sc_NLayers (sc_of a o)) with NL. change (sc_N (sc_of a o)) with N.
        rewrite B by auto.
        rewrite (rsum_ext N (fun p => bdR bd i p * field (sc_of a o) m (fun l i j => sc_G (sc_of a o) m l i j * C' _) _ _ _) (fun p => bdR bd i p * field (sc_of a o) m (fun l i j => sc_G (sc_of a o) m l i j * of_list C (l * (2 * sc_N (sc_of a o)) + j)%nat) (NL - 1) (N + p) (a_stau0 a NL)
            + bdR bd i p * hom y (NL - 1) (N + p) (a_stau0 a NL))) by (intros; rewrite HF; ring).
        rewrite rsum_plus. change (sc_N (sc_of a o)) with N. ring. }
    intros l k Hl Hk. assert (Hi : (l * NQ + k < NL * NQ)%nat) by nia. specialize (Hy _ Hi). rewrite EC' in Hy by auto. lra.
  Qed.

  Lemma sv_bd : exists bd o, bd_terms (sc_of a o) m = Ok bd.
  Proof. destruct (fld_bc a Ha la Hla jk sv Hsv m Hm) as (bd & _ & _ & o & H & _). eauto. Qed.

  (** The eigenvectors of a layer are independent. *)
  Theorem G_inj l : (l < NL)%nat -> inj NQ (sv_G sv m l).
  Proof.
    intros Hl. destruct (cutoff_ex (a_omega a l) (a_wLeg a l) (a_NLeg a) m) as (wg' & Hc).
    destruct (sv_eigen a Ha la Hla jk sv Hsv m l wg' Hm Hl Hc) as [HA _].
    apply (eig_inj NQ _ _ _ HA). intros lam v Hv HK.
    destruct sv_bd as (bd & o & Hbd).
    set (y := fun l' k => if Nat.eqb l' l then v k * exp (sv_K sv m l k * ref_top a l k) else 0).
    assert (Z : forall l' q x, (q < NQ)%nat -> hom y l' q x = 0).
    { intros l' q x Hq. unfold hom, y. destruct (Nat.eqb_spec l' l) as [->|]; [|apply rsum_0; intros; ring].
      rewrite (rsum_ext NQ _ (fun k => sv_G sv m l q k * v k * exp (lam * x))).
      - rewrite rsum_scal_r, Hv by auto. ring.
      - intros k Hk. destruct (Req_dec (v k) 0) as [E|E]; [rewrite E; ring|]. rewrite <- (HK k Hk E).
        replace (sv_K sv m l k * x) with (sv_K sv m l k * ref_top a l k + sv_K sv m l k * (x - ref_top a l k)) by ring. rewrite exp_plus. ring. }
    intros j Hj. assert (E : y l j = 0).
    { apply (hom_zero bd y); eauto.
      - intros i Hi. apply Z. unfold NQ, N in *. lia.
      - intros l' i _ Hi. rewrite !Z by auto. reflexivity.
      - intros i Hi. rewrite Z by (unfold NQ, N in *; lia). rewrite rsum_0; auto. intros p Hp. rewrite Z by (unfold NQ, N in *; lia). ring. }
    unfold y in E. rewrite Nat.eqb_refl in E. apply Rmult_integral in E as [E|E]; auto. pose proof (exp_pos (sv_K sv m l j * ref_top a l j)). lra.
  Qed.
End Hom.

Lemma layer_range p : valid p -> forall l t, (l < nlayers p)%nat -> top_of p l <= t <= bot_of p l -> 0 <= t <= bottom p.
Proof.
  intros V l t Hl Ht. split.
  - destruct l; [exact (proj1 Ht)|]. change (bot_of p l <= t <= bot_of p (S l)) in Ht.
    pose proof (v_tau p V l ltac:(unfold nlayers in *; lia)) as H. change (0 < bot_of p l) in H. lra.
  - rewrite (bottom_eq p). pose proof (bots_mono p V l (nlayers p - 1) ltac:(lia) ltac:(lia)). lra.
Qed.

Section Sol.
  Variable p : py_in.
  Hypothesis V : valid p.
  Variable lg : leggauss_t.
  Hypothesis Hlg : leggauss_ok (half p) (lg (half p)).
  Variables (ss : nat -> vec) (r : R).
  Hypothesis Hss : scaled_s p = Ok ss.
  Hypothesis Hr : rescale p ss = Ok r.
  Let a := assemble_args p lg r ss.
  Let N := half p.
  Let NL := nlayers p.
  Variable la : linalg.
  Hypothesis Hla : linalg_ok la.
  Hypothesis Hlu : linalg_unique la.
  Variable jk : junk.
  Variable sv : solved.
  Hypothesis Hsv : solve_all a la jk = Ok sv.
  Let Ha : as_good a := a_good p V lg Hlg ss r.
  Variable m : nat.
  Hypothesis Hm : (m < nmodes p)%nat.
  Let nu i := nth i (mu_arr p lg) 0.

  (** A field without sources vanishes. *)
  Theorem hom_unique_bd bd (Z : nat -> R -> R) : (exists o, bd_terms (sc_of a o) m = Ok bd) ->
    (forall l i wg t, (l < NL)%nat -> (i < 2 * N)%nat -> top_of p l < t < bot_of p l ->
       is_cutoff (a_omega a l) (a_wLeg a l) (a_NLeg a) m wg ->
       is_derive (Z i) t (scl p l * rsum (2 * N) (fun j => A_spec N (quad_mu p lg) (quad_W p lg) (a_omega a l) wg (ncoeffs p) m i j * Z j t))) ->
    (forall i, (i < 2 * N)%nat -> cont_on 0 (bottom p) (Z i)) ->
    (forall i, (i < N)%nat -> Z (N + i)%nat 0 = 0) ->
    (forall i, (i < N)%nat -> Z i (bottom p) = rsum N (fun j => bdR bd i j * Z (N + j)%nat (bottom p))) ->
    forall i t, (i < 2 * N)%nat -> 0 <= t <= bottom p -> Z i t = 0.
  Proof.
    intros (o & Hbd) HD HC HT HB. set (NQ := (2 * N)%nat) in *.
    assert (HmF : (m < a_NFourier a)%nat) by (cbn; rewrite <- nmodes_eq; exact Hm).
    (* exponential form in every layer *)
    assert (F : exists y : nat -> vec, forall l, (l < NL)%nat -> forall i t, (i < NQ)%nat -> top_of p l <= t <= bot_of p l ->
      Z i t = hom a sv m y l i (depth_s p l t)).
    { apply (fin_choice (fun _ => 0) (fun l (y : vec) => forall i t, (i < NQ)%nat -> top_of p l <= t <= bot_of p l -> Z i t = hom a sv m (fun _ => y) l i (depth_s p l t))).
      intros l Hl.
      destruct (cutoff_ex (a_omega a l) (a_wLeg a l) (a_NLeg a) m) as (wg' & Hc').
      destruct (sv_eigen a Ha la Hla jk sv Hsv m l wg' HmF Hl Hc') as [HA _].
      pose proof (G_inj a Ha la Hla Hlu jk sv Hsv m HmF l Hl) as HG.
      destruct (hom_form NQ _ _ _ (scl p l) Z (top_of p l) (bot_of p l) (v_inc p V l Hl) HG HA) as (y & Hy).
      - intros i t Hi Ht. exact (HD l i wg' t Hl Hi Ht Hc').
      - intros i Hi. intros x Hx e He. destruct (HC i Hi x) with (eps := e) as (d & Hd & Hc2); auto.
        + apply (layer_range p V l); auto.
        + exists d. split; auto. intros z Hz. apply Hc2. apply (layer_range p V l); auto.
      - exists (fun k => y k * exp (sv_K sv m l k * (ref_top a l k - depth_s p l 0))). intros i t Hi Ht. rewrite (Hy i t Hi Ht).
        unfold hom. apply rsum_ext. intros k Hk.
        replace (scl p l * sv_K sv m l k * t) with (sv_K sv m l k * (ref_top a l k - depth_s p l 0) + sv_K sv m l k * (depth_s p l t - ref_top a l k)) by (unfold depth_s; ring).
        rewrite exp_plus. ring. }
    destruct F as (y & Hy).
    assert (HL : (1 <= NL)%nat) by exact (v_ne p V).
    assert (Hb : bottom p = bot_of p (NL - 1)) by apply bottom_eq.
    assert (Ht0 : forall i, (i < NQ)%nat -> Z i 0 = hom a sv m y 0 i 0).
    { intros i Hi. rewrite (Hy 0%nat ltac:(lia) i 0 Hi). 
      - f_equal. unfold depth_s. cbn [top_of rsum]. ring.
      - cbn [top_of]. pose proof (v_inc p V 0%nat HL) as H. cbn [top_of] in H. change (bot_of p 0) with (nth 0 (p_tau p) 0) in *. lra. }
    assert (Hbt : forall i, (i < NQ)%nat -> Z i (bottom p) = hom a sv m y (NL - 1) i (a_stau0 a NL)).
    { intros i Hi. rewrite (Hy (NL - 1)%nat ltac:(lia) i _ Hi).
      - f_equal. rewrite Hb. rewrite <- depth_s_bot by (auto; fold NL; lia). cbn [a assemble_args a_stau0]. f_equal. lia.
      - rewrite Hb. pose proof (v_inc p V (NL - 1)%nat ltac:(unfold NL, nlayers in *; lia)) as H. change (bot_of p (NL - 1)) with (nth (NL - 1) (p_tau p) 0) in *.
        change (top_of p (NL - 1) < nth (NL - 1) (p_tau p) 0) in H. lra. }
    assert (Y0 : forall l k, (l < NL)%nat -> (k < NQ)%nat -> y l k = 0).
    { apply (hom_zero a Ha la Hla Hlu jk sv Hsv m HmF bd y); eauto; change (a_N a) with N; change (a_NLayers a) with NL.
      - intros i Hi. rewrite <- Ht0 by (unfold NQ; lia). apply HT; auto.
      - intros l i Hl Hi. cbn [a assemble_args a_stau0].
        pose proof (v_inc p V l ltac:(unfold NL, nlayers in *; lia)) as O1. pose proof (v_inc p V (S l) Hl) as O2.
        change (top_of p l < bot_of p l) in O1. change (bot_of p l < bot_of p (S l)) in O2.
        transitivity (Z i (bot_of p l)).
        + rewrite (Hy l ltac:(lia) i _ Hi) by lra. f_equal. symmetry. rewrite <- depth_s_bot by (auto; fold NL; lia). reflexivity.
        + rewrite (Hy (S l) Hl i (bot_of p l) Hi) by (change (top_of p (S l)) with (bot_of p l); lra). f_equal. symmetry. apply (depth_s_top p V (S l)). unfold NL, nlayers in *. lia.
      - intros i Hi. rewrite <- Hbt by (unfold NQ; lia). rewrite HB by auto.
        apply rsum_ext. intros q Hq. rewrite Hbt by (unfold NQ; lia). reflexivity. }
    intros i t Hi Ht. destruct (layer_at_ex p V t Ht) as (l & Hl & Hlt).
    rewrite (Hy l Hl i t Hi).
    - unfold hom. apply rsum_0. intros k Hk. rewrite Y0 by auto. ring.
    - destruct Hlt as [Hlt|[E1 E2]]; [lra|]. subst l t. cbn [top_of]. pose proof (v_inc p V 0%nat HL) as H. change (0 < bot_of p 0) in H. lra.
  Qed.

  Variable rho : R -> R -> R.
  Hypothesis Hrho : (m < length (p_BDRF p))%nat -> mode_is (nth m (p_BDRF p) (MScal 0)) rho.
  Theorem hom_unique (Z : nat -> R -> R) :
    (forall l i wg t, (l < NL)%nat -> (i < streams p)%nat -> top_of p l < t < bot_of p l ->
       is_cutoff (albedo_s p l) (wphase_s p l) (ncoeffs p) m wg ->
       is_derive (Z i) t (scl p l * (Z i t - rsum (streams p) (fun j => wnode N (quad_W p lg) j * D_spec (albedo_s p l) wg (ncoeffs p) m (nu i) (nu j) * Z j t)) / nu i)) ->
    (forall i, (i < streams p)%nat -> cont_on 0 (bottom p) (Z i)) ->
    (forall i, (i < N)%nat -> Z (N + i)%nat 0 = 0) ->
    (forall i, (i < N)%nat -> Z i (bottom p) = if Nat.ltb m (length (p_BDRF p)) then
         (if Nat.eqb m 0 then 2 else 1) * rsum N (fun j => rho (nu i) (nu j) * nu j * quad_W p lg j * Z (N + j)%nat (bottom p)) else 0) ->
    forall i t, (i < streams p)%nat -> 0 <= t <= bottom p -> Z i t = 0.
  Proof.
    intros HD HC HT HB.
    assert (HmF : (m < a_NFourier a)%nat) by (cbn; rewrite <- nmodes_eq; exact Hm).
    rewrite (streams_eq p V) in *. fold N in HD, HC |- *.
    assert (Hnu : forall k, (k < 2 * N)%nat -> node N (quad_mu p lg) k = nu k) by (intros k Hk; symmetry; apply mu_arr_node; auto).
    destruct (sv_bd a Ha la Hla jk sv Hsv m HmF) as (bd & o & Hbd).
    apply (hom_unique_bd bd Z); eauto.
    - intros l i wg' t Hl Hi Ht Hc'.
      assert (Hom : a_omega a l = albedo_s p l) by (apply scaled_omega_eq; auto). rewrite Hom in Hc' |- *.
      destruct (cutoff_transfer (albedo_s p l) (wphase_s p l) (weighted_scaled_Leg p l) (ncoeffs p) m wg') as (wg & Hc & Hw); auto.
      { intros k. symmetry. apply wleg_eq; auto. }
      refine (der_eq _ _ _ _ _ (HD l i wg t Hl Hi Ht Hc)).
      rewrite (rsum_ext (2 * N) (fun j => A_spec N (quad_mu p lg) (quad_W p lg) (albedo_s p l) wg' (ncoeffs p) m i j * Z j t)
           (fun j => (delta i j * Z j t - wnode N (quad_W p lg) j * D_spec (albedo_s p l) wg (ncoeffs p) m (nu i) (nu j) * Z j t) / nu i)).
      + rewrite rsum_div, rsum_minus. rewrite (rsum_single (2 * N) i (fun j => delta i j * Z j t)) by (auto; intros j Hj Hne; rewrite delta_ne by auto; ring).
        rewrite delta_eq. unfold Rdiv. ring.
      + intros j Hj. unfold A_spec. rewrite !Hnu by auto. rewrite (D_spec_om _ wg' wg) by auto. unfold Rdiv. ring.
    - intros i Hi. rewrite HB by auto. destruct (bd_terms_val (sc_of a o) m (g_N a Ha) bd Hbd rho Hrho i Hi) as [ER _].
      cbn [sc_of sc_BDRF sc_mu sc_muW] in ER. change (a_BDRF a) with (p_BDRF p) in ER.
      destruct (Nat.ltb m (length (p_BDRF p))).
      + rewrite <- rsum_scal. apply rsum_ext. intros j Hj. rewrite ER by auto. rewrite <- !Hnu by lia. unfold node.
        rewrite !(proj2 (Nat.ltb_lt _ N)) by auto. cbn [a assemble_args a_mu a_W]. ring.
      + symmetry. apply rsum_0. intros j Hj. rewrite ER by auto. ring.
  Qed.
End Sol.
