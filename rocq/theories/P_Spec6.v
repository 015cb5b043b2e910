(** Calls on physical atmospheres: when they succeed and that the answer is the only one. *)
From Coq Require Import Classical String Reals Lra Lia List Bool Arith ZArith.
From Coquelicot Require Import Coquelicot.
From Verif Require Import Base Tensor Spec M_LinAlg Spec_RTE Calc M_Subroutines M_GenPart M_MathscrV M_Coeffs M_Assemble M_Pydisort
  P_Quad P_Sub P_Special P_GenPart P_GenPart2 P_GenPart3 P_GenPart4 P_Tensor P_MathscrV P_Coeffs P_Coeffs2 P_Coeffs3 P_Assemble P_Solve P_LinA
  Spec_Sol Spec_Valid Spec_Calls Spec_Unique Spec_Phys Spec_Solved Spec_Rates P_Valid P_Pydisort P_Pydisort2 P_Pydisort3 P_Pydisort4 P_Pydisort5 P_NT3 P_Absorb P_Unique P_Unique2 P_Unique3
  P_Max P_Max2 P_Spec1 P_Spec2 P_Spec3 P_Spec4 P_Spec5.
Import ListNotations.
Local Open Scope R_scope.

Lemma beam_iff p lg r ss : a_beam (assemble_args p lg r ss) = true <-> 0 < p_I0 p.
Proof. cbn. apply Rltb_iff. Qed.

(** In every mode and layer that scatter radiation of either symmetry loses, and without sources
    there is no radiation. *)
Definition core (p : py_in) (mu : list R) (w : nat -> R) (rho : nat -> R -> R -> R) : Prop :=
  (forall m l s, (m < nmodes p)%nat -> (l < nlayers p)%nat -> ~ negligible (albedo_s p l) (wphase_s p l) (ncoeffs p) m -> s = 1 \/ s = -1 -> loses p mu w m l s) /\
  forall m F, (m < nmodes p)%nat -> free p mu w m (Rmat p mu w rho m) F -> forall i t, (i < 2 * half p)%nat -> 0 <= t <= bottom p -> F i t = 0.
Lemma phys_core p mu w rho : valid p -> double_gauss (half p) mu w -> physical p mu w rho -> core p mu w rho.
Proof.
  intros V HD HP. split.
  - intros m l s _ Hl _ Hs. exact (phys_loses p V mu w rho HD HP m l s Hl Hs).
  - intros m F _ HF. exact (phys_zero p V mu w rho HD HP m F HF).
Qed.

Theorem core_ok p lg la jk rho : valid p -> leggauss_ok (half p) (lg (half p)) -> linalg_ok la -> linalg_complete la -> linalg_total la ->
  (forall mu w, double_gauss (half p) mu w -> core p mu w rho) ->
  (0 < p_I0 p -> forall mu w m l, double_gauss (half p) mu w -> (m < nmodes p)%nat -> (l < nlayers p)%nat -> ~ resonant p mu w m l) ->
  (exists v, bc_values (p_bpos p) (half p) v) -> (exists v, bc_values (p_bneg p) (half p) v) ->
  (forall m, (m < length (p_BDRF p))%nat -> mode_is (nth m (p_BDRF p) (MScal 0)) (rho m)) ->
  (~ has_source p -> nrow (p_s p) = 1%nat \/ nrow (p_s p) = nlayers p) ->
  (has_source p -> 0 < p_I0 p \/ positive_entry (p_bpos p) \/ positive_entry (p_bneg p)) ->
  (p_NT p = true -> forall x, In x (fst (Gauss_Legendre_quad lg (half p) 0 1)) -> 1 / 100000000 <= Rabs (x - p_mu0 p)) ->
  exists out, pydisort p lg la jk = Ok out.
Proof.
  intros V Hlg Hla Hlc Hlt Hphy Hres Hbp Hbn Hbd Hns Hsrc HNT. unfold pydisort. rewrite (proj2 (validate_iff p) V). cbn [bind].
  assert (HA : NT_angle_ok p lg = true).
  { unfold NT_angle_ok. destruct (p_NT p) eqn:E; [|reflexivity]. cbn [andb]. apply negb_true_iff. apply not_true_is_false. intros H.
    apply existsb_exists in H as (i & Hi & H). apply in_seq in Hi. apply Rltb_iff in H.
    destruct (GL_lengths lg (half p) 0 1 Hlg) as [L1 _].
    assert (Hin : In (quad_mu p lg i) (fst (Gauss_Legendre_quad lg (half p) 0 1))).
    { unfold quad_mu, of_list. apply nth_In. change (pN p) with (half p) in *. lia. }
    specialize (HNT eq_refl _ Hin). lra. }
  rewrite HA. cbn [check bind]. destruct (prep_ok p V Hns Hsrc) as (ss & r & -> & Er). cbn [bind]. rewrite Er. cbn [bind].
  assert (X : exists sv, solve_all (assemble_args p lg r ss) la jk = Ok sv); [|destruct X as (sv & ->); cbn [bind]; eauto].
  pose proof (mu_arr_gauss p lg Hlg) as HD.
  apply (phys_solve p V lg Hlg ss r la Hla Hlc Hlt rho (proj1 (Hphy _ _ HD)) (proj2 (Hphy _ _ HD))).
  - intros Hb m l Hm Hl. apply Hres; auto. apply (beam_iff p lg r ss). exact Hb.
  - intros Hb. apply (beam_iff p lg r ss) in Hb. apply (v_mu0 p V Hb).
  - exact Hbd.
  - intros o m. apply (b_mode_total p); auto. exact (v_bneg p V).
  - intros o m. apply (b_mode_total p); auto. exact (v_bpos p V).
Qed.

Theorem physical_ok p lg la jk rho : valid p -> leggauss_ok (half p) (lg (half p)) -> linalg_ok la -> linalg_complete la -> linalg_total la ->
  (forall mu w, double_gauss (half p) mu w -> physical p mu w rho) ->
  (0 < p_I0 p -> forall mu w m l, double_gauss (half p) mu w -> (m < nmodes p)%nat -> (l < nlayers p)%nat -> ~ resonant p mu w m l) ->
  (exists v, bc_values (p_bpos p) (half p) v) -> (exists v, bc_values (p_bneg p) (half p) v) ->
  (forall m, (m < length (p_BDRF p))%nat -> mode_is (nth m (p_BDRF p) (MScal 0)) (rho m)) ->
  (~ has_source p -> nrow (p_s p) = 1%nat \/ nrow (p_s p) = nlayers p) ->
  (has_source p -> 0 < p_I0 p \/ positive_entry (p_bpos p) \/ positive_entry (p_bneg p)) ->
  (p_NT p = true -> forall x, In x (fst (Gauss_Legendre_quad lg (half p) 0 1)) -> 1 / 100000000 <= Rabs (x - p_mu0 p)) ->
  exists out, pydisort p lg la jk = Ok out.
Proof. intros V Hlg Hla Hlc Hlt Hphy. apply (core_ok p lg la jk rho); auto. intros mu w HD. apply phys_core; auto. Qed.

(** A right inverse makes a square matrix injective. *)
Lemma right_inv_inj n (G L : mat) : (forall i j, (i < n)%nat -> (j < n)%nat -> rsum n (fun q => G i q * L q j) = delta i j) -> inj n G.
Proof.
  intros H. assert (GL : forall y i, (i < n)%nat -> rsum n (fun j => G i j * rsum n (fun k => L j k * y k)) = y i).
  { intros y i Hi. rewrite (rsum_ext n _ (fun j => rsum n (fun k => G i j * L j k * y k))) by (intros; rewrite <- rsum_scal; apply rsum_ext; intros; ring).
    rewrite rsum_swap. rewrite (rsum_ext n _ (fun k => delta i k * y k)); [apply rsum_delta_l; auto|]. intros k Hk. rewrite rsum_scal_r, H by auto. reflexivity. }
  assert (HL : inj n L).
  { intros y Hy i Hi. rewrite <- (GL y i Hi). apply rsum_0. intros j Hj. rewrite Hy by auto. ring. }
  intros d Hd j Hj. destruct (inj_surj n L HL d) as (y & Hy). rewrite <- (Hy j Hj). apply rsum_0. intros k Hk.
  replace (y k) with 0; [ring|]. rewrite <- (GL y k Hk), <- (Hd k Hk). apply rsum_ext. intros q Hq. rewrite Hy by auto. reflexivity.
Qed.

(** Under resonance there is no answer. *)
Section Res.
  Variables (p : py_in) (lg : leggauss_t).
  Hypothesis V : valid p.
  Hypothesis Hlg : leggauss_ok (half p) (lg (half p)).
  Variables (ss : nat -> vec) (r : R).
  Let a := assemble_args p lg r ss.
  Let N := half p.
  Let NQ := (2 * N)%nat.
  Variables (la : linalg) (jk : junk) (sv : solved).
  Hypothesis Hla : linalg_ok la.
  Hypothesis Hlu : linalg_unique la.
  Hypothesis Hsv : solve_all a la jk = Ok sv.
  Let Ha : as_good a := a_good p V lg Hlg ss r.

  Lemma no_resonance_lem m l : 0 < p_I0 p -> (m < nmodes p)%nat -> (l < nlayers p)%nat -> ~ resonant p (mu_arr p lg) (quad_W p lg) m l.
  Proof.
    intros HI Hm Hl (Hn & v & (i0 & Hi0 & Hv0) & Hv). apply Hv0. rewrite (streams_eq p V) in Hi0, Hv. fold N in Hi0, Hv. fold NQ in Hi0, Hv.
    assert (Hb : a_beam a = true) by (apply beam_iff; exact HI).
    assert (Hmu0 : 0 < p_mu0 p) by apply (v_mu0 p V HI).
    assert (HmF : (m < gp_NFourier (gp_of a))%nat) by (cbn; rewrite <- nmodes_eq; exact Hm).
    assert (Hs : scatters (gp_of a) m l = true) by (apply (scat_neg p V lg ss r m l Hl); exact Hn).
    assert (HA : forall i, (i < NQ)%nat -> rsum NQ (fun j => Af (gp_of a) m l (gp_wLeg (gp_of a) l) i j * v j) + v i * (1 / gp_mu0 (gp_of a)) = 0).
    { intros i Hi. apply (res_eq p V lg Hlg ss r m l v i Hl Hi Hmu0). apply Hv. exact Hi. }
    unfold solve_all in Hsv. apply bind_Ok in Hsv as (o & Ho & _).
    pose proof (out_char (gp_of a) la _ _ _ _ _ o Ho m l HmF Hl) as C. rewrite Hs in C.
    destruct C as (e & He & HG & HK & Hiso & Hbm). destruct (Hbm Hb) as [HB1 HB2].
    
    destruct (classic (gp_iso (gp_of a) = true /\ m = 0%nat)) as [[Hi Hm0]|Hni].
    - destruct (Hiso Hi Hm0) as (L & EL & EGi). destruct (HB1 Hi Hm0) as (X & _ & HB).
      unfold B_from_inv in HB. destruct (forallb _ _) eqn:EF; [|discriminate]. clear HB.
      assert (KN : forall j, (j < NQ)%nat -> 1 / gp_mu0 (gp_of a) + o_K o m l j <> 0).
      { intros j Hj. rewrite forallb_forall in EF. specialize (EF j ltac:(apply in_seq; change (2 * gp_N (gp_of a))%nat with NQ; lia)).
        apply negb_true_iff in EF. intros E0. apply Reqb_iff in E0. congruence. }
      pose proof (inv_ok la Hla NQ (o_G o m l) L EL) as HL.
      (* v = G c *)
      set (c := fun j => rsum NQ (fun k => of_rows L j k * v k)).
      assert (Ev : forall i, (i < NQ)%nat -> rsum NQ (fun j => o_G o m l i j * c j) = v i).
      { intros i Hi'. unfold c. rewrite (rsum_ext NQ _ (fun j => rsum NQ (fun k => o_G o m l i j * (of_rows L j k * v k)))) by (intros; symmetry; apply rsum_scal).
        rewrite rsum_swap. rewrite (rsum_ext NQ _ (fun k => delta i k * v k)); [apply rsum_delta_l; auto|].
        intros k Hk. rewrite (rsum_ext NQ _ (fun j => o_G o m l i j * of_rows L j k * v k)) by (intros; ring). rewrite rsum_scal_r. f_equal. apply HL; auto. }
      destruct (cutoff_ex (a_omega a l) (a_wLeg a l) (a_NLeg a) m) as (wg & Hc).
      destruct (eigen_pairs (gp_of a) (g_mu a Ha) la Hla _ _ _ _ _ o Ho m l (gp_wLeg (gp_of a) l) HmF Hl) as [EP _].
      { split; [|reflexivity]. intros HN. exfalso. apply scatters_iff in Hs. contradiction. }
      change (2 * gp_N (gp_of a))%nat with NQ in EP.
      assert (Z : forall i, (i < NQ)%nat -> rsum NQ (fun j => o_G o m l i j * ((1 / gp_mu0 (gp_of a) + o_K o m l j) * c j)) = 0).
      { intros i Hi'. rewrite <- (HA i Hi'), <- (Ev i Hi').
        rewrite (rsum_ext NQ (fun j => Af (gp_of a) m l (gp_wLeg (gp_of a) l) i j * v j) (fun j => rsum NQ (fun k => Af (gp_of a) m l (gp_wLeg (gp_of a) l) i j * o_G o m l j k * c k))).
        - rewrite rsum_swap. rewrite <- rsum_scal_r, <- rsum_plus. apply rsum_ext. intros k Hk. rewrite rsum_scal_r. rewrite EP by auto. ring.
        - intros j Hj. rewrite <- (Ev j Hj), <- rsum_scal. apply rsum_ext. intros. ring. }
      assert (Cz : forall j, (j < NQ)%nat -> c j = 0).
      { intros j Hj. pose proof (right_inv_inj NQ _ _ HL (fun j => (1 / gp_mu0 (gp_of a) + o_K o m l j) * c j) Z j Hj) as E0. cbn beta in E0.
        apply Rmult_integral in E0 as [E0|E0]; [|exact E0]. exfalso. exact (KN j Hj E0). }
      rewrite <- (Ev i0 Hi0). apply rsum_0. intros j Hj. rewrite Cz by auto. ring.
    - specialize (HB2 Hni). unfold B_from_solve in HB2. change (2 * gp_N (gp_of a))%nat with NQ in HB2.
      destruct (la_solve la _ _) as [x|] eqn:Ex; [|discriminate]. clear HB2.
      pose proof (solve_ok la Hla NQ _ _ _ Ex) as Hx. 
      assert (E : v i0 + of_list x i0 = of_list x i0); [|lra].
      refine (solve_unique la Hlu NQ _ _ _ Ex (fun i => v i + of_list x i) _ i0 Hi0). intros i Hi. rewrite <- (Hx i Hi).
      rewrite (rsum_ext NQ _ (fun j => A_full (gp_of a) (cA (gp_of a) m l) i j * v j + A_full (gp_of a) (cA (gp_of a) m l) i j * of_list x j)) by (intros; ring).
      rewrite rsum_plus. enough (rsum NQ (fun j => A_full (gp_of a) (cA (gp_of a) m l) i j * v j) = 0) by lra.
      rewrite <- (HA i Hi).
      rewrite (rsum_ext NQ _ (fun j => Af (gp_of a) m l (gp_wLeg (gp_of a) l) i j * v j + delta i j * (v j * (1 / gp_mu0 (gp_of a))))).
      + rewrite rsum_plus, rsum_delta_l by auto. reflexivity.
      + intros j Hj. rewrite (A_full_eq (gp_of a) (g_mu a Ha) m l i j) by auto. ring.
  Qed.
End Res.

Lemma resonant_w p mu w w' m l : streams p = (2 * half p)%nat -> (forall i, (i < half p)%nat -> w i = w' i) -> resonant p mu w m l -> resonant p mu w' m l.
Proof.
  intros Es Ew (Hn & v & Hv0 & Hv). split; [exact Hn|]. exists v. split; [exact Hv0|]. intros i Hi. rewrite Hv by exact Hi. f_equal. apply rsum_ext. intros j Hj.
  assert (wnode (half p) w j = wnode (half p) w' j) as ->; [|reflexivity]. unfold wnode. rewrite Es in Hj. destruct (Nat.ltb_spec j (half p)); apply Ew; lia.
Qed.

Theorem call_no_resonance p lg la jk out : linalg_ok la -> linalg_unique la -> leggauss_ok (half p) (lg (half p)) -> pydisort p lg la jk = Ok out ->
  0 < p_I0 p -> forall w m l, double_gauss (half p) (po_mu out) w -> (m < nmodes p)%nat -> (l < nlayers p)%nat -> ~ resonant p (po_mu out) w m l.
Proof.
  intros Hla Hlu Hlg H HI w m l Hw Hm Hl Hr. destruct (pydisort_parts _ _ _ _ _ H) as (V & ss & r & sv & Hs & Hr' & Hsv & E1 & _).
  rewrite E1 in *. pose proof (mu_arr_gauss p lg Hlg) as HQ. pose proof (dg_weights _ _ _ _ Hw HQ) as Ew.
  apply (no_resonance_lem p lg V Hlg ss r la jk sv Hla Hlu Hsv m l HI Hm Hl). apply (resonant_w p _ w); auto using streams_eq.
Qed.

(** One answer only, whatever the linear algebra does. *)
Lemma core_zo p lg ss r rho : valid p -> leggauss_ok (half p) (lg (half p)) -> core p (mu_arr p lg) (quad_W p lg) rho ->
  (forall m, (m < length (p_BDRF p))%nat -> mode_is (nth m (p_BDRF p) (MScal 0)) (rho m)) -> zero_only p lg (assemble_args p lg r ss).
Proof.
  intros V Hlg Hphy Hrho m bd Z Hm (o & Hbd) HD HC HT HB. set (a := assemble_args p lg r ss) in *.
  refine (proj2 Hphy m Z Hm _). split; [exact HC|]. split; [|split; [exact HT|]].
  - intros l i x Hl Hi Hx.
    assert (Hom : a_omega a l = albedo_s p l) by (apply scaled_omega_eq; auto).
    destruct (cutoff_ex (a_omega a l) (a_wLeg a l) (a_NLeg a) m) as (wg' & Hc'). pose proof Hc' as Hc0. rewrite Hom in Hc'.
    destruct (cutoff_transfer (albedo_s p l) (wphase_s p l) (weighted_scaled_Leg p l) (ncoeffs p) m wg') as (wg & Hc & Hw); auto.
    { intros k. symmetry. apply wleg_eq; auto. }
    exists wg. split; [exact Hc|]. refine (der_eq _ _ _ _ _ (HD l i wg' x Hl Hi Hx Hc0)).
    rewrite (rsum_ext (2 * half p) (fun j => A_spec _ _ _ _ _ _ _ _ _ * Z j x)
       (fun j => (delta i j * Z j x - wnode (half p) (quad_W p lg) j * D_spec (albedo_s p l) wg (ncoeffs p) m (nth i (mu_arr p lg) 0) (nth j (mu_arr p lg) 0) * Z j x) / nth i (mu_arr p lg) 0)).
    + rewrite rsum_div, rsum_minus, rsum_delta_l by auto. unfold Rdiv. ring.
    + intros j Hj. unfold A_spec. rewrite <- !(mu_arr_node p lg) by auto. rewrite Hom, (D_spec_om _ wg' wg) by auto. unfold Rdiv. ring.
  - intros i Hi. rewrite HB by auto. apply rsum_ext. intros q Hq. f_equal.
    destruct (bd_terms_val (sc_of a o) m (half_pos p V) bd Hbd (rho m) (Hrho m) i Hi) as [ER _]. rewrite ER by auto.
    cbn [sc_of sc_BDRF sc_mu sc_muW]. change (a_BDRF a) with (p_BDRF p). unfold Rmat. destruct (Nat.ltb m (length (p_BDRF p))); [|reflexivity].
    rewrite !(mu_arr_node p lg) by lia. unfold node. rewrite !(proj2 (Nat.ltb_lt _ (half p))) by auto. cbn [a assemble_args a_mu a_W]. ring.
Qed.

Theorem core_same p lg la la' jk jk' out out' rho : linalg_ok la -> linalg_ok la' -> leggauss_ok (half p) (lg (half p)) ->
  pydisort p lg la jk = Ok out -> pydisort p lg la' jk' = Ok out' ->
  (forall mu w, double_gauss (half p) mu w -> core p mu w rho) ->
  (forall m, (m < length (p_BDRF p))%nat -> mode_is (nth m (p_BDRF p) (MScal 0)) (rho m)) -> same_values out out'.
Proof.
  intros Hla Hla' Hlg H H' Hphy Hrho. assert (V : valid p) by apply (pydisort_parts _ _ _ _ _ H). apply (same_problem_zo p lg la la' jk jk'); auto.
  intros ss r sv _. apply (core_zo p lg ss r rho); auto. apply Hphy. exact (mu_arr_gauss p lg Hlg).
Qed.
Theorem phys_same p lg la la' jk jk' out out' rho : linalg_ok la -> linalg_ok la' -> leggauss_ok (half p) (lg (half p)) ->
  pydisort p lg la jk = Ok out -> pydisort p lg la' jk' = Ok out' ->
  (forall mu w, double_gauss (half p) mu w -> physical p mu w rho) ->
  (forall m, (m < length (p_BDRF p))%nat -> mode_is (nth m (p_BDRF p) (MScal 0)) (rho m)) -> same_values out out'.
Proof.
  intros Hla Hla' Hlg H H' Hphy Hrho. assert (V : valid p) by apply (pydisort_parts _ _ _ _ _ H). apply (core_same p lg la la' jk jk' out out' rho); auto. intros mu w HD. apply phys_core; auto.
Qed.

Theorem phys_only p lg la jk out : linalg_ok la -> leggauss_ok (half p) (lg (half p)) -> pydisort p lg la jk = Ok out ->
  forall U, modes_of p out U -> forall w, double_gauss (half p) (po_mu out) w ->
  (nonneg (p_bneg p) \/ some_source p) -> (nonneg (p_bpos p) \/ some_source p) ->
  forall vn vp, bc_values (p_bneg p) (half p) vn -> bc_values (p_bpos p) (half p) vp ->
  forall rho, (forall m, (m < length (p_BDRF p))%nat -> mode_is (nth m (p_BDRF p) (MScal 0)) (rho m)) ->
  physical p (po_mu out) w rho ->
  forall m, seen p m ->
  bvp p (po_mu out) w vn vp (rho m) m (U m) /\
  forall V, bvp p (po_mu out) w vn vp (rho m) m V -> forall i t, (i < streams p)%nat -> 0 <= t <= bottom p -> V i t = U m i t.
Proof.
  intros Hla Hlg Hok U HU w Hw Hn Hp vn vp Hvn Hvp rho Hrho Hphy m Hm.
  pose proof (call_bvp p lg la jk out Hla Hlg Hok U w vn vp rho HU Hw Hn Hp Hvn Hvp Hrho m Hm) as B. split; [exact B|].
  intros V HV i t Hi Ht. assert (Va : valid p) by apply (pydisort_parts _ _ _ _ _ Hok).
  exact (phys_unique p Va (po_mu out) w rho Hw Hphy vn vp m V (U m) HV B i t Hi Ht).
Qed.
