(** The reported intensity solves the azimuth-dependent radiative transfer problem, alone, and the sign and size of its solution. *)
From Coq Require Import String Reals Lra Lia List Bool Arith ZArith.
From Coquelicot Require Import Coquelicot.
From Verif Require Import Base Tensor Spec Calc M_LinAlg Spec_RTE M_Subroutines M_Assemble M_Pydisort P_Special P_Sub3 P_Fourier P_Addition Spec_Sol Spec_Valid P_Valid P_Solve P_Pydisort P_Pydisort2 P_Pydisort3 P_Pydisort4
  P_Pydisort5 P_Pydisort6 P_Pydisort8 P_NT3 Spec_Calls Spec_Unique P_Unique2 Spec_Phys P_Max P_Max2 P_Max3 P_Max4 Spec_Full P_Full P_Full2.
Import ListNotations.
Local Open Scope R_scope.

Section Call.
  Variables (p : py_in) (V : valid p).
  Lemma D_res l wg m x y : resolved p -> (l < nlayers p)%nat -> is_cutoff (albedo_s p l) (wphase_s p l) (ncoeffs p) m wg ->
    D_spec (albedo_s p l) wg (ncoeffs p) m x y = albedo_s p l / 2 * phase_mode p m l x y.
  Proof.
    intros HR Hl (H1 & H2). unfold D_spec, phase_mode. destruct (Classical_Prop.classic (negligible (albedo_s p l) (wphase_s p l) (ncoeffs p) m)) as [Hn|Hn].
    - rewrite <- !rsum_scal.
      apply rsum_ext. intros k Hk. destruct (Nat.leb_spec m k) as [Hmk|]; [|ring]. rewrite (H1 Hn).
      assert (E : albedo_s p l * wphase_s p l k = 0).
      { destruct (HR l k Hl Hk) as [E|E]; [exact E|]. specialize (Hn k ltac:(lia)). replace (albedo_s p l / 2 * wphase_s p l k) with (/ 2 * (albedo_s p l * wphase_s p l k)) in Hn by field.
        rewrite Rabs_mult, (Rabs_right (/ 2)) in Hn by lra. lra. }
      transitivity (/ 2 * (albedo_s p l * wphase_s p l k) * poch_term m k * lpmv m k x * lpmv m k y); [rewrite E; field|field].
    - f_equal. apply rsum_ext. intros k Hk. rewrite (H2 Hn). reflexivity.
  Qed.
  Lemma X_eq I a wg n m mu0 x : X_spec I a wg n m mu0 x = ec m * I * (2 * D_spec a wg n m x (- mu0)).
  Proof. unfold X_spec, D_spec, ec. field. Qed.

  Variables (lg : leggauss_t) (la : linalg) (jk : junk) (out : py_out).
  Hypothesis Hla : linalg_ok la.
  Hypothesis Hlg : leggauss_ok (half p) (lg (half p)).
  Hypothesis Hok : pydisort p lg la jk = Ok out.
  Variables (u : list R -> list R -> bool -> bool -> bool -> res pret).
  Hypothesis Hu : po_u out = Some u.
  Hypothesis HNT : ~ nt_applies p.
  Let mu := po_mu out.

  Lemma field_series f U : reports_u p u f -> modes_of p out U -> forall i t x, (i < streams p)%nat -> 0 <= t <= bottom p ->
    f i t x = rsum (nmodes p) (fun m => U m i t * cos (INR m * (p_phi0 p - x))).
  Proof.
    intros Hf (_ & HU) i t x Hi Ht. assert (Ht1 : depths_ok p [t]) by (intros y [<-|[]]; auto).
    destruct (Hf [t] [x] Ht1) as (A & E & SA). destruct (HU u Hu HNT [t] [x] Ht1) as (B & E' & SB). rewrite E in E'. injection E' as <-.
    apply (squeezed_inj _ _ _ _ SA SB [i; 0%nat; 0%nat]). cbn. auto.
  Qed.

  Theorem call_full f w vn vp rho : nmodes p = ncoeffs p -> (length (p_BDRF p) <= nmodes p)%nat -> resolved p ->
    double_gauss (half p) (po_mu out) w -> boundary_data p vn vp rho -> reports_u p u f -> full_solution p (po_mu out) w vn vp rho f.
  Proof.
    intros En HB HR Hw [B1 B2 B3 B4] Hf. destruct (modes_exist p lg la jk out Hla Hlg Hok) as (U & HU).
    pose proof (field_series f U Hf HU) as Es. fold mu in Hw |- *. set (n := nmodes p) in *.
    assert (Hb : forall m, (m < n)%nat -> bvp p mu w vn vp (rho m) m (U m)).
    { intros m Hm. apply (call_bvp p lg la jk out Hla Hlg Hok U w vn vp rho HU Hw); try tauto. split; [exact Hm|right; exact HNT]. }
    assert (Hn : (0 < n)%nat) by (apply nmodes_pos; exact V).
    assert (Hnode : forall i, (i < streams p)%nat -> -1 <= nth i mu 0 <= 1 /\ nth i mu 0 <> 0).
    { intros i Hi. rewrite (streams_eq p V) in Hi. destruct Hw as (_ & H2 & _). destruct (Nat.lt_ge_cases i (half p)) as [H|H].
      - destruct (H2 i H) as (H3 & _). split; lra.
      - destruct (H2 (i - half p)%nat ltac:(lia)) as (H3 & H4 & _). replace (half p + (i - half p))%nat with i in H4 by lia. rewrite H4. split; lra. }
    pose proof (bottom_nonneg p lg la jk out Hok) as Hbot. pose proof PI_RGT_0 as HPI.
    constructor.
    - intros l i t phi Hl Hi Ht. assert (Htr : 0 <= t <= bottom p) by (apply (layer_in_range p lg la jk out Hlg Hok l); auto; lra).
      set (c := fun m => cos (INR m * (p_phi0 p - phi))).
      exists (fun j => rsum n (fun m => ec m * phase_mode p m l (nth i mu 0) (nth j mu 0) * U m j t * (if Nat.eqb m 0 then 2 * PI else PI) * c m)). split.
      + intros j Hj. eapply (is_RInt_ext (V:=R_NormedModule)); [|exact (int_series n (fun m => ec m * phase_mode p m l (nth i mu 0) (nth j mu 0)) (fun m => U m j t) phi (p_phi0 p))].
        intros psi _. simpl. rewrite (Es j t psi Hj Htr). f_equal. rewrite phase_modes by (try apply Hnode; auto; lia). rewrite <- En. reflexivity.
      + set (P := fun m j => phase_mode p m l (nth i mu 0) (nth j mu 0)).
        assert (HD : is_derive (fun x => f i x phi) t (rsum n (fun m => (scl p l * (U m i t - albedo_s p l / 2 * rsum (streams p) (fun j => wnode (half p) w j * P m j * U m j t)
            - ec m * (p_I0 p / (4 * PI)) * (albedo_s p l * phase_mode p m l (nth i mu 0) (- p_mu0 p)) * exp (- depth_s p l t / p_mu0 p)) - (if Nat.eqb m 0 then (1 - albedo p l) * source p l t else 0)) / nth i mu 0 * c m))).
        { apply (der_ext_loc (fun x => rsum n (fun m => U m i x * c m)) _ t _ (top_of p l) (bot_of p l) Ht).
          - intros x Hx. symmetry. apply Es; [exact Hi|]. apply (layer_in_range p lg la jk out Hlg Hok l); auto; lra.
          - apply (der_sum n (fun m x => U m i x * c m)). intros m Hm. apply der_scal_r. destruct (cutoff_ex (albedo_s p l) (wphase_s p l) (ncoeffs p) m) as (wg & Hwg).
            refine (der_eq _ _ _ _ _ (bvp_rte _ _ _ _ _ _ _ _ (Hb m Hm) l i wg t Hl Hi Ht Hwg)). unfold rte. rewrite X_eq, (D_res l wg m _ _ HR Hl Hwg).
            rewrite (rsum_ext _ _ (fun j => albedo_s p l / 2 * (wnode (half p) w j * P m j * U m j t))) by (intros j Hj; rewrite (D_res l wg m _ _ HR Hl Hwg); unfold P; ring).
            rewrite rsum_scal. f_equal. f_equal. f_equal. f_equal. field. lra. }
        refine (der_eq _ _ _ _ _ HD). rewrite (Es i t phi Hi Htr). change (fun m => U m i t * cos (INR m * (p_phi0 p - phi))) with (fun m => U m i t * c m).
        assert (E1 : albedo_s p l / (4 * PI) * phase_at p l (cos_between (nth i mu 0) phi (- p_mu0 p) (p_phi0 p)) * p_I0 p
           = rsum n (fun m => ec m * (p_I0 p / (4 * PI)) * (albedo_s p l * phase_mode p m l (nth i mu 0) (- p_mu0 p)) * c m)).
        { destruct (v_I0 p V) as [HI|HI].
          - pose proof (v_mu0 p V HI) as Hmu0. rewrite phase_modes by (try apply Hnode; auto; try lia; lra). rewrite <- En. fold n.
            rewrite (rsum_ext n (fun m => ec m * (p_I0 p / (4 * PI)) * (albedo_s p l * phase_mode p m l (nth i mu 0) (- p_mu0 p)) * c m)
              (fun m => (albedo_s p l / (4 * PI) * p_I0 p) * (ec m * phase_mode p m l (nth i mu 0) (- p_mu0 p) * cos (INR m * (phi - p_phi0 p))))).
            + rewrite rsum_scal. ring.
            + intros m Hm. unfold c. replace (INR m * (p_phi0 p - phi)) with (- (INR m * (phi - p_phi0 p))) by ring. rewrite cos_neg. field. lra.
          - rewrite <- HI. rewrite rsum_0 by (intros; unfold Rdiv; ring). ring. }
        assert (E2 : rsum (streams p) (fun j => wnode (half p) w j * rsum n (fun m => ec m * phase_mode p m l (nth i mu 0) (nth j mu 0) * U m j t * (if Nat.eqb m 0 then 2 * PI else PI) * c m))
           = 2 * PI * rsum n (fun m => rsum (streams p) (fun j => wnode (half p) w j * P m j * U m j t) * c m)).
        { rewrite (rsum_ext _ _ (fun j => rsum n (fun m => 2 * PI * (wnode (half p) w j * P m j * U m j t * c m)))).
          - rewrite rsum_swap, <- rsum_scal. apply rsum_ext. intros m Hm. rewrite rsum_scal, rsum_scal_r. reflexivity.
          - intros j Hj. rewrite <- rsum_scal. apply rsum_ext. intros m Hm. unfold P, ec. destruct (Nat.eqb m 0); ring. }
        cbv beta. rewrite E2.
        replace (albedo_s p l / (4 * PI) * phase_at p l (cos_between (nth i mu 0) phi (- p_mu0 p) (p_phi0 p)) * p_I0 p * exp (- depth_s p l t / p_mu0 p))
          with (rsum n (fun m => ec m * (p_I0 p / (4 * PI)) * (albedo_s p l * phase_mode p m l (nth i mu 0) (- p_mu0 p)) * c m) * exp (- depth_s p l t / p_mu0 p)) by (rewrite <- E1; ring).
        assert (E3 : (1 - albedo p l) * source p l t = rsum n (fun m => (if Nat.eqb m 0 then (1 - albedo p l) * source p l t else 0) * c m)).
        { rewrite (rsum_single n 0); [cbn [Nat.eqb]; unfold c; cbn [INR]; rewrite Rmult_0_l, cos_0; ring|exact Hn|]. intros m Hm Hne. rewrite (proj2 (Nat.eqb_neq m 0)) by auto. ring. }
        rewrite E3. rewrite <- (rsum_scal_r n (exp (- depth_s p l t / p_mu0 p))).
        replace (albedo_s p l / (4 * PI) * (2 * PI * rsum n (fun m => rsum (streams p) (fun j => wnode (half p) w j * P m j * U m j t) * c m)))
          with (albedo_s p l / 2 * rsum n (fun m => rsum (streams p) (fun j => wnode (half p) w j * P m j * U m j t) * c m)) by (field; lra).
        rewrite <- (rsum_scal n (albedo_s p l / 2)), <- !rsum_minus, <- (rsum_scal n (scl p l)), <- rsum_minus, <- rsum_div. apply rsum_ext. intros m Hm.
        pose proof (proj2 (Hnode i Hi)) as Hne. rewrite <- E3. field. split; [lra|exact Hne].
    - intros i Hi. apply (cont2_ext _ _ (fun t x => rsum n (fun m => U m i t * cos (INR m * (p_phi0 p - x))))); [intros t x Ht; symmetry; apply Es; auto|].
      apply (cont2_sum _ _ n (fun m t x => U m i t * cos (INR m * (p_phi0 p - x)))). intros m Hm. apply cont2_term. apply (bvp_cont _ _ _ _ _ _ _ _ (Hb m Hm) i Hi).
    - intros i t x Hi Ht. rewrite !Es by auto. apply rsum_ext. intros m Hm. f_equal. replace (p_phi0 p - (x + 2 * PI)) with (p_phi0 p - x - 2 * PI) by ring. apply P_Fourier.cos_shift.
    - intros i phi Hi. rewrite Es by (try (rewrite (streams_eq p V); lia); lra). rewrite (rsum_single n 0); [|exact Hn|].
      + rewrite (bvp_top _ _ _ _ _ _ _ _ (Hb 0%nat Hn) i Hi). cbn [Nat.eqb INR]. rewrite Rmult_0_l, cos_0. ring.
      + intros m Hm Hne. rewrite (bvp_top _ _ _ _ _ _ _ _ (Hb m Hm) i Hi). rewrite (proj2 (Nat.eqb_neq m 0)) by auto. ring.
    - intros i phi Hi. set (L := length (p_BDRF p)) in *. set (rr := fun m x y => if Nat.ltb m L then rho m x y else 0).
      assert (ES : forall x y psi, surface_at p rho x phi y psi = rsum n (fun m => rr m x y * cos (INR m * (phi - psi)))).
      { intros x y psi. unfold surface_at. fold L. replace n with (L + (n - L))%nat by lia. rewrite rsum_split. rewrite (rsum_0 (n - L)).
        - rewrite Rplus_0_r. apply rsum_ext. intros m Hm. unfold rr. rewrite (proj2 (Nat.ltb_lt m L)) by auto. reflexivity.
        - intros k Hk. unfold rr. rewrite (proj2 (Nat.ltb_ge (L + k) L)) by lia. ring. }
      set (c := fun m => cos (INR m * (p_phi0 p - phi))).
      exists (fun j => rsum n (fun m => rr m (nth i mu 0) (nth j mu 0) * U m (half p + j)%nat (bottom p) * (if Nat.eqb m 0 then 2 * PI else PI) * c m)). split.
      + intros j Hj. eapply (is_RInt_ext (V:=R_NormedModule)); [|exact (int_series n (fun m => rr m (nth i mu 0) (nth j mu 0)) (fun m => U m (half p + j)%nat (bottom p)) phi (p_phi0 p))].
        intros psi _. simpl. rewrite (Es _ (bottom p) psi) by (try (rewrite (streams_eq p V); lia); lra). rewrite ES. reflexivity.
      + rewrite Es by (try (rewrite (streams_eq p V); lia); lra). change (fun m => U m i (bottom p) * cos (INR m * (p_phi0 p - phi))) with (fun m => U m i (bottom p) * c m). rewrite ES.
        set (E := exp (- depth_s p (nlayers p - 1) (bottom p) / p_mu0 p)).
        rewrite (rsum_ext n (fun m => U m i (bottom p) * c m) (fun m => (if Nat.eqb m 0 then vp i else 0) * c m
           + / PI * rsum (half p) (fun j => w j * nth j mu 0 * (rr m (nth i mu 0) (nth j mu 0) * U m (half p + j)%nat (bottom p) * (if Nat.eqb m 0 then 2 * PI else PI) * c m))
           + p_mu0 p * p_I0 p / PI * (rr m (nth i mu 0) (p_mu0 p) * c m) * E)).
        * rewrite !rsum_plus. f_equal; [f_equal|].
          -- rewrite (rsum_single n 0); [cbn [Nat.eqb]; unfold c; cbn [INR]; rewrite Rmult_0_l, cos_0; ring|exact Hn|]. intros m Hm Hne. rewrite (proj2 (Nat.eqb_neq m 0)) by auto. ring.
          -- rewrite rsum_scal. f_equal. rewrite rsum_swap. apply rsum_ext. intros j Hj. rewrite rsum_scal. reflexivity.
          -- rewrite rsum_scal_r, rsum_scal. f_equal. f_equal. apply rsum_ext. intros m Hm. f_equal. unfold c. rewrite <- cos_neg. f_equal. ring.
        * intros m Hm. rewrite (bvp_bottom _ _ _ _ _ _ _ _ (Hb m Hm) i Hi). fold L E. unfold rr. destruct (Nat.ltb m L).
          -- rewrite (rsum_ext (half p) (fun j => w j * nth j mu 0 * (rho m (nth i mu 0) (nth j mu 0) * U m (half p + j)%nat (bottom p) * (if Nat.eqb m 0 then 2 * PI else PI) * c m))
               (fun j => (c m * (if Nat.eqb m 0 then 2 * PI else PI)) * (rho m (nth i mu 0) (nth j mu 0) * nth j mu 0 * w j * U m (half p + j)%nat (bottom p)))) by (intros; ring).
             rewrite rsum_scal. destruct (Nat.eqb m 0); field; lra.
          -- rewrite (rsum_0 (half p)) by (intros; ring). ring.
  Qed.
End Call.

Lemma sm_phase_at p q (S : same_medium p q) l c : phase_at p l c = phase_at q l c.
Proof. unfold phase_at, phase_s, phase. rewrite (sm_ncoeffs p q S), (sm_fwd p q S), (sm_Leg _ _ S). reflexivity. Qed.
Lemma sm_surface_at p q (S : same_medium p q) rho x f y g : surface_at p rho x f y g = surface_at q rho x f y g.
Proof. unfold surface_at. rewrite (sm_BDRF _ _ S). reflexivity. Qed.

(** Problems with the same medium: more source, more radiation at every azimuth. *)
Theorem full_le p q mu w vn vp vn' vp' rho F G : valid q -> double_gauss (half q) mu w -> same_medium p q -> p_phi0 p = p_phi0 q -> phase_positive q ->
  surface_positive q mu w rho -> 0 <= p_I0 p -> weaker p q vn vp vn' vp' -> full_solution p mu w vn vp rho F -> full_solution q mu w vn' vp' rho G ->
  forall i t x, (i < streams q)%nat -> 0 <= t <= bottom q -> F i t x <= G i t x.
Proof.
  intros V Hdg S Ephi Hph [Sn Sb Sa] HI0 [HI Hs Hn Hp] [A1 A2 A2' A3 A4] [B1 B2 B2' B3 B4] i t x Hi Ht. rewrite (streams_eq q V) in *. pose proof PI_RGT_0 as HPI.
  enough (0 <= G i t x - F i t x) by lra.
  rewrite (sm_streams p q S), (sm_bottom p q S), ?(sm_half p q S), ?(sm_nlayers p q S), ?(streams_eq q V) in *.
  refine (full_nonneg q V mu w rho Hdg Hph Sn Sa (fun i t x => G i t x - F i t x) _ _ _ _ _ i t x Hi Ht).
  - intros k Hk. apply cont2_plus; [apply B2; exact Hk|apply cont2_opp, A2; exact Hk].
  - intros k s y Hk Hs'. rewrite B2', A2' by auto. reflexivity.
  - intros l k s y Hl Hk Hs'. destruct (B1 l k s y Hl Hk Hs') as (JG & HJG & DG).
    destruct (A1 l k s y Hl Hk) as (JF & HJF & DF); [rewrite (sm_top p q S), (sm_bot p q S); exact Hs'|].
    rewrite (sm_scl p q S), (sm_albedo_s p q S), (sm_albedo p q S), (sm_mu0 _ _ S), (sm_depth p q S), (sm_phase_at p q S), Ephi in DF.
    exists (fun j => JG j - JF j), (scl q l * (albedo_s q l / (4 * PI) * phase_at q l (cos_between (nth k mu 0) y (- p_mu0 q) (p_phi0 q)) * (p_I0 q - p_I0 p) * exp (- depth_s q l s / p_mu0 q))
       + (1 - albedo q l) * (source q l s - source p l s)). split; [|split].
    + pose proof (scl_pos q V l Hl). pose proof (albedo_range q V l Hl). pose proof (albedo_s_range q V l Hl). pose proof (Hs l s Hl ltac:(lra)). apply Rplus_le_le_0_compat; [|apply Rmult_le_pos; lra].
      apply Rmult_le_pos; [lra|]. apply Rmult_le_pos; [|left; apply exp_pos].
      destruct (Rle_lt_or_eq_dec _ _ HI) as [Hlt|E]; [|rewrite E; lra]. apply Rmult_le_pos; [|lra].
      destruct (Req_dec (albedo_s q l) 0) as [E|E]; [rewrite E; unfold Rdiv; lra|].
      apply Rmult_le_pos; [apply Rmult_le_pos; [lra|left; apply Rinv_0_lt_compat; lra]|]. apply Hph; [exact Hl|lra|]. pose proof (v_mu0 q V ltac:(lra)). apply nu_range; [apply (node q V mu w Hdg); exact Hk|lra].
    + intros j Hj. apply (is_RInt_ext (V:=R_NormedModule) (fun z => minus (phase_at q l (cos_between (nth k mu 0) y (nth j mu 0) z) * G j s z) (phase_at p l (cos_between (nth k mu 0) y (nth j mu 0) z) * F j s z))).
      * intros z _. unfold minus, plus, opp; simpl. rewrite (sm_phase_at p q S). ring.
      * apply (is_RInt_minus (V:=R_NormedModule)); [apply HJG; exact Hj|apply HJF; exact Hj].
    + refine (der_eq _ _ _ _ _ (der_minus _ _ _ _ _ DG DF)).
      rewrite (rsum_ext _ (fun j => wnode (half q) w j * (JG j - JF j)) (fun j => wnode (half q) w j * JG j - wnode (half q) w j * JF j)) by (intros; ring). rewrite rsum_minus. unfold Rdiv. ring.
  - intros k y Hk. rewrite (B3 k y Hk), (A3 k y Hk). specialize (Hn k Hk). lra.
  - intros k y Hk. destruct (B4 k y Hk) as (JG & HJG & EG). destruct (A4 k y Hk) as (JF & HJF & EF).
    rewrite (sm_surface_at p q S), (sm_mu0 _ _ S), (sm_depth p q S), Ephi in EF.
    exists (fun j => JG j - JF j), (vp' k - vp k + p_mu0 q * (p_I0 q - p_I0 p) / PI * surface_at q rho (nth k mu 0) y (p_mu0 q) (p_phi0 q) * exp (- depth_s q (nlayers q - 1) (bottom q) / p_mu0 q)). split; [|split].
    + specialize (Hp k Hk). apply Rplus_le_le_0_compat; [lra|]. apply Rmult_le_pos; [|left; apply exp_pos].
      destruct (Rle_lt_or_eq_dec _ _ HI) as [Hlt|E]; [|rewrite E; unfold Rdiv; lra]. pose proof (v_mu0 q V ltac:(lra)).
      apply Rmult_le_pos; [apply Rmult_le_pos; [apply Rmult_le_pos; lra|left; apply Rinv_0_lt_compat; lra]|apply Sb; auto; lra].
    + intros j Hj. apply (is_RInt_ext (V:=R_NormedModule) (fun z => minus (surface_at q rho (nth k mu 0) y (nth j mu 0) z * G (half q + j)%nat (bottom q) z) (surface_at p rho (nth k mu 0) y (nth j mu 0) z * F (half q + j)%nat (bottom q) z))).
      * intros z _. unfold minus, plus, opp; simpl. rewrite (sm_surface_at p q S). ring.
      * apply (is_RInt_minus (V:=R_NormedModule)); [apply HJG; exact Hj|apply HJF; exact Hj].
    + rewrite EG, EF. rewrite (rsum_ext _ (fun j => w j * nth j mu 0 * (JG j - JF j)) (fun j => w j * nth j mu 0 * JG j - w j * nth j mu 0 * JF j)) by (intros; ring). rewrite rsum_minus. unfold Rdiv. ring.
Qed.

(** The constant field. *)
Lemma const_full q mu w rho B : valid q -> double_gauss (half q) mu w -> full_solution (uniform q B) mu w (fun _ => B) (fun i => (1 - reflectance q mu w (rho 0%nat) i) * B) rho (fun _ _ _ => B).
Proof.
  intros V Hdg. set (p := uniform q B). pose proof (uniform_medium q B) as S. fold p in S. pose proof PI_RGT_0 as HPI. constructor.
  - intros l i t phi Hl Hi Ht. rewrite (sm_nlayers p q S) in Hl. rewrite (sm_streams p q S), (streams_eq q V) in *. exists (fun j => 2 * PI * phase_mode q 0 l (nth i mu 0) (nth j mu 0) * B). split.
    + intros j Hj. apply (is_RInt_ext (V:=R_NormedModule) (fun y => scal B (phase_at q l (cos_between (nth i mu 0) phi (nth j mu 0) y)))).
      * intros y _. rewrite (sm_phase_at p q S). unfold scal; simpl; unfold mult; simpl. ring.
      * pose proof (is_RInt_scal (V:=R_NormedModule) _ 0 (2 * PI) B _ (int_phase q V mu w Hdg l i j phi Hi Hj)) as X. eapply (eq_ind _ (fun z : R => is_RInt _ _ _ z) X). unfold scal; simpl; unfold mult; simpl. ring.
    + refine (der_eq _ _ _ _ _ (is_derive_const B t)). change (p_I0 p) with 0. change zero with 0.
      rewrite (sm_scl p q S), (sm_albedo_s p q S), (sm_albedo p q S), (sm_half p q S). unfold p. rewrite (uniform_source q B l t Hl).
      rewrite (rsum_ext _ _ (fun j => (2 * PI * B) * (wnode (half q) w j * phase_mode q 0 l (nth i mu 0) (nth j mu 0)))) by (intros; ring). rewrite rsum_scal.
      pose proof (row_sum q V mu w Hdg l i Hl) as E. set (RS := rsum (2 * half q) (fun j => wnode (half q) w j * phase_mode q 0 l (nth i mu 0) (nth j mu 0))) in *. pose proof (scl_pos q V l Hl) as Hs.
      assert (E2 : scl q l * (1 - albedo_s q l) = 1 - albedo q l) by (unfold albedo_s, scl in *; field; lra).
      replace (albedo_s q l / (4 * PI) * (2 * PI * B * RS)) with (B / 2 * (RS * albedo_s q l)) by (field; lra). rewrite E, <- E2. unfold Rdiv. ring_simplify. field. apply (node q V mu w Hdg i Hi).
  - intros i Hi. apply cont2_const.
  - reflexivity.
  - reflexivity.
  - intros i phi Hi. rewrite (sm_half p q S) in *. exists (fun j => (if Nat.ltb 0 (length (p_BDRF q)) then 2 * PI * rho 0%nat (nth i mu 0) (nth j mu 0) else 0) * B). split.
    + intros j Hj. apply (is_RInt_ext (V:=R_NormedModule) (fun y => scal B (surface_at q rho (nth i mu 0) phi (nth j mu 0) y))).
      * intros y _. rewrite (sm_surface_at p q S). unfold scal; simpl; unfold mult; simpl. ring.
      * pose proof (is_RInt_scal (V:=R_NormedModule) _ 0 (2 * PI) B _ (int_surface q V mu rho i j phi)) as X. eapply (eq_ind _ (fun z : R => is_RInt _ _ _ z) X). unfold scal; simpl; unfold mult; simpl. ring.
    + change (p_I0 p) with 0. unfold reflectance. destruct (Nat.ltb 0 (length (p_BDRF q))).
      * rewrite (rsum_ext _ (fun j => w j * nth j mu 0 * _) (fun j => (2 * PI * B) * (rho 0%nat (nth i mu 0) (nth j mu 0) * nth j mu 0 * w j))) by (intros; ring). rewrite rsum_scal. field. lra.
      * rewrite rsum_0 by (intros; ring). unfold Rdiv. ring.
Qed.

Lemma uniform_valid q B : valid q -> valid (uniform q B).
Proof. intros []. constructor; try assumption; cbn; try lra; auto. Qed.
Lemma sm_refl p : same_medium p p. Proof. constructor; reflexivity. Qed.
Lemma weaker_refl p vn vp : weaker p p vn vp vn vp. Proof. constructor; intros; lra. Qed.

Section Reported.
  Variables (p : py_in) (lg : leggauss_t) (la : linalg) (jk : junk) (out : py_out) (u : list R -> list R -> bool -> bool -> bool -> res pret).
  Hypothesis Hla : linalg_ok la.
  Hypothesis Hlg : leggauss_ok (half p) (lg (half p)).
  Hypothesis Hok : pydisort p lg la jk = Ok out.
  Hypothesis Hu : po_u out = Some u.
  Hypothesis AM : all_modes p.
  Variables (w vn vp : nat -> R) (rho : nat -> R -> R -> R).
  Hypothesis Hw : double_gauss (half p) (po_mu out) w.
  Hypothesis BD : boundary_data p vn vp rho.

  Lemma reports_ex : exists f, reports_u p u f.
  Proof.
    destruct (modes_exist p lg la jk out Hla Hlg Hok) as (U & HU). exists (fun i t x => rsum (nmodes p) (fun m => U m i t * cos (INR m * (p_phi0 p - x)))).
    intros tau phi Ht. exact (proj2 HU u Hu (am_nt _ AM) tau phi Ht).
  Qed.
  Theorem rep_solves : (exists f, reports_u p u f) /\ forall f, reports_u p u f -> full_solution p (po_mu out) w vn vp rho f.
  Proof. split; [exact reports_ex|]. intros f Hf. destruct AM as [a1 a2 a3 a4]. exact (call_full p (call_valid _ _ _ _ _ Hok) lg la jk out Hla Hlg Hok u Hu a1 f w vn vp rho a2 a3 a4 Hw BD Hf). Qed.
  Lemma reports_eq f g : reports_u p u f -> (forall i t x, (i < streams p)%nat -> 0 <= t <= bottom p -> g i t x = f i t x) -> reports_u p u g.
  Proof.
    intros Hf E tau phi Ht. destruct (Hf tau phi Ht) as (A & EA & SA). exists A. split; [exact EA|]. apply (squeezed_ext _ _ _ _ SA). intros idx Hi.
    apply inb_3 in Hi as (a & b & c & -> & Ha & Hb & Hc). cbn [nth]. symmetry. apply E; [exact Ha|]. apply Ht, nth_In. exact Hb.
  Qed.
  Theorem rep_only : phase_positive p -> surface_positive p (po_mu out) w rho -> forall g, full_solution p (po_mu out) w vn vp rho g -> reports_u p u g.
  Proof.
    intros Hph Hs g Hg. pose proof (call_valid _ _ _ _ _ Hok) as V. destruct rep_solves as ((f & Hf) & H). specialize (H f Hf). apply (reports_eq f g Hf). intros i t x Hi Ht. apply Rle_antisym.
    - exact (full_le p p (po_mu out) w vn vp vn vp rho g f V Hw (sm_refl p) eq_refl Hph Hs (v_I0 p V) (weaker_refl p vn vp) Hg H i t x Hi Ht).
    - exact (full_le p p (po_mu out) w vn vp vn vp rho f g V Hw (sm_refl p) eq_refl Hph Hs (v_I0 p V) (weaker_refl p vn vp) H Hg i t x Hi Ht).
  Qed.

  Section Signs.
  Hypothesis Hph : phase_positive p.
  Hypothesis Hsp : surface_positive p (po_mu out) w rho.
  Theorem rep_nonneg : (forall l t, (l < nlayers p)%nat -> top_of p l <= t <= bot_of p l -> 0 <= source p l t) ->
    (forall i, (i < half p)%nat -> 0 <= vn i) -> (forall i, (i < half p)%nat -> 0 <= vp i) ->
    forall tau phi, depths_ok p tau -> exists A, u tau phi false false false = Ok (PVal (PT A)) /\ nonneg A.
  Proof.
    intros Hs Hn Hp tau phi Ht. pose proof (call_valid _ _ _ _ _ Hok) as V. destruct rep_solves as ((f & Hf) & H). specialize (H f Hf).
    destruct (Hf tau phi Ht) as (A & EA & SA). exists A. split; [exact EA|]. apply (squeezed_nonneg _ _ _ SA). intros idx Hi. apply inb_3 in Hi as (a & b & c & -> & Ha & Hb & Hc). cbn [nth].
    refine (full_le (uniform p 0) p (po_mu out) w _ _ vn vp rho _ f V Hw (uniform_medium p 0) eq_refl Hph Hsp (Rle_refl 0) _ (const_full p (po_mu out) w rho 0 V Hw) H a _ _ Ha _).
    - constructor; [exact (v_I0 p V)| |auto|intros i Hi; rewrite Rmult_0_r; auto]. intros l t Hl Htl. rewrite uniform_source by exact Hl. auto.
    - apply Ht, nth_In. exact Hb.
  Qed.
  Theorem rep_bounded B : p_I0 p = 0 -> (forall l t, (l < nlayers p)%nat -> top_of p l <= t <= bot_of p l -> source p l t <= B) ->
    (forall i, (i < half p)%nat -> vn i <= B) -> (forall i, (i < half p)%nat -> vp i <= (1 - reflectance p (po_mu out) w (rho 0%nat) i) * B) ->
    forall tau phi, depths_ok p tau -> exists A, u tau phi false false false = Ok (PVal (PT A)) /\ all_le A B.
  Proof.
    intros HI Hs Hn Hp tau phi Ht. pose proof (call_valid _ _ _ _ _ Hok) as V. destruct rep_solves as ((f & Hf) & H). specialize (H f Hf).
    destruct (Hf tau phi Ht) as (A & EA & SA). exists A. split; [exact EA|]. apply (squeezed_all_le _ _ _ _ SA). intros idx Hi. apply inb_3 in Hi as (a & b & c & -> & Ha & Hb & Hc). cbn [nth].
    assert (Vu : full_solution (uniform p B) (po_mu out) w (fun _ => B) (fun i => (1 - reflectance p (po_mu out) w (rho 0%nat) i) * B) rho (fun _ _ _ => B)) by (apply const_full; auto).
    assert (WK : weaker p (uniform p B) vn vp (fun _ => B) (fun i => (1 - reflectance p (po_mu out) w (rho 0%nat) i) * B)).
    { constructor; [cbn; lra| |exact Hn|exact Hp]. intros l t Hl Htl. rewrite uniform_source by exact Hl. auto. }
    refine (full_le p (uniform p B) (po_mu out) w vn vp _ _ rho f _ (uniform_valid p B V) Hw (sm_sym _ _ (uniform_medium p B)) eq_refl _ _ (v_I0 p V) WK H Vu a _ _ Ha _).
    { intros l y Hl Ha' Hy. rewrite (sm_phase_at _ _ (uniform_medium p B)). apply Hph; auto. }
    { destruct Hsp as [S1 S2 S3]. constructor; [exact S1|cbn; lra|exact S3]. }
    apply Ht, nth_In. exact Hb.
  Qed.
  Theorem rep_equi B : p_I0 p = 0 -> (forall l t, (l < nlayers p)%nat -> top_of p l <= t <= bot_of p l -> source p l t = B) ->
    (forall i, (i < half p)%nat -> vn i = B) -> (forall i, (i < half p)%nat -> vp i = (1 - reflectance p (po_mu out) w (rho 0%nat) i) * B) ->
    forall tau phi, depths_ok p tau -> exists A, u tau phi false false false = Ok (PVal (PT A)) /\ all_eq A B.
  Proof.
    intros HI Hs Hn Hp tau phi Ht. pose proof (call_valid _ _ _ _ _ Hok) as V. destruct rep_solves as ((f & Hf) & H). specialize (H f Hf).
    destruct (rep_bounded B HI) with (tau := tau) (phi := phi) as (A' & EA' & HA'); [intros; rewrite Hs by auto; lra|intros; rewrite Hn by auto; lra|intros; rewrite Hp by auto; lra|exact Ht|].
    destruct (Hf tau phi Ht) as (A & EA & SA). exists A. split; [exact EA|]. apply (squeezed_all_eq _ _ _ _ SA). intros idx Hi. apply inb_3 in Hi as (a & b & c & -> & Ha & Hb & Hc). cbn [nth].
    assert (Hin : 0 <= nth b tau 0 <= bottom p) by (apply Ht, nth_In; exact Hb).
    apply Rle_antisym.
    - refine (full_le p (uniform p B) (po_mu out) w vn vp _ _ rho f _ (uniform_valid p B V) Hw (sm_sym _ _ (uniform_medium p B)) eq_refl _ _ (v_I0 p V) _ H (const_full p (po_mu out) w rho B V Hw) a _ _ Ha Hin).
      + intros l y Hl Ha' Hy. rewrite (sm_phase_at _ _ (uniform_medium p B)). apply Hph; auto.
      + destruct Hsp as [S1 S2 S3]. constructor; [exact S1|cbn; lra|exact S3].
      + constructor; [cbn; lra| |intros; rewrite Hn by auto; lra|intros; rewrite Hp by auto; lra]. intros l t Hl Htl. rewrite uniform_source by exact Hl. rewrite Hs by auto. lra.
    - refine (full_le (uniform p B) p (po_mu out) w _ _ vn vp rho _ f V Hw (uniform_medium p B) eq_refl Hph Hsp (Rle_refl 0) _ (const_full p (po_mu out) w rho B V Hw) H a _ _ Ha Hin).
      constructor; [cbn; lra| |intros; rewrite Hn by auto; lra|intros; rewrite Hp by auto; lra]. intros l t Hl Htl. rewrite uniform_source by exact Hl. rewrite Hs by auto. lra.
  Qed.
  End Signs.
End Reported.

Theorem rep_le p q lg la la' jk jk' out out' u u' : linalg_ok la -> linalg_ok la' -> leggauss_ok (half p) (lg (half p)) ->
  pydisort p lg la jk = Ok out -> pydisort q lg la' jk' = Ok out' -> po_u out = Some u -> po_u out' = Some u' -> same_medium p q -> p_phi0 p = p_phi0 q ->
  all_modes p -> all_modes q -> forall w vn vp vn' vp' rho, double_gauss (half p) (po_mu out) w -> boundary_data p vn vp rho -> boundary_data q vn' vp' rho ->
  phase_positive q -> surface_positive q (po_mu out) w rho -> weaker p q vn vp vn' vp' -> forall tau phi, depths_ok p tau ->
  exists A B, u tau phi false false false = Ok (PVal (PT A)) /\ u' tau phi false false false = Ok (PVal (PT B)) /\ tle A B.
Proof.
  intros Hla Hla' Hlg Hp Hq Hu Hu' S Ephi AM AM' w vn vp vn' vp' rho Hw BD BD' Hph Hs WK tau phi Ht.
  pose proof (call_valid _ _ _ _ _ Hp) as Vp. pose proof (call_valid _ _ _ _ _ Hq) as Vq. pose proof (same_mu p q lg la la' jk jk' out out' Hp Hq (sm_NQuad _ _ S)) as Em.
  assert (Hlg' : leggauss_ok (half q) (lg (half q))) by (rewrite <- (sm_half p q S); exact Hlg).
  assert (Hw' : double_gauss (half q) (po_mu out') w) by (rewrite <- (sm_half p q S), <- Em; exact Hw).
  assert (Ht' : depths_ok q tau) by (intros t Hin; rewrite <- (sm_bottom p q S); apply Ht; exact Hin).
  destruct (rep_solves p lg la jk out u Hla Hlg Hp Hu AM w vn vp rho Hw BD) as ((f & Hf) & H). specialize (H f Hf).
  destruct (rep_solves q lg la' jk' out' u' Hla' Hlg' Hq Hu' AM' w vn' vp' rho Hw' BD') as ((g & Hg) & H'). specialize (H' g Hg). rewrite <- Em in H', Hw'.
  destruct (Hf tau phi Ht) as (A & EA & SA). destruct (Hg tau phi Ht') as (B & EB & SB). exists A, B. split; [exact EA|]. split; [exact EB|]. rewrite (sm_streams p q S) in SA.
  apply (squeezed_le _ _ _ _ _ SA SB). intros idx Hi. apply inb_3 in Hi as (a & b & c & -> & Ha & Hb & Hc). cbn [nth].
  refine (full_le p q (po_mu out) w vn vp vn' vp' rho f g Vq Hw' S Ephi Hph Hs (v_I0 p Vp) WK H H' a _ _ Ha _). apply Ht', nth_In. exact Hb.
Qed.
