(** Continuous dependence of the intensity at every azimuth on the optical properties. *)
From Coq Require Import Classical String Reals Lra Lia List Bool Arith ZArith.
From Coquelicot Require Import Coquelicot.
From Verif Require Import Base Tensor Spec M_LinAlg Spec_RTE Calc M_Subroutines M_GenPart M_MathscrV M_Coeffs M_Assemble M_Pydisort
  Spec_Sol Spec_Valid Spec_Calls Spec_Unique Spec_Phys Spec_Mono Spec_Depend Spec_Full Spec_DependAz P_Special P_Addition P_Quad P_Sub P_Sub3 P_Solve P_Energy P_Pydisort P_Pydisort2 P_Pydisort3 P_Pydisort4 P_Pydisort5 P_Pydisort6 P_Pydisort8 P_Teq P_NT3 P_Unique2 P_Refine P_Max P_Max2 P_Max3 P_Max4 P_Mono P_Full P_Full2 P_Full3 P_Depend P_Depend2.
Import ListNotations.
Local Open Scope R_scope.

Lemma cont2_continuous a b f t x : cont2_on a b f -> a <= t <= b -> continuous (f t) x.
Proof.
  intros H Ht. apply (filterlim_locally (f t)). intros eps. destruct (H t x Ht eps (cond_pos eps)) as (d & Hd & HH). exists (mkposreal d Hd). intros y Hy.
  change (Rabs (y - x) < d) in Hy. change (Rabs (f t y - f t x) < eps). apply HH; auto. rewrite Rminus_eq_0, Rabs_R0. exact Hd.
Qed.
(** What is scattered through the cosine [c] of the scattering angle. *)
Definition skern (p : py_in) (l : nat) (c : R) : R := rsum (ncoeffs p) (fun k => (2 * INR k + 1) * scattering p l k * legendre k c).
Lemma skern_phase p (V : valid p) l c : (l < nlayers p)%nat -> fwd p l < 1 -> scl p l * albedo_s p l * phase_at p l c = skern p l c.
Proof.
  intros Hl Hf. pose proof (scl_pos p V l Hl) as Hs. rewrite scl_albedo by lra. unfold phase_at, skern. rewrite <- rsum_scal. apply rsum_ext. intros k Hk.
  unfold phase_s, scattering. field. lra.
Qed.
Lemma surface_le p rho x phi y psi : Rabs (surface_at p rho x phi y psi) <= surface_size p rho x y.
Proof.
  unfold surface_at, surface_size. eapply Rle_trans; [apply rsum_abs|]. apply rsum_le. intros m Hm. rewrite Rabs_mult, <- (Rmult_1_r (Rabs (rho m x y))) at 1.
  rewrite Rmult_1_r. rewrite <- (Rmult_1_r (Rabs (rho m x y))) at 2. apply Rmult_le_compat_l; [apply Rabs_pos|]. apply Rabs_le, COS_bound.
Qed.
Lemma size_pos p rho x y : 0 <= surface_size p rho x y.
Proof. apply rsum_nonneg. intros. apply Rabs_pos. Qed.

Section Change.
  Variables (p q : py_in) (SS : same_setting p q).
  Hypothesis Ephi : p_phi0 p = p_phi0 q.
  Hypothesis Vp : valid p.
  Hypothesis Vq : valid q.
  Hypothesis Kp : not_all_forward p.
  Hypothesis Kq : not_all_forward q.

  Lemma skern_dist l c : -1 <= c <= 1 -> Rabs (skern p l c - skern q l c) <= scattering_dist p q l.
  Proof.
    intros Hc. unfold skern, scattering_dist. rewrite (ss_ncoeffs p q SS), <- rsum_minus. eapply Rle_trans; [apply rsum_abs|]. apply rsum_le. intros k Hk.
    replace ((2 * INR k + 1) * scattering p l k * legendre k c - (2 * INR k + 1) * scattering q l k * legendre k c)
      with ((2 * INR k + 1) * ((scattering p l k - scattering q l k) * legendre k c)) by ring.
    pose proof (pos_INR k). rewrite Rabs_mult, (Rabs_pos_eq (2 * INR k + 1)) by lra. apply Rmult_le_compat_l; [lra|]. rewrite Rabs_mult.
    pose proof (legendre_abs k c Hc). pose proof (Rabs_pos (scattering p l k - scattering q l k)). nra.
  Qed.
  Lemma skern_size l c : -1 <= c <= 1 -> Rabs (skern q l c) <= scattering_size q l.
  Proof.
    intros Hc. unfold skern, scattering_size. eapply Rle_trans; [apply rsum_abs|]. apply rsum_le. intros k Hk. rewrite !Rmult_assoc.
    pose proof (pos_INR k). rewrite Rabs_mult, (Rabs_pos_eq (2 * INR k + 1)) by lra. apply Rmult_le_compat_l; [lra|]. rewrite Rabs_mult.
    pose proof (legendre_abs k c Hc). pose proof (Rabs_pos (scattering q l k)). nra.
  Qed.

  Section Field.
    Variables (mu : list R) (w vn vp vn' vp' : nat -> R) (rho : nat -> R -> R -> R) (e M : R).
    Hypothesis Hdg : double_gauss (half q) mu w.
    Hypothesis CB : moves_by e M p q mu w vn vp vn' vp' rho.
    Variables (F G : nat -> R -> R -> R).
    Hypothesis BF : full_solution p mu w vn vp rho F.
    Hypothesis BG : full_solution q mu w vn' vp' rho G.
    Hypothesis FM : forall i t x, (i < streams q)%nat -> 0 <= t <= bottom q -> Rabs (F i t x) <= M.
    Hypothesis Hph : phase_positive q.
    Hypothesis Hsurf : surface_positive q mu w rho.

    Lemma e_nonneg_az : 0 <= e.
    Proof. eapply Rle_trans; [apply Rabs_pos|apply (mb_n _ _ _ _ _ _ _ _ _ _ _ CB 0%nat), half_pos; exact Vq]. Qed.

    Lemma int_exists l i j t x : (i < 2 * half q)%nat -> (j < 2 * half q)%nat -> 0 <= t <= bottom q ->
      exists J, is_RInt (fun y => phase_at q l (cos_between (nth i mu 0) x (nth j mu 0) y) * F j t y) 0 (2 * PI) J.
    Proof.
      intros Hi Hj Ht. apply (ex_RInt_continuous (V:=R_CompleteNormedModule)). intros z _. apply (continuous_mult (K:=R_AbsRing)).
      - set (g := fun (s y : R) => rsum (ncoeffs q) (fun m => (fun _ : R => ec m * phase_mode q m l (nth i mu 0) (nth j mu 0)) s * cos (INR m * (x - y)))).
        apply (continuous_ext (g 0)).
        + intros y. symmetry. pose proof (nc_range q Vq). apply phase_modes; [lia| |]; apply (node q Vq mu w Hdg); auto.
        + apply (cont2_continuous 0 0 g 0 z); [|lra]. apply (cont2_sum 0 0 (ncoeffs q) (fun m s y => (fun _ : R => ec m * phase_mode q m l (nth i mu 0) (nth j mu 0)) s * cos (INR m * (x - y)))).
          intros m Hm. apply cont2_term. apply cont_on_const.
      - apply (cont2_continuous 0 (bottom q) (F j) t z); [|exact Ht]. rewrite <- (ss_bottom p q SS). apply (fs_cont _ _ _ _ _ _ _ BF). rewrite (ss_streams p q SS), (streams_eq q Vq). exact Hj.
    Qed.
    Lemma int_diff l i j t x JF JQ : (l < nlayers q)%nat -> (i < 2 * half q)%nat -> (j < 2 * half q)%nat -> 0 <= t <= bottom q ->
      is_RInt (fun y => phase_at p l (cos_between (nth i mu 0) x (nth j mu 0) y) * F j t y) 0 (2 * PI) JF ->
      is_RInt (fun y => phase_at q l (cos_between (nth i mu 0) x (nth j mu 0) y) * F j t y) 0 (2 * PI) JQ ->
      Rabs (scl p l * albedo_s p l * JF - scl q l * albedo_s q l * JQ) <= 2 * PI * (scattering_dist p q l * M).
    Proof.
      intros Hl Hi Hj Ht H1 H2. assert (Hlp : (l < nlayers p)%nat) by (rewrite (ss_nlayers p q SS); exact Hl). pose proof PI_RGT_0.
      pose proof (is_RInt_minus (V:=R_NormedModule) _ _ 0 (2 * PI) _ _ (is_RInt_scal (V:=R_NormedModule) _ 0 (2 * PI) (scl p l * albedo_s p l) _ H1) (is_RInt_scal (V:=R_NormedModule) _ 0 (2 * PI) (scl q l * albedo_s q l) _ H2)) as H3.
      assert (H4 : norm (minus (scal (scl p l * albedo_s p l) JF) (scal (scl q l * albedo_s q l) JQ)) <= (2 * PI - 0) * (scattering_dist p q l * M)).
      { refine (norm_RInt_le_const (V:=R_NormedModule) _ 0 (2 * PI) _ (scattering_dist p q l * M) ltac:(lra) _ H3). intros y Hy. set (c := cos_between (nth i mu 0) x (nth j mu 0) y).
        change (Rabs (scl p l * albedo_s p l * (phase_at p l c * F j t y) - scl q l * albedo_s q l * (phase_at q l c * F j t y)) <= scattering_dist p q l * M).
        replace (scl p l * albedo_s p l * (phase_at p l c * F j t y) - scl q l * albedo_s q l * (phase_at q l c * F j t y))
          with ((scl p l * albedo_s p l * phase_at p l c - scl q l * albedo_s q l * phase_at q l c) * F j t y) by ring.
        rewrite (skern_phase p Vp), (skern_phase q Vq) by auto. rewrite Rabs_mult. apply Rmult_le_compat; try apply Rabs_pos; [|apply FM; [rewrite (streams_eq q Vq); exact Hj|exact Ht]].
        apply skern_dist. apply nu_range; apply (node q Vq mu w Hdg); auto. }
      rewrite Rminus_0_r in H4. exact H4.
    Qed.

    Lemma beam_change_az l i t x : (l < nlayers q)%nat -> (i < 2 * half q)%nat -> top_of q l < t < bot_of q l ->
      Rabs (scl q l * (albedo_s q l / (4 * PI) * phase_at q l (cos_between (nth i mu 0) x (- p_mu0 q) (p_phi0 q)) * p_I0 q * exp (- depth_s q l t / p_mu0 q))
            - scl p l * (albedo_s p l / (4 * PI) * phase_at p l (cos_between (nth i mu 0) x (- p_mu0 p) (p_phi0 p)) * p_I0 p * exp (- depth_s p l t / p_mu0 p)))
      <= p_I0 q / (4 * PI) * (scattering_dist p q l + scattering_size q l * (depth_dist p q / p_mu0 q)).
    Proof.
      intros Hl Hi Hx. rewrite (ss_mu0 _ _ SS), (ss_I0 _ _ SS), Ephi. pose proof (v_I0 q Vq) as HI. pose proof PI_RGT_0. assert (Hlp : (l < nlayers p)%nat) by (rewrite (ss_nlayers p q SS); exact Hl).
      set (cc := cos_between _ _ _ _).
      replace (scl q l * (albedo_s q l / (4 * PI) * phase_at q l cc * p_I0 q * exp (- depth_s q l t / p_mu0 q)) - scl p l * (albedo_s p l / (4 * PI) * phase_at p l cc * p_I0 q * exp (- depth_s p l t / p_mu0 q)))
        with (p_I0 q / (4 * PI) * (scl q l * albedo_s q l * phase_at q l cc * exp (- depth_s q l t / p_mu0 q) - scl p l * albedo_s p l * phase_at p l cc * exp (- depth_s p l t / p_mu0 q))) by (field; lra).
      rewrite (skern_phase p Vp), (skern_phase q Vq) by auto.
      destruct (Rle_lt_or_eq_dec 0 (p_I0 q) ltac:(lra)) as [Hlt|E].
      2: { rewrite <- E. unfold Rdiv. rewrite !Rmult_0_l, Rabs_R0. lra. }
      pose proof (v_mu0 q Vq Hlt) as Hm. set (c := p_I0 q / (4 * PI)). assert (Hc : 0 < c) by (unfold c; apply Rdiv_lt_0_compat; lra).
      assert (Hcc : -1 <= cc <= 1) by (apply nu_range; [apply (node q Vq mu w Hdg); exact Hi|lra]).
      pose proof (skern_dist l cc Hcc) as K1. pose proof (skern_size l cc Hcc) as K2.
      pose proof (beam_near p q SS Vp Vq l t ltac:(lra) Hl ltac:(lra)) as K3.
      assert (K4 : exp (- depth_s p l t / p_mu0 q) <= 1).
      { rewrite <- exp_0. apply exp_mono. pose proof (depth_nonneg p Vp l t Hlp ltac:(rewrite (ss_top p q SS); lra)) as H0.
        assert (0 <= depth_s p l t / p_mu0 q) by (apply Rmult_le_pos; [exact H0|apply Rlt_le, Rinv_0_lt_compat; lra]). unfold Rdiv in *. lra. }
      pose proof (exp_pos (- depth_s p l t / p_mu0 q)) as K5. set (ep := exp (- depth_s p l t / p_mu0 q)) in *. set (eq := exp (- depth_s q l t / p_mu0 q)) in *.
      set (kp := skern p l cc) in *. set (kq := skern q l cc) in *. set (d := depth_dist p q / p_mu0 q) in *.
      rewrite Rabs_mult, (Rabs_pos_eq c) by lra. apply Rmult_le_compat_l; [lra|].
      replace (kq * eq - kp * ep) with (- ((kp - kq) * ep) + - (kq * (ep - eq))) by ring.
      eapply Rle_trans; [apply Rabs_triang|]. rewrite !Rabs_Ropp, !Rabs_mult. apply Rplus_le_compat.
      - rewrite (Rabs_pos_eq ep) by lra. pose proof (Rabs_pos (kp - kq)). nra.
      - apply Rmult_le_compat; auto using Rabs_pos.
    Qed.

    Lemma full_change1 s : s = 1 \/ s = -1 -> forall i t x, (i < streams q)%nat -> 0 <= t <= bottom q -> s * (F i t x - G i t x) <= e.
    Proof.
      intros Hs i t x Hi Ht. pose proof e_nonneg_az as He. destruct BF as [A1 A2 A2' A3 A4]. destruct BG as [B1 B2 B2' B3 B4]. rewrite (streams_eq q Vq) in Hi, B2, B2'. pose proof PI_RGT_0 as HPI.
      assert (SA : forall x y, Rabs x <= y -> s * x <= y /\ - (s * x) <= y). { intros x' y H. apply Rabs_le_between in H. destruct Hs as [-> | ->]; lra. }
      rewrite (ss_bottom p q SS), (ss_streams p q SS), (streams_eq q Vq) in A2, A2'.
      enough (0 <= e - s * F i t x + s * G i t x) by lra.
      refine (full_nonneg q Vq mu w rho Hdg Hph (sp_diffuse _ _ _ _ Hsurf) (sp_albedo _ _ _ _ Hsurf) (fun i t x => e - s * F i t x + s * G i t x) _ _ _ _ _ i t x Hi Ht).
      - assert (SC : forall f, cont2_on 0 (bottom q) f -> forall r, r = 1 \/ r = -1 -> cont2_on 0 (bottom q) (fun t x => r * f t x)).
        { intros f Hf r [-> | ->]; [apply (cont2_ext _ _ f); [intros; ring|exact Hf]|apply (cont2_ext _ _ (fun t x => - f t x)); [intros; ring|apply cont2_opp; exact Hf]]. }
        intros k Hk. apply (cont2_ext _ _ (fun t x => (e + - (s * F k t x)) + s * G k t x)); [intros; ring|]. apply cont2_plus; [|apply SC; auto]. apply cont2_plus; [apply cont2_const|]. apply cont2_opp, SC; auto.
      - intros k s' y Hk Hs'. rewrite A2', B2' by auto. reflexivity.
      - intros l k r y Hl Hk Hr. assert (Hlp : (l < nlayers p)%nat) by (rewrite (ss_nlayers p q SS); exact Hl).
        assert (Hrb : 0 <= r <= bottom q) by (apply (layer_at_range q Vq r l); split; [exact Hl|left; lra]).
        destruct (B1 l k r y Hl ltac:(rewrite (streams_eq q Vq); exact Hk) Hr) as (JG & HJG & DG). rewrite (streams_eq q Vq) in HJG, DG.
        destruct (A1 l k r y Hlp) as (JF & HJF & DF); [rewrite (ss_streams p q SS), (streams_eq q Vq); exact Hk|rewrite (ss_top p q SS), (ss_bot p q SS); exact Hr|].
        rewrite (ss_streams p q SS), (streams_eq q Vq) in HJF, DF. rewrite (ss_half p q SS) in DF.
        assert (XJ : exists JQ : nat -> R, forall j, (j < 2 * half q)%nat -> is_RInt (fun z => phase_at q l (cos_between (nth k mu 0) y (nth j mu 0) z) * F j r z) 0 (2 * PI) (JQ j)).
        { exists (fun j => RInt (fun z => phase_at q l (cos_between (nth k mu 0) y (nth j mu 0) z) * F j r z) 0 (2 * PI)). intros j Hj.
          apply (RInt_correct (V:=R_CompleteNormedModule)). apply int_exists; auto. }
        destruct XJ as (JQ & HJQ).
        set (fp := scl p l * (F k r y - albedo_s p l / (4 * PI) * rsum (2 * half q) (fun j => wnode (half q) w j * JF j)
           - albedo_s p l / (4 * PI) * phase_at p l (cos_between (nth k mu 0) y (- p_mu0 p) (p_phi0 p)) * p_I0 p * exp (- depth_s p l r / p_mu0 p)) - (1 - albedo p l) * source p l r) in *.
        set (bq := albedo_s q l / (4 * PI) * phase_at q l (cos_between (nth k mu 0) y (- p_mu0 q) (p_phi0 q)) * p_I0 q * exp (- depth_s q l r / p_mu0 q)) in *.
        set (dl := scl q l * (F k r y - albedo_s q l / (4 * PI) * rsum (2 * half q) (fun j => wnode (half q) w j * JQ j) - bq) - (1 - albedo q l) * source q l r - fp).
        exists (fun j => e * (2 * PI * phase_mode q 0 l (nth k mu 0) (nth j mu 0)) - s * JQ j + s * JG j), ((1 - albedo q l) * e - s * dl). split; [|split].
        + assert (Hdl : Rabs dl <= (1 - albedo q l) * e).
          { pose proof (mb_layer _ _ _ _ _ _ _ _ _ _ _ CB l r Hl ltac:(lra)) as KL. eapply Rle_trans; [|exact KL].
            pose proof (beam_change_az l k r y Hl Hk Hr) as KB. fold bq in KB. unfold dl, fp.
            set (bp := albedo_s p l / (4 * PI) * phase_at p l (cos_between (nth k mu 0) y (- p_mu0 p) (p_phi0 p)) * p_I0 p * exp (- depth_s p l r / p_mu0 p)) in *.
            set (sq := (1 - albedo q l) * source q l r) in *. set (sp := (1 - albedo p l) * source p l r) in *.
            match goal with |- Rabs ?x <= _ => replace x with ((scl q l - scl p l) * F k r y
              + / (4 * PI) * rsum (2 * half q) (fun j => wnode (half q) w j * (scl p l * albedo_s p l * JF j - scl q l * albedo_s q l * JQ j)) + (- (scl q l * bq - scl p l * bp)) + (sp - sq)) end.
            2: { rewrite (rsum_ext _ (fun j => wnode (half q) w j * (scl p l * albedo_s p l * JF j - scl q l * albedo_s q l * JQ j))
                   (fun j => scl p l * albedo_s p l * (wnode (half q) w j * JF j) - scl q l * albedo_s q l * (wnode (half q) w j * JQ j))) by (intros; ring). rewrite rsum_minus, !rsum_scal. field. lra. }
            eapply Rle_trans; [apply Rabs_triang|]. apply Rplus_le_compat; [|apply Rle_refl].
            eapply Rle_trans; [apply Rabs_triang|]. apply Rplus_le_compat; [|rewrite Rabs_Ropp; exact KB].
            eapply Rle_trans; [apply Rabs_triang|]. rewrite Rmult_plus_distr_r. apply Rplus_le_compat.
            - rewrite Rabs_mult, (peak_scl p q). apply Rmult_le_compat_l; [apply Rabs_pos|]. apply FM; [rewrite (streams_eq q Vq); exact Hk|exact Hrb].
            - rewrite Rabs_mult, (Rabs_pos_eq (/ (4 * PI))) by (left; apply Rinv_0_lt_compat; lra).
              apply Rle_trans with (/ (4 * PI) * rsum (2 * half q) (fun j => wnode (half q) w j * (2 * PI * (scattering_dist p q l * M)))).
              + apply Rmult_le_compat_l; [left; apply Rinv_0_lt_compat; lra|]. eapply Rle_trans; [apply rsum_abs|]. apply rsum_le. intros j Hj. rewrite Rabs_mult. pose proof (wnode_pos q mu w Hdg j Hj) as Wp.
                rewrite (Rabs_pos_eq (wnode _ _ _)) by lra. apply Rmult_le_compat_l; [lra|]. apply (int_diff l k j r y); auto.
              + rewrite rsum_scal_r. assert (W2 : rsum (2 * half q) (wnode (half q) w) = 2) by exact (wsum2 q Vq mu w Hdg). rewrite W2. right. field. lra. }
          pose proof (proj1 (SA _ _ Hdl)). lra.
        + intros j Hj. apply (is_RInt_ext (V:=R_NormedModule) (fun z => plus (minus (scal e (phase_at q l (cos_between (nth k mu 0) y (nth j mu 0) z))) (scal s (phase_at q l (cos_between (nth k mu 0) y (nth j mu 0) z) * F j r z))) (scal s (phase_at q l (cos_between (nth k mu 0) y (nth j mu 0) z) * G j r z)))).
          * intros z _. unfold minus, plus, opp, scal; simpl. unfold mult; simpl. ring.
          * apply (is_RInt_plus (V:=R_NormedModule)); [apply (is_RInt_minus (V:=R_NormedModule))|]; apply (is_RInt_scal (V:=R_NormedModule)); auto. apply (int_phase q Vq mu w Hdg l k j y Hk Hj).
        + refine (der_eq _ _ _ _ _ (der_plus _ _ _ _ _ (der_minus _ _ _ _ _ (is_derive_const e r) (der_scal _ s _ _ DF)) (der_scal _ s _ _ DG))). change zero with 0.
          rewrite (rsum_ext _ (fun j => wnode (half q) w j * (e * (2 * PI * phase_mode q 0 l (nth k mu 0) (nth j mu 0)) - s * JQ j + s * JG j))
            (fun j => (e * (2 * PI) * (wnode (half q) w j * phase_mode q 0 l (nth k mu 0) (nth j mu 0)) - s * (wnode (half q) w j * JQ j)) - (- s) * (wnode (half q) w j * JG j))) by (intros; ring).
          rewrite !rsum_minus, !rsum_scal. pose proof (row_sum q Vq mu w Hdg l k Hl) as E. set (RS := rsum (2 * half q) (fun j => wnode (half q) w j * phase_mode q 0 l (nth k mu 0) (nth j mu 0))) in *.
          pose proof (scl_pos q Vq l Hl) as Hsc. assert (E2 : 1 - albedo q l = scl q l - scl q l * albedo_s q l) by (unfold albedo_s, scl in *; field; lra).
          set (SQ := rsum (2 * half q) (fun j => wnode (half q) w j * JQ j)) in *. set (SG := rsum (2 * half q) (fun j => wnode (half q) w j * JG j)) in *.
          replace (albedo_s q l / (4 * PI) * (e * (2 * PI) * RS - s * SQ - - s * SG)) with (e / 2 * (RS * albedo_s q l) - albedo_s q l / (4 * PI) * (s * SQ) + albedo_s q l / (4 * PI) * (s * SG)) by (field; lra).
          rewrite E. unfold dl. fold SQ. replace ((1 - albedo q l) * e) with ((scl q l - scl q l * albedo_s q l) * e) by (rewrite <- E2; ring). unfold Rdiv. field. split; [apply (node q Vq mu w Hdg k Hk)|lra].
      - intros k y Hk. rewrite (B3 k y Hk). replace (half q) with (half p) in * by apply (ss_half p q SS). rewrite (A3 k y Hk).
        pose proof (SA _ _ (mb_n _ _ _ _ _ _ _ _ _ _ _ CB k ltac:(rewrite <- (ss_half p q SS); exact Hk))). lra.
      - intros k y Hk. destruct (B4 k y Hk) as (JG & HJG & EG). destruct (A4 k y ltac:(rewrite (ss_half p q SS); exact Hk)) as (JF & HJF & EF).
        assert (ES : forall x' f' y' g', surface_at p rho x' f' y' g' = surface_at q rho x' f' y' g') by (intros; unfold surface_at; rewrite (ss_BDRF _ _ SS); reflexivity).
        rewrite ES, (ss_mu0 _ _ SS), (ss_I0 _ _ SS), (ss_half p q SS), (ss_nlayers p q SS), (ss_bottom p q SS), Ephi in EF. rewrite (ss_half p q SS), (ss_bottom p q SS) in HJF.
        set (sf := surface_at q rho (nth k mu 0) y (p_mu0 q) (p_phi0 q)) in *. set (xq := exp (- depth_s q (nlayers q - 1) (bottom q) / p_mu0 q)) in *. set (xp := exp (- depth_s p (nlayers q - 1) (bottom q) / p_mu0 q)) in *.
        exists (fun j => e * (if Nat.ltb 0 (length (p_BDRF q)) then 2 * PI * rho 0%nat (nth k mu 0) (nth j mu 0) else 0) - s * JF j + s * JG j),
          ((1 - reflectance q mu w (rho 0%nat) k) * e - s * (vp k - vp' k) - s * (p_mu0 q * p_I0 q / PI * sf * (xp - xq))). split; [|split].
        + pose proof (mb_p _ _ _ _ _ _ _ _ _ _ _ CB k Hk) as Hpk. pose proof (proj1 (SA _ _ (Rle_refl (Rabs (vp k - vp' k))))) as Sv.
          assert (HB : s * (p_mu0 q * p_I0 q / PI * sf * (xp - xq)) <= p_I0 q / PI * surface_size q rho (nth k mu 0) (p_mu0 q) * depth_dist p q); [|lra].
          eapply Rle_trans; [apply (proj1 (SA _ _ (Rle_refl _)))|]. pose proof (v_I0 q Vq) as HI.
          destruct (Rle_lt_or_eq_dec 0 (p_I0 q) ltac:(lra)) as [Hlt|E].
          2: { rewrite <- E. unfold Rdiv. rewrite Rmult_0_r, !Rmult_0_l, Rabs_R0. lra. }
          pose proof (v_mu0 q Vq Hlt) as Hm. pose proof (v_ne q Vq) as Hnl. rewrite !Rabs_mult.
          assert (Hb : top_of q (nlayers q - 1) <= bottom q <= bot_of q (nlayers q - 1)). { rewrite (bottom_eq q). pose proof (layer_len q Vq (nlayers q - 1) ltac:(lia)). lra. }
          pose proof (beam_near p q SS Vp Vq (nlayers q - 1) (bottom q) ltac:(lra) ltac:(lia) Hb) as K3. fold xp xq in K3.
          rewrite (Rabs_pos_eq (p_mu0 q * p_I0 q / PI)) by (apply Rlt_le, Rdiv_lt_0_compat; [apply Rmult_lt_0_compat; lra|lra]).
          replace (p_I0 q / PI * surface_size q rho (nth k mu 0) (p_mu0 q) * depth_dist p q) with (p_mu0 q * p_I0 q / PI * surface_size q rho (nth k mu 0) (p_mu0 q) * (depth_dist p q / p_mu0 q)) by (field; lra).
          assert (Hc0 : 0 <= p_mu0 q * p_I0 q / PI) by (apply Rlt_le, Rdiv_lt_0_compat; [apply Rmult_lt_0_compat; lra|lra]).
          apply Rmult_le_compat; [apply Rmult_le_pos; [exact Hc0|apply Rabs_pos]|apply Rabs_pos|apply Rmult_le_compat_l; [exact Hc0|apply surface_le]|exact K3].
        + intros j Hj. apply (is_RInt_ext (V:=R_NormedModule) (fun z => plus (minus (scal e (surface_at q rho (nth k mu 0) y (nth j mu 0) z)) (scal s (surface_at p rho (nth k mu 0) y (nth j mu 0) z * F (half q + j)%nat (bottom q) z))) (scal s (surface_at q rho (nth k mu 0) y (nth j mu 0) z * G (half q + j)%nat (bottom q) z)))).
          * intros z _. unfold minus, plus, opp, scal; simpl. unfold mult; simpl. rewrite ES. ring.
          * apply (is_RInt_plus (V:=R_NormedModule)); [apply (is_RInt_minus (V:=R_NormedModule))|]; apply (is_RInt_scal (V:=R_NormedModule)); auto. apply (int_surface q Vq mu rho k j y).
        + rewrite EG. replace (F k (bottom q) y) with (vp k + / PI * rsum (half q) (fun j => w j * nth j mu 0 * JF j) + p_mu0 q * p_I0 q / PI * sf * xp) by (symmetry; exact EF).
          rewrite (rsum_ext _ (fun j => w j * nth j mu 0 * (e * _ - s * JF j + s * JG j))
            (fun j => (e * (w j * nth j mu 0 * (if Nat.ltb 0 (length (p_BDRF q)) then 2 * PI * rho 0%nat (nth k mu 0) (nth j mu 0) else 0)) - s * (w j * nth j mu 0 * JF j)) - (- s) * (w j * nth j mu 0 * JG j))) by (intros; ring).
          rewrite !rsum_minus, !rsum_scal.
          assert (ER : / PI * rsum (half q) (fun j => w j * nth j mu 0 * (if Nat.ltb 0 (length (p_BDRF q)) then 2 * PI * rho 0%nat (nth k mu 0) (nth j mu 0) else 0)) = reflectance q mu w (rho 0%nat) k).
          { unfold reflectance. destruct (Nat.ltb 0 (length (p_BDRF q))).
            - rewrite (rsum_ext _ _ (fun j => (2 * PI) * (rho 0%nat (nth k mu 0) (nth j mu 0) * nth j mu 0 * w j))) by (intros; ring). rewrite rsum_scal. field. lra.
            - rewrite rsum_0 by (intros; ring). ring. }
          rewrite <- ER. ring.
    Qed.
    Theorem full_change i t x : (i < streams q)%nat -> 0 <= t <= bottom q -> Rabs (F i t x - G i t x) <= e.
    Proof.
      intros Hi Ht. pose proof (full_change1 1 (or_introl eq_refl) i t x Hi Ht). pose proof (full_change1 (-1) (or_intror eq_refl) i t x Hi Ht). apply Rabs_le. lra.
    Qed.
  End Field.
End Change.
