(** Continuous dependence of the intensity at every azimuth on all numerical arguments, the thicknesses of the layers included. *)
From Coq Require Import Classical String Reals Lra Lia List Bool Arith ZArith.
From Coquelicot Require Import Coquelicot.
From Verif Require Import Base Tensor Spec M_LinAlg Spec_RTE Calc M_Subroutines M_GenPart M_MathscrV M_Coeffs M_Assemble M_Pydisort
  Spec_Sol Spec_Valid Spec_Calls Spec_Unique Spec_Phys Spec_Mono Spec_Depend Spec_Full Spec_DependAz Spec_Stretch Spec_StretchAz P_Special P_Addition P_Quad P_Sub P_Sub3 P_Solve P_Energy P_Pydisort P_Pydisort2 P_Pydisort3 P_Pydisort4 P_Pydisort5 P_Pydisort6 P_Pydisort8 P_Teq P_NT3 P_Unique2 P_Refine P_Max P_Max2 P_Max3 P_Max4 P_Mono P_Full P_Full2 P_Full3 P_Depend P_Depend2 P_DependAz P_Stretch.
Import ListNotations.
Local Open Scope R_scope.

Lemma cont2_comp a b a' b' (th : R -> R) f : cont_on a b th -> (forall s, a <= s <= b -> a' <= th s <= b') -> cont2_on a' b' f -> cont2_on a b (fun s x => f (th s) x).
Proof.
  intros Ht Hr Hf t x Hx e He. destruct (Hf (th t) x (Hr t Hx) e He) as (d & Hd & H). destruct (Ht t Hx d Hd) as (d' & Hd' & H').
  exists (Rmin d d'). split; [apply Rmin_pos; assumption|]. intros s y Hs H1 H2. apply H; [apply Hr; exact Hs| |].
  - apply H'; [exact Hs|]. eapply Rlt_le_trans; [exact H1|apply Rmin_r].
  - eapply Rlt_le_trans; [exact H2|apply Rmin_l].
Qed.
Lemma surface_cont p rho x phi y z : continuous (fun psi => surface_at p rho x phi y psi) z.
Proof.
  unfold surface_at. set (g := fun (s psi : R) => rsum (length (p_BDRF p)) (fun m => (fun _ : R => rho m x y) s * cos (INR m * (phi - psi)))).
  apply (cont2_continuous 0 0 g 0 z); [|lra]. apply (cont2_sum 0 0 (length (p_BDRF p)) (fun m s psi => (fun _ : R => rho m x y) s * cos (INR m * (phi - psi)))).
  intros m Hm. apply cont2_term. apply cont_on_const.
Qed.
Lemma surface_diff p q rho rho' x phi y psi : length (p_BDRF p) = length (p_BDRF q) -> Rabs (surface_at p rho x phi y psi - surface_at q rho' x phi y psi) <= surface_dist q rho rho' x y.
Proof.
  intros E. unfold surface_at, surface_dist. rewrite E, <- rsum_minus. eapply Rle_trans; [apply rsum_abs|]. apply rsum_le. intros m Hm.
  rewrite <- Rmult_minus_distr_r, Rabs_mult. assert (Rabs (cos (INR m * (phi - psi))) <= 1) by (apply Rabs_le, COS_bound). pose proof (Rabs_pos (rho m x y - rho' m x y)). nra.
Qed.
Lemma skern_size_of p l c : -1 <= c <= 1 -> Rabs (skern p l c) <= scattering_size p l.
Proof. exact (skern_size p l c). Qed.

Section Change.
  Variables (p q : py_in) (SF : same_frame p q).
  Hypothesis Vp : valid p.
  Hypothesis Vq : valid q.
  Hypothesis Kp : not_all_forward p.
  Hypothesis Kq : not_all_forward q.
  Let Enl : nlayers p = nlayers q := sf_layers _ _ SF.
  Let Eh : half p = half q := sf_half p q SF.
  Let Es : streams p = streams q := sf_streams p q SF.

  Lemma skern_dist' l c : -1 <= c <= 1 -> Rabs (skern p l c - skern q l c) <= scattering_dist p q l.
  Proof.
    intros Hc. unfold skern, scattering_dist. rewrite (sf_ncoeffs p q SF), <- rsum_minus. eapply Rle_trans; [apply rsum_abs|]. apply rsum_le. intros k Hk.
    replace ((2 * INR k + 1) * scattering p l k * legendre k c - (2 * INR k + 1) * scattering q l k * legendre k c)
      with ((2 * INR k + 1) * ((scattering p l k - scattering q l k) * legendre k c)) by ring.
    pose proof (pos_INR k). rewrite Rabs_mult, (Rabs_pos_eq (2 * INR k + 1)) by lra. apply Rmult_le_compat_l; [lra|]. rewrite Rabs_mult.
    pose proof (legendre_abs k c Hc). pose proof (Rabs_pos (scattering p l k - scattering q l k)). nra.
  Qed.
  Lemma scatter_eq r (V : valid r) l x phi t : (l < nlayers r)%nat -> fwd r l < 1 ->
    scl r l * (albedo_s r l / (4 * PI) * phase_at r l (cos_between x phi (- p_mu0 r) (p_phi0 r)) * p_I0 r * exp (- depth_s r l t / p_mu0 r)) = beam_scatter r l x phi t.
  Proof.
    intros Hl Hf. unfold beam_scatter. fold (skern r l (cos_between x phi (- p_mu0 r) (p_phi0 r))). rewrite <- (skern_phase r V l _ Hl Hf). pose proof PI_RGT_0. field. lra.
  Qed.

  Section Field.
    Variables (mu : list R) (w vn vp vn' vp' : nat -> R) (rho rho' : nat -> R -> R -> R) (e M : R).
    Hypothesis Hdg : double_gauss (half q) mu w.
    Hypothesis CB : shifts_by e M p q mu w vn vp vn' vp' rho rho'.
    Variables (F0 G : nat -> R -> R -> R).
    Hypothesis BF : full_solution p mu w vn vp rho F0.
    Hypothesis BG : full_solution q mu w vn' vp' rho' G.
    Hypothesis FM0 : forall i t x, (i < streams p)%nat -> 0 <= t <= bottom p -> Rabs (F0 i t x) <= M.
    Hypothesis Hph : phase_positive q.
    Hypothesis Hsurf : surface_positive q mu w rho'.
    (** The field of [p], carried over to the depths of [q]. *)
    Definition Fz (i : nat) (s x : R) : R := F0 i (theta p q s) x.

    Lemma Fz_bound i t x : (i < 2 * half q)%nat -> 0 <= t <= bottom q -> Rabs (Fz i t x) <= M.
    Proof. intros Hi Ht. apply FM0; [rewrite Es, (streams_eq q Vq); exact Hi|apply (theta_range p q SF Vp Vq); exact Ht]. Qed.
    Lemma M_nonneg_az : 0 <= M.
    Proof.
      pose proof (half_pos q Vq). eapply Rle_trans; [apply Rabs_pos|apply (Fz_bound 0%nat 0 0); [lia|]]. split; [lra|]. rewrite (bottom_eq q). apply Rlt_le, (v_tau q Vq). pose proof (v_ne q Vq). lia.
    Qed.
    Lemma Fz_cont i : (i < 2 * half q)%nat -> cont2_on 0 (bottom q) (Fz i).
    Proof.
      intros Hi. apply (cont2_comp 0 (bottom q) 0 (bottom p) (theta p q) (F0 i)); [apply (theta_cont p q Vq)|apply (theta_range p q SF Vp Vq)|]. apply (fs_cont _ _ _ _ _ _ _ BF). rewrite Es, (streams_eq q Vq). exact Hi.
    Qed.
    Lemma Fz_in l i t x : (l < nlayers q)%nat -> top_of q l <= t <= bot_of q l -> F0 i (same_place p q l t) x = Fz i t x.
    Proof. intros Hl Ht. unfold Fz. rewrite (theta_layer p q Vq l t Hl Ht). reflexivity. Qed.
    Lemma e_nonneg_sh : 0 <= e.
    Proof. eapply Rle_trans; [apply Rabs_pos|apply (sb_n _ _ _ _ _ _ _ _ _ _ _ _ CB 0%nat), half_pos; exact Vq]. Qed.

    Lemma int_ex l i j t x : (i < 2 * half q)%nat -> (j < 2 * half q)%nat -> 0 <= t <= bottom q ->
      exists J, is_RInt (fun y => phase_at q l (cos_between (nth i mu 0) x (nth j mu 0) y) * Fz j t y) 0 (2 * PI) J.
    Proof.
      intros Hi Hj Ht. apply (ex_RInt_continuous (V:=R_CompleteNormedModule)). intros z _. apply (continuous_mult (K:=R_AbsRing)).
      - set (g := fun (s y : R) => rsum (ncoeffs q) (fun m => (fun _ : R => ec m * phase_mode q m l (nth i mu 0) (nth j mu 0)) s * cos (INR m * (x - y)))).
        apply (continuous_ext (g 0)).
        + intros y. symmetry. pose proof (nc_range q Vq). apply phase_modes; [lia| |]; apply (node q Vq mu w Hdg); auto.
        + apply (cont2_continuous 0 0 g 0 z); [|lra]. apply (cont2_sum 0 0 (ncoeffs q) (fun m s y => (fun _ : R => ec m * phase_mode q m l (nth i mu 0) (nth j mu 0)) s * cos (INR m * (x - y)))).
          intros m Hm. apply cont2_term. apply cont_on_const.
      - apply (cont2_continuous 0 (bottom q) (Fz j) t z); [|exact Ht]. apply Fz_cont; exact Hj.
    Qed.
    Lemma int_diff' l i j t x JF JQ : (l < nlayers q)%nat -> (i < 2 * half q)%nat -> (j < 2 * half q)%nat -> 0 <= t <= bottom q ->
      is_RInt (fun y => phase_at p l (cos_between (nth i mu 0) x (nth j mu 0) y) * Fz j t y) 0 (2 * PI) JF ->
      is_RInt (fun y => phase_at q l (cos_between (nth i mu 0) x (nth j mu 0) y) * Fz j t y) 0 (2 * PI) JQ ->
      Rabs (scl p l * albedo_s p l * JF - scl q l * albedo_s q l * JQ) <= 2 * PI * (scattering_dist p q l * M).
    Proof.
      intros Hl Hi Hj Ht H1 H2. assert (Hlp : (l < nlayers p)%nat) by (rewrite Enl; exact Hl). pose proof PI_RGT_0.
      pose proof (is_RInt_minus (V:=R_NormedModule) _ _ 0 (2 * PI) _ _ (is_RInt_scal (V:=R_NormedModule) _ 0 (2 * PI) (scl p l * albedo_s p l) _ H1) (is_RInt_scal (V:=R_NormedModule) _ 0 (2 * PI) (scl q l * albedo_s q l) _ H2)) as H3.
      assert (H4 : norm (minus (scal (scl p l * albedo_s p l) JF) (scal (scl q l * albedo_s q l) JQ)) <= (2 * PI - 0) * (scattering_dist p q l * M)).
      { refine (norm_RInt_le_const (V:=R_NormedModule) _ 0 (2 * PI) _ (scattering_dist p q l * M) ltac:(lra) _ H3). intros y Hy. set (c := cos_between (nth i mu 0) x (nth j mu 0) y).
        change (Rabs (scl p l * albedo_s p l * (phase_at p l c * Fz j t y) - scl q l * albedo_s q l * (phase_at q l c * Fz j t y)) <= scattering_dist p q l * M).
        replace (scl p l * albedo_s p l * (phase_at p l c * Fz j t y) - scl q l * albedo_s q l * (phase_at q l c * Fz j t y))
          with ((scl p l * albedo_s p l * phase_at p l c - scl q l * albedo_s q l * phase_at q l c) * Fz j t y) by ring.
        rewrite (skern_phase p Vp), (skern_phase q Vq) by auto. rewrite Rabs_mult. apply Rmult_le_compat; try apply Rabs_pos; [|apply Fz_bound; auto].
        apply skern_dist'. apply nu_range; apply (node q Vq mu w Hdg); auto. }
      rewrite Rminus_0_r in H4. exact H4.
    Qed.
    Lemma int_size l i j t x JF : (l < nlayers q)%nat -> (i < 2 * half q)%nat -> (j < 2 * half q)%nat -> 0 <= t <= bottom q ->
      is_RInt (fun y => phase_at p l (cos_between (nth i mu 0) x (nth j mu 0) y) * Fz j t y) 0 (2 * PI) JF ->
      Rabs (scl p l * albedo_s p l * JF) <= 2 * PI * (scattering_size p l * M).
    Proof.
      intros Hl Hi Hj Ht H1. assert (Hlp : (l < nlayers p)%nat) by (rewrite Enl; exact Hl). pose proof PI_RGT_0.
      pose proof (is_RInt_scal (V:=R_NormedModule) _ 0 (2 * PI) (scl p l * albedo_s p l) _ H1) as H3.
      assert (H4 : norm (scal (scl p l * albedo_s p l) JF) <= (2 * PI - 0) * (scattering_size p l * M)).
      { refine (norm_RInt_le_const (V:=R_NormedModule) _ 0 (2 * PI) _ (scattering_size p l * M) ltac:(lra) _ H3). intros y Hy. set (c := cos_between (nth i mu 0) x (nth j mu 0) y).
        change (Rabs (scl p l * albedo_s p l * (phase_at p l c * Fz j t y)) <= scattering_size p l * M). rewrite <- Rmult_assoc.
        rewrite (skern_phase p Vp) by auto. rewrite Rabs_mult. apply Rmult_le_compat; try apply Rabs_pos; [|apply Fz_bound; auto].
        apply skern_size_of. apply nu_range; apply (node q Vq mu w Hdg); auto. }
      rewrite Rminus_0_r in H4. exact H4.
    Qed.
    Lemma scatter_size l i x t : (l < nlayers q)%nat -> (i < 2 * half q)%nat -> top_of p l <= t ->
      Rabs (beam_scatter p l (nth i mu 0) x t) <= p_I0 p / (4 * PI) * scattering_size p l.
    Proof.
      intros Hl Hi Ht. assert (Hlp : (l < nlayers p)%nat) by (rewrite Enl; exact Hl). unfold beam_scatter. pose proof (v_I0 p Vp) as HI. pose proof PI_RGT_0.
      destruct (Rle_lt_or_eq_dec 0 (p_I0 p) HI) as [Hlt|E].
      2: { rewrite <- E. unfold Rdiv. rewrite !Rmult_0_l, Rabs_R0. lra. }
      pose proof (v_mu0 p Vp Hlt) as Hm. set (c := p_I0 p / (4 * PI)). assert (Hc : 0 < c) by (unfold c; apply Rdiv_lt_0_compat; lra).
      pose proof (skern_size_of p l (cos_between (nth i mu 0) x (- p_mu0 p) (p_phi0 p)) ltac:(apply nu_range; [apply (node q Vq mu w Hdg); exact Hi|lra])) as K.
      fold (skern p l (cos_between (nth i mu 0) x (- p_mu0 p) (p_phi0 p))).
      assert (K4 : exp (- depth_s p l t / p_mu0 p) <= 1).
      { rewrite <- exp_0. apply exp_mono. pose proof (depth_nonneg p Vp l t Hlp Ht) as Hd0.
        assert (0 <= depth_s p l t / p_mu0 p) by (apply Rmult_le_pos; [exact Hd0|apply Rlt_le, Rinv_0_lt_compat; lra]). unfold Rdiv in *. lra. }
      pose proof (exp_pos (- depth_s p l t / p_mu0 p)) as K5. rewrite !Rabs_mult, (Rabs_pos_eq c), (Rabs_pos_eq (exp _)), Rmult_assoc by lra. apply Rmult_le_compat_l; [lra|].
      pose proof (Rabs_pos (skern p l (cos_between (nth i mu 0) x (- p_mu0 p) (p_phi0 p)))). nra.
    Qed.

    (** The right-hand sides of the transfer equations (times the cosine). *)
    Definition rhs (r : py_in) (l k : nat) (t f : R) (J : nat -> R) (x : R) : R :=
      scl r l * (f - albedo_s r l / (4 * PI) * rsum (2 * half q) (fun j => wnode (half q) w j * J j)
           - albedo_s r l / (4 * PI) * phase_at r l (cos_between (nth k mu 0) x (- p_mu0 r) (p_phi0 r)) * p_I0 r * exp (- depth_s r l t / p_mu0 r)) - (1 - albedo r l) * source r l t.
    Lemma wsum_le (J : nat -> R) c : (forall j, (j < 2 * half q)%nat -> Rabs (J j) <= 2 * PI * c) -> Rabs (/ (4 * PI) * rsum (2 * half q) (fun j => wnode (half q) w j * J j)) <= c.
    Proof.
      intros H. pose proof PI_RGT_0. rewrite Rabs_mult, (Rabs_pos_eq (/ (4 * PI))) by (left; apply Rinv_0_lt_compat; lra).
      apply Rle_trans with (/ (4 * PI) * rsum (2 * half q) (fun j => wnode (half q) w j * (2 * PI * c))).
      - apply Rmult_le_compat_l; [left; apply Rinv_0_lt_compat; lra|]. eapply Rle_trans; [apply rsum_abs|]. apply rsum_le. intros j Hj. rewrite Rabs_mult. pose proof (wnode_pos q mu w Hdg j Hj) as Wp.
        rewrite (Rabs_pos_eq (wnode _ _ _)) by lra. apply Rmult_le_compat_l; [lra|]. apply H; exact Hj.
      - rewrite rsum_scal_r. assert (W2 : rsum (2 * half q) (wnode (half q) w) = 2) by exact (wsum2 q Vq mu w Hdg). rewrite W2. right. field. lra.
    Qed.
    Lemma rhs_split r (V : valid r) l k t f J x : (l < nlayers r)%nat -> fwd r l < 1 -> rhs r l k t f J x =
      scl r l * f - / (4 * PI) * rsum (2 * half q) (fun j => wnode (half q) w j * (scl r l * albedo_s r l * J j)) - beam_scatter r l (nth k mu 0) x t - (1 - albedo r l) * source r l t.
    Proof.
      intros Hl Hf. unfold rhs. rewrite <- (scatter_eq r V l (nth k mu 0) x t Hl Hf).
      rewrite (rsum_ext _ (fun j => wnode (half q) w j * (scl r l * albedo_s r l * J j)) (fun j => scl r l * albedo_s r l * (wnode (half q) w j * J j))) by (intros; ring). rewrite rsum_scal.
      pose proof PI_RGT_0. field. lra.
    Qed.
    Lemma rhs_size l k r x JF : (l < nlayers q)%nat -> (k < 2 * half q)%nat -> top_of q l < r < bot_of q l ->
      (forall j, (j < 2 * half q)%nat -> is_RInt (fun y => phase_at p l (cos_between (nth k mu 0) x (nth j mu 0) y) * Fz j r y) 0 (2 * PI) (JF j)) ->
      Rabs (rhs p l k (same_place p q l r) (Fz k r x) JF x) <= (1 + scattering_size p l) * M + p_I0 p / (4 * PI) * scattering_size p l + (1 - albedo p l) * Rabs (source p l (same_place p q l r)).
    Proof.
      intros Hl Hk Hr HJ. assert (Hlp : (l < nlayers p)%nat) by (rewrite Enl; exact Hl). assert (Hrb : 0 <= r <= bottom q) by (apply (layer_at_range q Vq r l); split; [exact Hl|left; lra]).
      rewrite (rhs_split p Vp) by auto. set (t := same_place p q l r).
      assert (H1 : Rabs (scl p l * Fz k r x) <= M).
      { pose proof (scl_pos p Vp l Hlp). rewrite Rabs_mult, (Rabs_pos_eq (scl p l)) by lra. pose proof (Fz_bound k r x Hk Hrb). pose proof (Rabs_pos (Fz k r x)). nra. }
      assert (H2 : Rabs (/ (4 * PI) * rsum (2 * half q) (fun j => wnode (half q) w j * (scl p l * albedo_s p l * JF j))) <= scattering_size p l * M) by (apply wsum_le; intros j Hj; apply (int_size l k j r x); auto).
      pose proof (scatter_size l k x t Hl Hk ltac:(apply (place_range p q SF Vp Vq l r Hl); lra)) as H3.
      assert (H4 : Rabs ((1 - albedo p l) * source p l t) <= (1 - albedo p l) * Rabs (source p l t)) by (rewrite Rabs_mult, (Rabs_pos_eq (1 - albedo p l)) by (pose proof (albedo_range p Vp l Hlp); lra); lra).
      unfold Rminus at 1 2 3. eapply Rle_trans; [apply Rabs_triang|]. rewrite Rabs_Ropp. apply Rplus_le_compat; [|exact H4].
      eapply Rle_trans; [apply Rabs_triang|]. rewrite Rabs_Ropp. apply Rplus_le_compat; [|exact H3].
      eapply Rle_trans; [apply Rabs_triang|]. rewrite Rabs_Ropp. lra.
    Qed.
    Lemma rhs_defect l k r x JF JQ : (l < nlayers q)%nat -> (k < 2 * half q)%nat -> top_of q l < r < bot_of q l ->
      (forall j, (j < 2 * half q)%nat -> is_RInt (fun y => phase_at p l (cos_between (nth k mu 0) x (nth j mu 0) y) * Fz j r y) 0 (2 * PI) (JF j)) ->
      (forall j, (j < 2 * half q)%nat -> is_RInt (fun y => phase_at q l (cos_between (nth k mu 0) x (nth j mu 0) y) * Fz j r y) 0 (2 * PI) (JQ j)) ->
      Rabs (rhs q l k r (Fz k r x) JQ x - thicker p q l * rhs p l k (same_place p q l r) (Fz k r x) JF x) <= (1 - albedo q l) * e.
    Proof.
      intros Hl Hk Hr HJF HJQ. assert (Hlp : (l < nlayers p)%nat) by (rewrite Enl; exact Hl). assert (Hrb : 0 <= r <= bottom q) by (apply (layer_at_range q Vq r l); split; [exact Hl|left; lra]).
      pose proof (rhs_size l k r x JF Hl Hk Hr HJF) as KR. pose proof (sb_layer _ _ _ _ _ _ _ _ _ _ _ _ CB l k r x Hl ltac:(rewrite (streams_eq q Vq); exact Hk) ltac:(lra)) as KL. eapply Rle_trans; [|exact KL].
      set (rp := rhs p l k (same_place p q l r) (Fz k r x) JF x) in *.
      replace (rhs q l k r (Fz k r x) JQ x - thicker p q l * rp) with (rhs q l k r (Fz k r x) JQ x - rp + - ((thicker p q l - 1) * rp)) by ring.
      eapply Rle_trans; [apply Rabs_triang|]. rewrite Rabs_Ropp. apply Rplus_le_compat; [|rewrite Rabs_mult; apply Rmult_le_compat_l; [apply Rabs_pos|exact KR]].
      unfold rp. rewrite (rhs_split p Vp), (rhs_split q Vq) by auto. set (bq := beam_scatter q l _ _ _). set (bp := beam_scatter p l _ _ _).
      set (sq := (1 - albedo q l) * source q l r). set (sp := (1 - albedo p l) * source p l _).
      match goal with |- Rabs ?z <= _ => replace z with ((scl q l - scl p l) * Fz k r x
        + / (4 * PI) * rsum (2 * half q) (fun j => wnode (half q) w j * (scl p l * albedo_s p l * JF j - scl q l * albedo_s q l * JQ j)) + (bp - bq) + (sp - sq)) end.
      2: { rewrite (rsum_ext _ (fun j => wnode (half q) w j * (scl p l * albedo_s p l * JF j - scl q l * albedo_s q l * JQ j))
             (fun j => wnode (half q) w j * (scl p l * albedo_s p l * JF j) - wnode (half q) w j * (scl q l * albedo_s q l * JQ j))) by (intros; ring). rewrite rsum_minus. ring. }
      eapply Rle_trans; [apply Rabs_triang|]. apply Rplus_le_compat; [|apply Rle_refl].
      eapply Rle_trans; [apply Rabs_triang|]. apply Rplus_le_compat; [|apply Rle_refl].
      eapply Rle_trans; [apply Rabs_triang|]. rewrite Rmult_plus_distr_r. apply Rplus_le_compat.
      - rewrite Rabs_mult, (peak_scl p q). apply Rmult_le_compat_l; [apply Rabs_pos|]. apply Fz_bound; auto.
      - apply wsum_le. intros j Hj. apply (int_diff' l k j r x); auto.
    Qed.
    Lemma Fz_derive l k r x JF : (l < nlayers q)%nat -> (k < 2 * half q)%nat -> top_of q l < r < bot_of q l ->
      is_derive (fun s => F0 k s x) (same_place p q l r) (rhs p l k (same_place p q l r) (Fz k r x) JF x / nth k mu 0) ->
      is_derive (fun s => Fz k s x) r (thicker p q l * rhs p l k (same_place p q l r) (Fz k r x) JF x / nth k mu 0).
    Proof.
      intros Hl Hk Hr D. apply (der_ext_loc (fun s => F0 k (same_place p q l s) x) (fun s => Fz k s x) r _ (top_of q l) (bot_of q l)); [exact Hr| |].
      { intros y Hy. apply Fz_in; [exact Hl|lra]. }
      assert (D1 : is_derive (same_place p q l) r (thicker p q l)).
      { unfold same_place. refine (der_eq _ _ _ _ _ (der_plus _ _ _ _ _ (is_derive_const (top_of p l) r) (der_scal _ (thicker p q l) _ _ (der_minus _ _ _ _ _ (is_derive_id r) (is_derive_const (top_of q l) r))))). change zero with 0. change one with 1. ring. }
      pose proof (is_derive_comp (fun s => F0 k s x) (same_place p q l) r _ _ D D1) as D2. refine (der_eq _ _ _ _ _ D2). change scal with Rmult. cbv beta. unfold Rdiv. ring.
    Qed.

    Lemma full_shift1 s : s = 1 \/ s = -1 -> forall i t x, (i < streams q)%nat -> 0 <= t <= bottom q -> s * (Fz i t x - G i t x) <= e.
    Proof.
      intros Hs i t x Hi Ht. pose proof e_nonneg_sh as He. destruct BF as [A1 A2 A2' A3 A4]. destruct BG as [B1 B2 B2' B3 B4]. rewrite (streams_eq q Vq) in Hi, B2, B2'. pose proof PI_RGT_0 as HPI.
      assert (SA : forall x y, Rabs x <= y -> s * x <= y /\ - (s * x) <= y). { intros x' y H. apply Rabs_le_between in H. destruct Hs as [-> | ->]; lra. }
      rewrite Es, (streams_eq q Vq) in A2, A2'.
      enough (0 <= e - s * Fz i t x + s * G i t x) by lra.
      refine (full_nonneg q Vq mu w rho' Hdg Hph (sp_diffuse _ _ _ _ Hsurf) (sp_albedo _ _ _ _ Hsurf) (fun i t x => e - s * Fz i t x + s * G i t x) _ _ _ _ _ i t x Hi Ht).
      - assert (SC : forall f, cont2_on 0 (bottom q) f -> forall r, r = 1 \/ r = -1 -> cont2_on 0 (bottom q) (fun t x => r * f t x)).
        { intros f Hf r [-> | ->]; [apply (cont2_ext _ _ f); [intros; ring|exact Hf]|apply (cont2_ext _ _ (fun t x => - f t x)); [intros; ring|apply cont2_opp; exact Hf]]. }
        intros k Hk. apply (cont2_ext _ _ (fun t x => (e + - (s * Fz k t x)) + s * G k t x)); [intros; ring|]. apply cont2_plus; [|apply SC; auto]. apply cont2_plus; [apply cont2_const|]. apply cont2_opp, SC; auto. apply Fz_cont; exact Hk.
      - intros k s' y Hk Hs'. unfold Fz. rewrite A2', B2' by (auto; apply (theta_range p q SF Vp Vq); exact Hs'). reflexivity.
      - intros l k r y Hl Hk Hr. assert (Hlp : (l < nlayers p)%nat) by (rewrite Enl; exact Hl).
        assert (Hrb : 0 <= r <= bottom q) by (apply (layer_at_range q Vq r l); split; [exact Hl|left; lra]).
        destruct (B1 l k r y Hl ltac:(rewrite (streams_eq q Vq); exact Hk) Hr) as (JG & HJG & DG). rewrite (streams_eq q Vq) in HJG, DG. fold (rhs q l k r (G k r y) JG y) in DG.
        destruct (A1 l k (same_place p q l r) y Hlp) as (JF & HJF & DF); [rewrite Es, (streams_eq q Vq); exact Hk|apply (place_inner p q SF Vp Vq l r Hl Hr)|].
        rewrite Es, (streams_eq q Vq) in HJF, DF. rewrite Eh in DF. rewrite (Fz_in l k r y Hl ltac:(lra)) in DF. fold (rhs p l k (same_place p q l r) (Fz k r y) JF y) in DF.
        assert (HJF' : forall j, (j < 2 * half q)%nat -> is_RInt (fun z => phase_at p l (cos_between (nth k mu 0) y (nth j mu 0) z) * Fz j r z) 0 (2 * PI) (JF j)).
        { intros j Hj. apply (is_RInt_ext (V:=R_NormedModule) (fun z => phase_at p l (cos_between (nth k mu 0) y (nth j mu 0) z) * F0 j (same_place p q l r) z)); [|apply HJF; exact Hj].
          intros z _. rewrite (Fz_in l j r z Hl ltac:(lra)). reflexivity. }
        apply (Fz_derive l k r y JF Hl Hk Hr) in DF.
        assert (XJ : exists JQ : nat -> R, forall j, (j < 2 * half q)%nat -> is_RInt (fun z => phase_at q l (cos_between (nth k mu 0) y (nth j mu 0) z) * Fz j r z) 0 (2 * PI) (JQ j)).
        { exists (fun j => RInt (fun z => phase_at q l (cos_between (nth k mu 0) y (nth j mu 0) z) * Fz j r z) 0 (2 * PI)). intros j Hj.
          apply (RInt_correct (V:=R_CompleteNormedModule)). apply int_ex; auto. }
        destruct XJ as (JQ & HJQ).
        pose proof (rhs_defect l k r y JF JQ Hl Hk Hr HJF' HJQ) as Hdl. set (fp := rhs p l k (same_place p q l r) (Fz k r y) JF y) in *.
        set (dl := rhs q l k r (Fz k r y) JQ y - thicker p q l * fp) in *.
        exists (fun j => e * (2 * PI * phase_mode q 0 l (nth k mu 0) (nth j mu 0)) - s * JQ j + s * JG j), ((1 - albedo q l) * e - s * dl). split; [|split].
        + pose proof (proj1 (SA _ _ Hdl)). lra.
        + intros j Hj. apply (is_RInt_ext (V:=R_NormedModule) (fun z => plus (minus (scal e (phase_at q l (cos_between (nth k mu 0) y (nth j mu 0) z))) (scal s (phase_at q l (cos_between (nth k mu 0) y (nth j mu 0) z) * Fz j r z))) (scal s (phase_at q l (cos_between (nth k mu 0) y (nth j mu 0) z) * G j r z)))).
          * intros z _. unfold minus, plus, opp, scal; simpl. unfold mult; simpl. ring.
          * apply (is_RInt_plus (V:=R_NormedModule)); [apply (is_RInt_minus (V:=R_NormedModule))|]; apply (is_RInt_scal (V:=R_NormedModule)); auto. apply (int_phase q Vq mu w Hdg l k j y Hk Hj).
        + refine (der_eq _ _ _ _ _ (der_plus _ _ _ _ _ (der_minus _ _ _ _ _ (is_derive_const e r) (der_scal _ s _ _ DF)) (der_scal _ s _ _ DG))). change zero with 0.
          rewrite (rsum_ext _ (fun j => wnode (half q) w j * (e * (2 * PI * phase_mode q 0 l (nth k mu 0) (nth j mu 0)) - s * JQ j + s * JG j))
            (fun j => (e * (2 * PI) * (wnode (half q) w j * phase_mode q 0 l (nth k mu 0) (nth j mu 0)) - s * (wnode (half q) w j * JQ j)) - (- s) * (wnode (half q) w j * JG j))) by (intros; ring).
          rewrite !rsum_minus, !rsum_scal. pose proof (row_sum q Vq mu w Hdg l k Hl) as E. set (RS := rsum (2 * half q) (fun j => wnode (half q) w j * phase_mode q 0 l (nth k mu 0) (nth j mu 0))) in *.
          pose proof (scl_pos q Vq l Hl) as Hsc. assert (E2 : 1 - albedo q l = scl q l - scl q l * albedo_s q l) by (unfold albedo_s, scl in *; field; lra).
          unfold dl, rhs. clearbody fp. set (SQ := rsum (2 * half q) (fun j => wnode (half q) w j * JQ j)) in *. set (SG := rsum (2 * half q) (fun j => wnode (half q) w j * JG j)) in *.
          replace (albedo_s q l / (4 * PI) * (e * (2 * PI) * RS - s * SQ - - s * SG)) with (e / 2 * (RS * albedo_s q l) - albedo_s q l / (4 * PI) * (s * SQ) + albedo_s q l / (4 * PI) * (s * SG)) by (field; lra).
          rewrite E. replace ((1 - albedo q l) * e) with ((scl q l - scl q l * albedo_s q l) * e) by (rewrite <- E2; ring). unfold Rdiv. field. split; [apply (node q Vq mu w Hdg k Hk)|lra].
      - intros k y Hk. rewrite (B3 k y Hk). unfold Fz. rewrite (theta_top p q Vq). rewrite Eh in A3. rewrite (A3 k y Hk).
        pose proof (SA _ _ (sb_n _ _ _ _ _ _ _ _ _ _ _ _ CB k Hk)). lra.
      - intros k y Hk. destruct (B4 k y Hk) as (JG & HJG & EG). destruct (A4 k y ltac:(rewrite Eh; exact Hk)) as (JF & HJF & EF).
        assert (EB : forall j z, F0 j (bottom p) z = Fz j (bottom q) z) by (intros; unfold Fz; rewrite (theta_bottom p q SF Vq); reflexivity).
        rewrite Eh in HJF, EF. rewrite EB in EF. fold (beam_bounce p rho (nth k mu 0) y) in EF. fold (beam_bounce q rho' (nth k mu 0) y) in EG.
        assert (HJF' : forall j, (j < half q)%nat -> is_RInt (fun z => surface_at p rho (nth k mu 0) y (nth j mu 0) z * Fz (half q + j)%nat (bottom q) z) 0 (2 * PI) (JF j)).
        { intros j Hj. eapply (is_RInt_ext (V:=R_NormedModule)); [|apply HJF; exact Hj]. intros z _. cbv beta. rewrite EB. reflexivity. }
        assert (Hbb : 0 <= bottom q <= bottom q). { split; [|lra]. rewrite (bottom_eq q). apply Rlt_le, (v_tau q Vq). pose proof (v_ne q Vq). lia. }
        assert (XJ : exists JQ : nat -> R, forall j, (j < half q)%nat -> is_RInt (fun z => surface_at q rho' (nth k mu 0) y (nth j mu 0) z * Fz (half q + j)%nat (bottom q) z) 0 (2 * PI) (JQ j)).
        { exists (fun j => RInt (fun z => surface_at q rho' (nth k mu 0) y (nth j mu 0) z * Fz (half q + j)%nat (bottom q) z) 0 (2 * PI)). intros j Hj.
          apply (RInt_correct (V:=R_CompleteNormedModule)), (ex_RInt_continuous (V:=R_CompleteNormedModule)). intros z _. apply (continuous_mult (K:=R_AbsRing)); [apply surface_cont|].
          apply (cont2_continuous 0 (bottom q) (Fz (half q + j)) (bottom q) z); [|exact Hbb]. apply Fz_cont. lia. }
        destruct XJ as (JQ & HJQ).
        set (ds := / PI * rsum (half q) (fun j => w j * nth j mu 0 * (JF j - JQ j))).
        assert (Hds : Rabs ds <= 2 * rsum (half q) (fun j => surface_dist q rho rho' (nth k mu 0) (nth j mu 0) * nth j mu 0 * w j) * M).
        { unfold ds. rewrite Rabs_mult, (Rabs_pos_eq (/ PI)) by (left; apply Rinv_0_lt_compat; lra).
          replace (2 * rsum (half q) (fun j => surface_dist q rho rho' (nth k mu 0) (nth j mu 0) * nth j mu 0 * w j) * M) with (/ PI * ((2 * PI * M) * rsum (half q) (fun j => surface_dist q rho rho' (nth k mu 0) (nth j mu 0) * nth j mu 0 * w j))) by (field; lra).
          apply Rmult_le_compat_l; [left; apply Rinv_0_lt_compat; lra|]. rewrite <- rsum_scal. eapply Rle_trans; [apply rsum_abs|]. apply rsum_le. intros j Hj.
          destruct Hdg as (_ & H2 & _). destruct (H2 j Hj) as (P1 & _ & P2). assert (Hwm : 0 <= w j * nth j mu 0) by (apply Rmult_le_pos; lra).
          rewrite Rabs_mult, (Rabs_pos_eq (w j * _)) by exact Hwm.
          replace (2 * PI * M * (surface_dist q rho rho' (nth k mu 0) (nth j mu 0) * nth j mu 0 * w j)) with (w j * nth j mu 0 * (2 * PI * (surface_dist q rho rho' (nth k mu 0) (nth j mu 0) * M))) by ring.
          apply Rmult_le_compat_l; [exact Hwm|].
          pose proof (is_RInt_minus (V:=R_NormedModule) _ _ 0 (2 * PI) _ _ (HJF' j Hj) (HJQ j Hj)) as H3.
          assert (H4 : norm (minus (JF j) (JQ j)) <= (2 * PI - 0) * (surface_dist q rho rho' (nth k mu 0) (nth j mu 0) * M)).
          { refine (norm_RInt_le_const (V:=R_NormedModule) _ 0 (2 * PI) _ _ ltac:(lra) _ H3). intros z Hz.
            change (Rabs (surface_at p rho (nth k mu 0) y (nth j mu 0) z * Fz (half q + j)%nat (bottom q) z - surface_at q rho' (nth k mu 0) y (nth j mu 0) z * Fz (half q + j)%nat (bottom q) z) <= surface_dist q rho rho' (nth k mu 0) (nth j mu 0) * M).
            rewrite <- Rmult_minus_distr_r, Rabs_mult. apply Rmult_le_compat; try apply Rabs_pos; [apply surface_diff, (sf_surface _ _ SF)|apply Fz_bound; [lia|exact Hbb]]. }
          rewrite Rminus_0_r in H4. exact H4. }
        exists (fun j => e * (if Nat.ltb 0 (length (p_BDRF q)) then 2 * PI * rho' 0%nat (nth k mu 0) (nth j mu 0) else 0) - s * JQ j + s * JG j),
          ((1 - reflectance q mu w (rho' 0%nat) k) * e - s * (vp k - vp' k) - s * (beam_bounce p rho (nth k mu 0) y - beam_bounce q rho' (nth k mu 0) y) - s * ds). split; [|split].
        + pose proof (sb_p _ _ _ _ _ _ _ _ _ _ _ _ CB k y Hk) as Hpk. pose proof (proj1 (SA _ _ (Rle_refl (Rabs (vp k - vp' k))))) as Sv.
          pose proof (proj1 (SA _ _ (Rle_refl (Rabs (beam_bounce p rho (nth k mu 0) y - beam_bounce q rho' (nth k mu 0) y))))) as Sb. pose proof (proj1 (SA _ _ Hds)) as Sd. lra.
        + intros j Hj. apply (is_RInt_ext (V:=R_NormedModule) (fun z => plus (minus (scal e (surface_at q rho' (nth k mu 0) y (nth j mu 0) z)) (scal s (surface_at q rho' (nth k mu 0) y (nth j mu 0) z * Fz (half q + j)%nat (bottom q) z))) (scal s (surface_at q rho' (nth k mu 0) y (nth j mu 0) z * G (half q + j)%nat (bottom q) z)))).
          * intros z _. unfold minus, plus, opp, scal; simpl. unfold mult; simpl. ring.
          * apply (is_RInt_plus (V:=R_NormedModule)); [apply (is_RInt_minus (V:=R_NormedModule))|]; apply (is_RInt_scal (V:=R_NormedModule)); auto. apply (int_surface q Vq mu rho' k j y).
        + rewrite EG, EF. unfold ds.
          rewrite (rsum_ext _ (fun j => w j * nth j mu 0 * (JF j - JQ j)) (fun j => w j * nth j mu 0 * JF j - w j * nth j mu 0 * JQ j)) by (intros; ring).
          rewrite (rsum_ext _ (fun j => w j * nth j mu 0 * (e * _ - s * JQ j + s * JG j))
            (fun j => (e * (w j * nth j mu 0 * (if Nat.ltb 0 (length (p_BDRF q)) then 2 * PI * rho' 0%nat (nth k mu 0) (nth j mu 0) else 0)) - s * (w j * nth j mu 0 * JQ j)) - (- s) * (w j * nth j mu 0 * JG j))) by (intros; ring).
          rewrite !rsum_minus, !rsum_scal.
          assert (ER : / PI * rsum (half q) (fun j => w j * nth j mu 0 * (if Nat.ltb 0 (length (p_BDRF q)) then 2 * PI * rho' 0%nat (nth k mu 0) (nth j mu 0) else 0)) = reflectance q mu w (rho' 0%nat) k).
          { unfold reflectance. destruct (Nat.ltb 0 (length (p_BDRF q))).
            - rewrite (rsum_ext _ _ (fun j => (2 * PI) * (rho' 0%nat (nth k mu 0) (nth j mu 0) * nth j mu 0 * w j))) by (intros; ring). rewrite rsum_scal. field. lra.
            - rewrite rsum_0 by (intros; ring). ring. }
          rewrite <- ER. ring.
    Qed.
    Theorem full_shift i t x : (i < streams q)%nat -> 0 <= t <= bottom q -> Rabs (Fz i t x - G i t x) <= e.
    Proof.
      intros Hi Ht. pose proof (full_shift1 1 (or_introl eq_refl) i t x Hi Ht). pose proof (full_shift1 (-1) (or_intror eq_refl) i t x Hi Ht). apply Rabs_le. lra.
    Qed.
  End Field.
End Change.
