(** Continuous dependence of the reported intensity at every azimuth on all numerical arguments: calls. *)
From Coq Require Import Classical String Reals Lra Lia List Bool Arith ZArith.
From Coquelicot Require Import Coquelicot.
From Verif Require Import Base Tensor Spec M_LinAlg Spec_RTE Calc M_Subroutines M_GenPart M_MathscrV M_Coeffs M_Assemble M_Pydisort
  Spec_Sol Spec_Valid Spec_Calls Spec_Unique Spec_Phys Spec_Mono Spec_Depend Spec_Full Spec_DependAz Spec_Stretch Spec_StretchAz P_Special P_Addition P_Quad P_Sub P_Sub3 P_Solve P_Energy P_Pydisort P_Pydisort2 P_Pydisort3 P_Pydisort4 P_Pydisort5 P_Pydisort6 P_Pydisort8 P_Teq P_NT3 P_Unique2 P_Refine P_Max P_Max2 P_Max3 P_Max4 P_Mono P_Full P_Full2 P_Full3 P_Depend P_Depend2 P_Conv2 P_DependAz P_DependAz2 P_Stretch P_Stretch2 P_StretchAz.
Import ListNotations.
Local Open Scope R_scope.

Section Calls.
  Variables (p q : py_in) (lg : leggauss_t) (la la' : linalg) (jk jk' : junk) (out out' : py_out) (u u' : list R -> list R -> bool -> bool -> bool -> res pret).
  Hypothesis Hla : linalg_ok la.
  Hypothesis Hla' : linalg_ok la'.
  Hypothesis Hlg : leggauss_ok (half p) (lg (half p)).
  Hypothesis Hp : pydisort p lg la jk = Ok out.
  Hypothesis Hq : pydisort q lg la' jk' = Ok out'.
  Hypothesis Hu : po_u out = Some u.
  Hypothesis Hu' : po_u out' = Some u'.
  Hypothesis AM : all_modes p.
  Hypothesis AM' : all_modes q.
  Variables (w : nat -> R) (vn vp vn' vp' : nat -> R) (rho rho' : nat -> R -> R -> R).
  Hypothesis Hw : double_gauss (half p) (po_mu out) w.
  Hypothesis BD : boundary_data p vn vp rho.
  Hypothesis BD' : boundary_data q vn' vp' rho'.
  Hypothesis SF : same_frame p q.
  Hypothesis Kp : not_all_forward p.
  Hypothesis Kq : not_all_forward q.
  Hypothesis Hph : phase_positive q.
  Hypothesis Hsurf : surface_positive q (po_mu out) w rho'.
  Variables e M : R.
  Hypothesis CB : shifts_by e M p q (po_mu out) w vn vp vn' vp' rho rho'.

  Lemma call_shifts f : reports_u p u f -> (forall i t x, (i < streams p)%nat -> 0 <= t <= bottom p -> Rabs (f i t x) <= M) -> forall tau tau' phi, Forall2 (corresponds p q) tau tau' ->
    exists A B, u tau phi false false false = Ok (PVal (PT A)) /\ u' tau' phi false false false = Ok (PVal (PT B)) /\ twithin e A B.
  Proof.
    intros Hf HM tau tau' phi HC. pose proof (call_valid p lg la jk out Hp) as Vp. pose proof (call_valid q lg la' jk' out' Hq) as Vq.
    pose proof (same_mu p q lg la la' jk jk' out out' Hp Hq (sf_NQuad _ _ SF)) as Em. pose proof (sf_half p q SF) as Eh. pose proof (sf_streams p q SF) as Es.
    assert (Hlg' : leggauss_ok (half q) (lg (half q))) by (rewrite <- Eh; exact Hlg).
    assert (Hw' : double_gauss (half q) (po_mu out') w) by (rewrite <- Eh, <- Em; exact Hw).
    destruct (corr_depths p q SF Vp Vq tau tau' HC) as (Ht & Ht'). pose proof (corr_length p q tau tau' HC) as EL.
    pose proof (proj2 (rep_solves p lg la jk out u Hla Hlg Hp Hu AM w vn vp rho Hw BD) f Hf) as H.
    destruct (rep_solves q lg la' jk' out' u' Hla' Hlg' Hq Hu' AM' w vn' vp' rho' Hw' BD') as ((g & Hg) & H'). specialize (H' g Hg). rewrite <- Em in H', Hw'.
    destruct (Hf tau phi Ht) as (A & EA & SA). destruct (Hg tau' phi Ht') as (B & EB & SB). exists A, B. split; [exact EA|]. split; [exact EB|]. rewrite Es, EL in SA.
    refine (squeezed_within _ _ _ _ _ _ SA SB _). intros idx Hi. apply inb_3 in Hi as (a & b & c & -> & Ha & Hb & Hc). cbn [nth].
    destruct (corr_theta p q Vq _ _ (corr_nth p q tau tau' HC b Hb)) as (I1 & I2). rewrite <- I2.
    exact (full_shift p q SF Vp Vq Kp Kq (po_mu out) w vn vp vn' vp' rho rho' e M Hw' CB f g H H' HM Hph Hsurf a (nth b tau' 0) (nth c phi 0) Ha I1).
  Qed.
  Theorem call_shifts_by : u_bounded p u M -> forall tau tau' phi, Forall2 (corresponds p q) tau tau' ->
    exists A B, u tau phi false false false = Ok (PVal (PT A)) /\ u' tau' phi false false false = Ok (PVal (PT B)) /\ twithin e A B.
  Proof.
    intros HB. destruct (rep_solves p lg la jk out u Hla Hlg Hp Hu AM w vn vp rho Hw BD) as ((f & Hf) & _). apply (call_shifts f Hf).
    exact (bounded_field p (call_valid p lg la jk out Hp) u M f HB Hf).
  Qed.
End Calls.

Lemma cos_lip_az x y : Rabs (cos x - cos y) <= Rabs (x - y).
Proof.
  destruct (MVT_gen cos y x (fun z => - sin z)) as (z & _ & E).
  - intros z _. apply is_derive_Reals. apply derivable_pt_lim_cos.
  - intros z _. apply continuity_cos.
  - rewrite E, Rabs_mult. pose proof (SIN_bound z). assert (Rabs (- sin z) <= 1) by (apply Rabs_le; lra).
    pose proof (Rabs_pos (x - y)). assert (Rabs (- sin z) * Rabs (x - y) <= 1 * Rabs (x - y)) by (apply Rmult_le_compat_r; lra). lra.
Qed.
Lemma sqrt_near a b c : 0 <= a -> 0 <= b -> 0 <= c -> Rabs (a - b) <= c * c -> Rabs (sqrt a - sqrt b) <= c.
Proof.
  assert (W : forall a b c, 0 <= a -> 0 <= b -> 0 <= c -> a - b <= c * c -> sqrt a - sqrt b <= c).
  { intros a0 b0 c0 Ha Hb Hc H. enough (sqrt a0 <= sqrt b0 + c0) by lra. pose proof (sqrt_pos b0) as Hs. rewrite <- (sqrt_Rsqr (sqrt b0 + c0)) by lra. apply sqrt_le_1_alt. unfold Rsqr.
    pose proof (sqrt_sqrt b0 Hb). nra. }
  intros Ha Hb Hc H. apply Rabs_le_between in H. apply Rabs_le. pose proof (W a b c Ha Hb Hc ltac:(lra)). pose proof (W b a c Hb Ha Hc ltac:(lra)). lra.
Qed.
(** The angle between a direction and the beam moves little when the sun does. *)
Lemma angle_near x phi a b f g d D : -1 <= x <= 1 -> 0 <= a <= 1 -> 0 <= b <= 1 -> 0 <= d <= D -> 2 * d <= D * D -> Rabs (a - b) <= d -> Rabs (f - g) <= d ->
  Rabs (cos_between x phi (- a) f - cos_between x phi (- b) g) <= 3 * D.
Proof.
  intros Hx Ha Hb Hd HD Hab Hfg. rewrite !cos_between_eq. set (sx := sqrt (1 - x ^ 2)). set (sa := sqrt (1 - (- a) ^ 2)). set (sb := sqrt (1 - (- b) ^ 2)).
  assert (U : forall y, -1 <= y <= 1 -> 0 <= sqrt (1 - y ^ 2) <= 1). { intros y Hy. split; [apply sqrt_pos|]. rewrite <- sqrt_1 at 2. apply sqrt_le_1_alt. nra. }
  pose proof (U x Hx) as Ux. fold sx in Ux. pose proof (U (- a) ltac:(lra)) as Ua. fold sa in Ua. pose proof (U (- b) ltac:(lra)) as Ub. fold sb in Ub.
  assert (S : Rabs (sa - sb) <= D). { apply sqrt_near; [nra|nra|lra|]. replace (1 - (- a) ^ 2 - (1 - (- b) ^ 2)) with (- ((a - b) * (a + b))) by ring. rewrite Rabs_Ropp, Rabs_mult, (Rabs_pos_eq (a + b)) by lra. pose proof (Rabs_pos (a - b)). nra. }
  assert (C : Rabs (cos (phi - f) - cos (phi - g)) <= d). { eapply Rle_trans; [apply cos_lip_az|]. replace (phi - f - (phi - g)) with (- (f - g)) by ring. rewrite Rabs_Ropp. exact Hfg. }
  pose proof (COS_bound (phi - f)) as Cf.
  assert (P : Rabs (sa * cos (phi - f) - sb * cos (phi - g)) <= D + d).
  { eapply Rle_trans; [apply (abs_prod _ _ _ _ D d S C)|]. assert (Rabs (cos (phi - f)) <= 1) by (apply Rabs_le; lra). rewrite (Rabs_pos_eq sb) by lra. pose proof (Rabs_pos (cos (phi - f))). nra. }
  replace (x * - a + sx * sa * cos (phi - f) - (x * - b + sx * sb * cos (phi - g))) with (- (x * (a - b)) + sx * (sa * cos (phi - f) - sb * cos (phi - g))) by ring.
  eapply Rle_trans; [apply Rabs_triang|]. rewrite Rabs_Ropp, !Rabs_mult, (Rabs_pos_eq sx) by lra. assert (Rabs x <= 1) by (apply Rabs_le; lra). pose proof (Rabs_pos x). pose proof (Rabs_pos (a - b)).
  pose proof (Rabs_pos (sa * cos (phi - f) - sb * cos (phi - g))). nra.
Qed.
Lemma near_mono d D p q mu vn vp vn' vp' rho rho' : d <= D -> near_deformed d p q mu vn vp vn' vp' rho rho' -> near_deformed D p q mu vn vp vn' vp' rho rho'.
Proof. intros H [A1 A2 A3 A4 A5 A6 A7 A8 A9 A10 A11]. constructor; intros; (eapply Rle_trans; [|exact H]); auto. Qed.

(** How far the Fourier modes of the surface can move the reflected beam when the sun turns. *)
Definition turn_size (p : py_in) (rho : nat -> R -> R -> R) (x y : R) : R := rsum (length (p_BDRF p)) (fun m => INR m * Rabs (rho m x y)).

Section Near.
  Variables (p q : py_in) (mu : list R) (w vn vp vn' vp' : nat -> R) (rho rho' : nat -> R -> R -> R) (d D : R).
  Hypothesis Vp : valid p.
  Hypothesis Vq : valid q.
  Hypothesis SF : same_frame p q.
  Hypothesis NS : near_sky d p q mu vn vp vn' vp' rho rho'.
  Hypothesis HdD : d <= D.
  Hypothesis HDD : 2 * d <= D * D.
  Hypothesis D1 : D <= 1.
  Hypothesis DI : 0 < p_I0 p -> D <= p_I0 p / 2.
  Hypothesis Dm : 0 < p_I0 p -> D <= p_mu0 p / 2.
  Hypothesis Hdg : double_gauss (half q) mu w.
  Lemma NB : near_deformed D p q mu vn vp vn' vp' (rho 0%nat) (rho' 0%nat).
  Proof. exact (near_mono d D _ _ _ _ _ _ _ _ _ HdD (ns_all _ _ _ _ _ _ _ _ _ _ NS)). Qed.
  Lemma d0 : 0 <= d.
  Proof. exact (d_nonneg' p q mu vn vp vn' vp' (rho 0%nat) (rho' 0%nat) d Vq (ns_all _ _ _ _ _ _ _ _ _ _ NS)). Qed.

  Lemma scatter_sum r l x (Vr : valid r) : (l < nlayers r)%nat -> -1 <= x <= 1 -> Rabs (rsum (ncoeffs r) (fun k => (2 * INR k + 1) * scattering r l k * legendre k x)) <= 2 * n2 r.
  Proof. intros Hl Hx. apply Rle_trans with (2 := nb_size r Vr l Hl). apply (skern_size_of r l x Hx). Qed.
  Lemma scatter_near L l x phi s : 0 <= L -> (forall k y y', (k < ncoeffs p)%nat -> -1 <= y <= 1 -> -1 <= y' <= 1 -> Rabs (legendre k y - legendre k y') <= L * Rabs (y - y')) ->
    (l < nlayers q)%nat -> -1 <= x <= 1 -> top_of q l <= s <= bot_of q l ->
    Rabs (beam_scatter p l x phi (same_place p q l s) - beam_scatter q l x phi s) <= D * q_beam p (3 * L).
  Proof.
    intros HL Hleg Hl Hx Hs. pose proof d0 as Hd0. assert (Hd : 0 <= D) by lra. pose proof NB as NBD. destruct (near_I0 p q mu vn vp vn' vp' (rho 0%nat) (rho' 0%nat) D Vq NBD DI) as [HI1 HI2]. set (cp := cos_between x phi (- p_mu0 p) (p_phi0 p)). set (cq := cos_between x phi (- p_mu0 q) (p_phi0 q)). pose proof (n2_nonneg p) as Hn. pose proof PI2_3_2 as HPI.
    assert (Hl' : (l < nlayers p)%nat) by (rewrite (sf_layers _ _ SF); exact Hl). pose proof (place_range p q SF Vp Vq l s Hl Hs) as HP.
    pose proof (depth_le p l _ Vp Hl' HP) as HD. pose proof (depth_le q l s Vq Hl Hs) as HD'. pose proof (layer_in p Vp _ Hl') as HLp. pose proof (pos_INR (nlayers p)) as HN.
    assert (Hi4 : 0 < / (4 * PI) <= 1). { split; [apply Rinv_0_lt_compat; lra|]. rewrite <- Rinv_1. apply Rinv_le_contravar; lra. }
    set (Sp := rsum (ncoeffs p) (fun k => (2 * INR k + 1) * scattering p l k * legendre k cp)).
    set (Sq := rsum (ncoeffs q) (fun k => (2 * INR k + 1) * scattering q l k * legendre k cq)).
    assert (HSq : 0 < p_I0 q -> Rabs Sq <= 2 * n2 p) by (intros HI; rewrite <- (n2_same p q SF); apply scatter_sum; auto; apply nu_range; [exact Hx|pose proof (v_mu0 q Vq HI); lra]).
    assert (Ep : beam_scatter p l x phi (same_place p q l s) = / (4 * PI) * (p_I0 p * (Sp * exp (- depth_s p l (same_place p q l s) / p_mu0 p)))) by (unfold beam_scatter; fold cp; fold Sp; unfold Rdiv; ring).
    assert (Eq : beam_scatter q l x phi s = / (4 * PI) * (p_I0 q * (Sq * exp (- depth_s q l s / p_mu0 q)))) by (unfold beam_scatter; fold cq; fold Sq; unfold Rdiv; ring).
    rewrite Ep, Eq, <- Rmult_minus_distr_l, Rabs_mult, (Rabs_pos_eq (/ (4 * PI))) by lra. pose proof (q_beam_pos p Vp (3 * L) ltac:(lra)) as HQB.
    apply Rle_trans with (1 * (D * q_beam p (3 * L))); [|lra]. apply Rmult_le_compat; [lra|apply Rabs_pos|lra|].
    destruct (Rle_lt_or_eq_dec 0 (p_I0 p) (v_I0 p Vp)) as [HI|HI].
    - specialize (HI2 HI). pose proof (v_mu0 p Vp HI) as Hm. pose proof (near_mu0 p q mu vn vp vn' vp' (rho 0%nat) (rho' 0%nat) D Vq NBD DI Dm HI) as Hm'. pose proof (q_exp_pos p Vp HI) as HQ. assert (Hcp : -1 <= cp <= 1) by (apply nu_range; lra). assert (Hcq : -1 <= cq <= 1) by (apply nu_range; lra).
      assert (HA0 : Rabs (cp - cq) <= 3 * D) by (apply (angle_near x phi _ _ _ _ d D); try lra; apply NS). specialize (HSq (proj1 HI2)).
      assert (HSp : Rabs Sp <= 2 * n2 p) by (apply scatter_sum; auto).
      pose proof (exp_le1 p (depth_s p l (same_place p q l s)) ltac:(lra) ltac:(lra)) as H1.
      assert (HE : Rabs (exp (- depth_s p l (same_place p q l s) / p_mu0 p) - exp (- depth_s q l s / p_mu0 q)) <= D * q_exp p).
      { apply (exp_near p q mu vn vp vn' vp' (rho 0%nat) (rho' 0%nat) D Vp Vq NBD DI Dm); [exact HI|lra|lra|]. pose proof (depth_place p q Vq l s Hl Hs). pose proof (nd_scaled p q mu vn vp vn' vp' (rho 0%nat) (rho' 0%nat) D Vp Vq SF NBD). lra. }
      assert (HS : Rabs (Sp - Sq) <= D * (4 * n2 p + 2 * n2 p * (3 * L))).
      { unfold Sp, Sq. rewrite (sf_ncoeffs p q SF), <- rsum_minus. replace (D * (4 * n2 p + 2 * n2 p * (3 * L))) with (D * (4 + 2 * (3 * L)) * n2 q) by (rewrite (n2_same p q SF); ring). unfold n2. rewrite <- rsum_scal.
        eapply Rle_trans; [apply rsum_abs|]. apply rsum_le. intros k Hk. pose proof (pos_INR k) as Hk0.
        replace ((2 * INR k + 1) * scattering p l k * legendre k cp - (2 * INR k + 1) * scattering q l k * legendre k cq)
          with ((2 * INR k + 1) * (scattering p l k * legendre k cp - scattering q l k * legendre k cq)) by ring.
        rewrite Rabs_mult, (Rabs_pos_eq (2 * INR k + 1)), (Rmult_comm (D * (4 + 2 * (3 * L)))) by lra. apply Rmult_le_compat_l; [lra|].
        assert (HA : Rabs (scattering p l k * legendre k cp - scattering q l k * legendre k cq) <= D * (4 + 2 * (3 * L))).
        { eapply Rle_trans; [apply (abs_prod _ _ _ _ (4 * D) (L * (3 * D))); [apply (nd_scattering p q mu vn vp vn' vp' (rho 0%nat) (rho' 0%nat) D Vp Vq SF NBD); auto|]|].
          - eapply Rle_trans; [apply Hleg; [rewrite (sf_ncoeffs p q SF); exact Hk|lra|lra]|]. apply Rmult_le_compat_l; [exact HL|exact HA0].
          - pose proof (legendre_abs k cp Hcp) as La. assert (Hsc : Rabs (scattering q l k) <= 2).
            { pose proof (phase_abs q Vq l k Hl Hk) as A. apply Rabs_le_between in A. pose proof (fwd_range q Vq l). pose proof (albedo_range q Vq l Hl). unfold scattering. apply Rabs_le. nra. }
            assert (0 <= L * (3 * D)) by (apply Rmult_le_pos; lra). pose proof (Rabs_pos (scattering q l k)). pose proof (Rabs_pos (legendre k cp)). nra. }
        exact HA. }
      assert (HSE : Rabs (Sp * exp (- depth_s p l (same_place p q l s) / p_mu0 p) - Sq * exp (- depth_s q l s / p_mu0 q)) <= D * (4 * n2 p + 2 * n2 p * (3 * L)) + D * (2 * n2 p * q_exp p)).
      { eapply Rle_trans; [apply (abs_prod _ _ _ _ _ _ HS HE)|]. rewrite (Rabs_pos_eq (exp _)) by lra. assert (0 <= D * (4 * n2 p + 2 * n2 p * (3 * L))) by (apply Rle_trans with (2 := HS); apply Rabs_pos).
        assert (0 <= D * q_exp p) by (apply Rmult_le_pos; lra). pose proof (Rabs_pos Sq). apply Rplus_le_compat; [nra|]. replace (D * (2 * n2 p * q_exp p)) with (2 * n2 p * (D * q_exp p)) by ring. apply Rmult_le_compat_r; lra. }
      eapply Rle_trans; [apply (abs_prod _ _ _ _ D _ (nd_I0 _ _ _ _ _ _ _ _ _ _ NBD) HSE)|]. rewrite Rabs_mult, (Rabs_pos_eq (exp _)), (Rabs_pos_eq (p_I0 q)) by lra.
      replace (D * q_beam p (3 * L)) with (D * (2 * n2 p) + 2 * p_I0 p * (D * (4 * n2 p + 2 * n2 p * (3 * L)) + D * (2 * n2 p * q_exp p))) by (unfold q_beam; ring).
      apply Rplus_le_compat; [apply Rmult_le_compat_l; [lra|]; pose proof (Rabs_pos Sp); nra|]. apply Rmult_le_compat_r; [apply Rle_trans with (2 := HSE); apply Rabs_pos|lra].
    - unfold q_beam. rewrite <- HI in *. rewrite Rmult_0_l, Rminus_0_l, Rabs_Ropp, Rmult_0_r, Rmult_0_l, Rplus_0_r. destruct (Rle_lt_or_eq_dec 0 (p_I0 q) (v_I0 q Vq)) as [HIq|<-].
      2: { rewrite Rmult_0_l, Rabs_R0. apply Rmult_le_pos; lra. }
      pose proof (v_mu0 q Vq HIq). pose proof (exp_le1 q (depth_s q l s) ltac:(lra) ltac:(lra)). rewrite !Rabs_mult, (Rabs_pos_eq (p_I0 q)), (Rabs_pos_eq (exp _)) by lra. specialize (HSq HIq). pose proof (Rabs_pos Sq).
      apply Rmult_le_compat; [lra|apply Rmult_le_pos; lra|lra|]. nra.
  Qed.
  Lemma surface_at_le r g x phi y psi : Rabs (surface_at r g x phi y psi) <= surface_size r g x y.
  Proof.
    unfold surface_at, surface_size. eapply Rle_trans; [apply rsum_abs|]. apply rsum_le. intros m Hm. rewrite Rabs_mult.
    assert (Rabs (cos (INR m * (phi - psi))) <= 1) by (apply Rabs_le, COS_bound). pose proof (Rabs_pos (g m x y)). nra.
  Qed.
  Lemma bounce_near i phi Rm Km : (i < half q)%nat -> surface_size p rho (nth i mu 0) (p_mu0 p) <= Rm -> turn_size p rho (nth i mu 0) (p_mu0 p) <= Km ->
    Rabs (beam_bounce p rho (nth i mu 0) phi - beam_bounce q rho' (nth i mu 0) phi) <= D * (q_dir p * Rm + (p_I0 p + 1) * (INR (length (p_BDRF p)) + Km)).
  Proof.
    intros Hi HR HK. pose proof d0 as Hd0. assert (Hd : 0 <= D) by lra. pose proof NB as NBD. destruct (near_I0 p q mu vn vp vn' vp' (rho 0%nat) (rho' 0%nat) D Vq NBD DI) as [HI1 _]. pose proof PI2_3_2 as HPI. pose proof (v_ne p Vp) as Hnp. pose proof (v_ne q Vq) as Hnq. pose proof (q_dir_pos p Vp) as Hq. pose proof (pos_INR (nlayers p)) as HN. pose proof (v_I0 p Vp) as HI0.
    assert (Hi4 : 0 < / PI <= 1). { split; [apply Rinv_0_lt_compat; lra|]. rewrite <- Rinv_1. apply Rinv_le_contravar; lra. }
    set (xp := depth_s p (nlayers p - 1) (bottom p)). set (xq := depth_s q (nlayers q - 1) (bottom q)).
    assert (E : forall r x z, p_mu0 r * p_I0 r / PI * z * exp (- x / p_mu0 r) = / PI * (direct r x * z)) by (intros; unfold direct, Rdiv; ring).
    unfold beam_bounce. fold xp. fold xq. rewrite (E p xp), (E q xq), <- Rmult_minus_distr_l, Rabs_mult, (Rabs_pos_eq (/ PI)) by lra.
    pose proof (last_range q Vq) as LQ. pose proof (depth_le q (nlayers q - 1) (bottom q) Vq ltac:(lia) LQ) as Hxq. fold xq in Hxq. pose proof (last_range p Vp) as LP. pose proof (depth_le p (nlayers p - 1) (bottom p) Vp ltac:(lia) LP) as Hxp. fold xp in Hxp.
    assert (HD : Rabs (direct p xp - direct q xq) <= D * q_dir p).
    { apply (direct_near p q mu vn vp vn' vp' (rho 0%nat) (rho' 0%nat) D Vp Vq NBD DI Dm); [lra|lra|]. pose proof (depth_place p q Vq (nlayers q - 1) (bottom q) ltac:(lia) LQ) as K. rewrite (sf_bottom_place p q SF Vq) in K. rewrite <- (sf_layers _ _ SF) in K at 1. fold xp in K. fold xq in K. pose proof (nd_scaled p q mu vn vp vn' vp' (rho 0%nat) (rho' 0%nat) D Vp Vq SF NBD). lra. }
    assert (HS : Rabs (surface_at p rho (nth i mu 0) phi (p_mu0 p) (p_phi0 p) - surface_at q rho' (nth i mu 0) phi (p_mu0 q) (p_phi0 q)) <= D * (INR (length (p_BDRF p)) + Km)).
    { apply Rle_trans with (D * (INR (length (p_BDRF p)) + turn_size p rho (nth i mu 0) (p_mu0 p))); [|apply Rmult_le_compat_l; lra].
      unfold surface_at, turn_size. rewrite <- (sf_surface _ _ SF), <- rsum_minus. set (nb := length (p_BDRF p)).
      replace (D * (INR nb + rsum nb (fun m => INR m * Rabs (rho m (nth i mu 0) (p_mu0 p))))) with (rsum nb (fun m => D * (1 + INR m * Rabs (rho m (nth i mu 0) (p_mu0 p))))).
      2: { rewrite rsum_scal, rsum_plus, rsum_const. ring. }
      eapply Rle_trans; [apply rsum_abs|]. apply rsum_le. intros m Hm.
      pose proof (ns_rho0 _ _ _ _ _ _ _ _ _ _ NS m i ltac:(rewrite <- (sf_surface _ _ SF); exact Hm) Hi) as A. pose proof (ns_phi0 _ _ _ _ _ _ _ _ _ _ NS) as A'. pose proof (pos_INR m) as Hm0.
      assert (C : Rabs (cos (INR m * (phi - p_phi0 p)) - cos (INR m * (phi - p_phi0 q))) <= INR m * D).
      { eapply Rle_trans; [apply cos_lip_az|]. replace (INR m * (phi - p_phi0 p) - INR m * (phi - p_phi0 q)) with (- (INR m * (p_phi0 p - p_phi0 q))) by ring. rewrite Rabs_Ropp, Rabs_mult, (Rabs_pos_eq (INR m)) by lra. apply Rmult_le_compat_l; lra. }
      set (rp := rho m (nth i mu 0) (p_mu0 p)) in *. set (rq := rho' m (nth i mu 0) (p_mu0 q)) in *. set (c1 := cos (INR m * (phi - p_phi0 p))) in *. set (c2 := cos (INR m * (phi - p_phi0 q))) in *.
      replace (rp * c1 - rq * c2) with ((rp - rq) * c2 + rp * (c1 - c2)) by ring. eapply Rle_trans; [apply Rabs_triang|]. rewrite !Rabs_mult.
      assert (Rabs c2 <= 1) by (apply Rabs_le, COS_bound). pose proof (Rabs_pos rp). pose proof (Rabs_pos (rp - rq)). pose proof (Rabs_pos c2).
      assert (Rabs (rp - rq) * Rabs c2 <= D) by nra. assert (Rabs rp * Rabs (c1 - c2) <= Rabs rp * (INR m * D)) by (apply Rmult_le_compat_l; lra). lra. }
    pose proof (direct_range q xq Vq ltac:(lra)) as HQ. pose proof (surface_at_le p rho (nth i mu 0) phi (p_mu0 p) (p_phi0 p)) as HR0. pose proof (Rabs_pos (surface_at p rho (nth i mu 0) phi (p_mu0 p) (p_phi0 p))) as HR1.
    match goal with |- _ * Rabs ?z <= ?y => assert (K : Rabs z <= y) end; [|match type of K with Rabs ?z <= _ => pose proof (Rabs_pos z) end; nra].
    eapply Rle_trans; [apply (abs_prod _ _ _ _ _ _ HD HS)|]. rewrite (Rabs_pos_eq (direct q xq)) by lra.
    assert (0 <= D * q_dir p) by (apply Rmult_le_pos; lra). match type of HS with Rabs ?z <= _ => pose proof (Rabs_pos z) end.
    assert (D * q_dir p * Rabs (surface_at p rho (nth i mu 0) phi (p_mu0 p) (p_phi0 p)) <= D * q_dir p * Rm) by (apply Rmult_le_compat_l; lra).
    assert (direct q xq * (D * (INR (length (p_BDRF p)) + Km)) <= (p_I0 p + 1) * (D * (INR (length (p_BDRF p)) + Km))) by (apply Rmult_le_compat_r; lra). lra.
  Qed.
  Lemma surfaces_near i M : 0 <= M -> (i < half q)%nat ->
    2 * rsum (half q) (fun j => surface_dist q rho rho' (nth i mu 0) (nth j mu 0) * nth j mu 0 * w j) * M <= D * (INR (length (p_BDRF p)) * M).
  Proof.
    intros HM Hi. rewrite <- Rmult_assoc. apply Rmult_le_compat_r; [exact HM|]. set (nb := INR (length (p_BDRF p))). apply Rle_trans with (2 * (D * nb * (1 / 2))); [|lra]. apply Rmult_le_compat_l; [lra|].
    rewrite <- (dg_first (half q) mu w (half_pos q Vq) Hdg), <- rsum_scal. apply rsum_le. intros j Hj. destruct Hdg as (_ & H2 & _). destruct (H2 j Hj) as (P1 & _ & P2).
    rewrite Rmult_assoc, (Rmult_comm (nth j mu 0)). apply Rmult_le_compat_r; [apply Rmult_le_pos; lra|]. unfold surface_dist, nb. rewrite (sf_surface _ _ SF), (Rmult_comm D), <- rsum_const. apply rsum_le. intros m Hm.
    eapply Rle_trans; [apply (ns_rho _ _ _ _ _ _ _ _ _ _ NS m i j Hm Hi Hj)|exact HdD].
  Qed.
End Near.

(** Changes of the arguments that are small enough have small effects. *)
Lemma shift_small p (Vp : valid p) mu w (rho : nat -> R -> R -> R) M : 0 <= M -> double_gauss (half p) mu w -> not_all_forward p -> (forall i, (i < half p)%nat -> reflectance p mu w (rho 0%nat) i < 1) ->
  forall e, 0 < e -> exists d, 0 < d /\
  forall q vn vp vn' vp' rho', valid q -> same_frame p q -> near_sky d p q mu vn vp vn' vp' rho rho' ->
  shifts_by e M p q mu w vn vp vn' vp' rho rho' /\ (forall l, (l < nlayers q)%nat -> fwd q l < 1).
Proof.
  intros HM0 Hw Kp Hr e He. pose proof (v_I0 p Vp) as HI. pose proof PI_RGT_0 as HPI. assert (Hbot : 0 < bottom p). { rewrite (bottom_eq p). apply (v_tau p Vp). pose proof (v_ne p Vp). lia. }
  destruct (pos_lower (nlayers p) (fun l => 1 - albedo p l)) as (ka & Hka & Hal); [intros l Hl; pose proof (albedo_range p Vp l Hl); lra|].
  destruct (pos_lower (nlayers p) (thickness p)) as (kt & Hkt & Hktl); [intros l Hl; unfold thickness; pose proof (v_inc p Vp l Hl); lra|].
  destruct (pos_lower (half p) (fun i => 1 - reflectance p mu w (rho 0%nat) i)) as (kr & Hkr & Hrl); [intros i Hi; pose proof (Hr i Hi); lra|].
  destruct (pos_lower (nlayers p) (fun l => 1 - fwd p l)) as (kf & Hkf & Hfl); [intros l Hl; pose proof (Kp l Hl); lra|].
  destruct (fin_upper (half p) (fun i => surface_size p rho (nth i mu 0) (p_mu0 p))) as (Rm & HRm & HRl).
  destruct (fin_upper (half p) (fun i => turn_size p rho (nth i mu 0) (p_mu0 p))) as (Km & HKm & HKl). set (nb := INR (length (p_BDRF p))). assert (Hnb : 0 <= nb) by apply pos_INR.
  destruct (source_bounded p Vp) as (S0 & HS0 & HSl).
  set (n := n2 p). pose proof (n2_nonneg p) as Hn. fold n in Hn. set (T := bottom p + INR (nlayers p)). assert (HT : 0 < T) by (unfold T; pose proof (pos_INR (nlayers p)); lra).
  destruct (leg_lips (ncoeffs p)) as (L & HL & Hleg).
  set (Bm := q_beam p (3 * L)). assert (HBm : 0 <= Bm) by (apply (q_beam_pos p Vp); lra).
  set (Dq := q_dir p). assert (HDq : 1 <= Dq) by apply (q_dir_pos p Vp).
  set (Z := (1 + 2 * n) * M + p_I0 p / (4 * PI) * (2 * n) + S0). assert (HI4 : 0 <= p_I0 p / (4 * PI)) by (apply Rmult_le_pos; [lra|apply Rlt_le, Rinv_0_lt_compat; lra]). assert (HZ : 0 <= Z) by (unfold Z; nra).
  assert (Hk4 : 0 < 4 / kt) by (apply Rdiv_lt_0_compat; lra).
  set (C1 := (2 + 4 * n) * M + Bm + (1 + S0) + 4 / kt * Z). assert (HC1 : 0 < C1) by (unfold C1; nra).
  set (C2 := 1 + (Dq * Rm + (p_I0 p + 1) * (nb + Km)) + nb * M). assert (HC2 : 0 < C2) by (unfold C2; assert (0 <= Dq * Rm) by (apply Rmult_le_pos; lra); assert (0 <= nb * M) by (apply Rmult_le_pos; lra); assert (0 <= (p_I0 p + 1) * (nb + Km)) by (apply Rmult_le_pos; lra); lra).
  
  set (kb := if Rlt_dec 0 (p_I0 p) then Rmin (p_I0 p / 2) (p_mu0 p / 2) else 1).
  assert (Hkb : 0 < kb). { unfold kb. destruct (Rlt_dec 0 (p_I0 p)) as [H|H]; [|lra]. pose proof (v_mu0 p Vp H). apply Rmin_pos; lra. }
  set (D := Rmin (kt / 4) (Rmin (ka / 2) (Rmin (ka / 2 * e / C1) (Rmin (kr / 2 * e / C2) (Rmin (kf / 2) (Rmin (e) (Rmin (1) (Rmin (kb) (kr / 2))))))))).
  assert (DT : D <= kt / 4) by (unfold D; repeat first [apply Rle_refl | apply Rmin_l | eapply Rle_trans; [apply Rmin_r|]]).
  assert (D1 : D <= ka / 2) by (unfold D; repeat first [apply Rle_refl | apply Rmin_l | eapply Rle_trans; [apply Rmin_r|]]).
  assert (D2 : D <= ka / 2 * e / C1) by (unfold D; repeat first [apply Rle_refl | apply Rmin_l | eapply Rle_trans; [apply Rmin_r|]]).
  assert (D3 : D <= kr / 2 * e / C2) by (unfold D; repeat first [apply Rle_refl | apply Rmin_l | eapply Rle_trans; [apply Rmin_r|]]).
  assert (D4 : D <= kf / 2) by (unfold D; repeat first [apply Rle_refl | apply Rmin_l | eapply Rle_trans; [apply Rmin_r|]]).
  assert (D5 : D <= e) by (unfold D; repeat first [apply Rle_refl | apply Rmin_l | eapply Rle_trans; [apply Rmin_r|]]).
  assert (D6 : D <= 1) by (unfold D; repeat first [apply Rle_refl | apply Rmin_l | eapply Rle_trans; [apply Rmin_r|]]).
  assert (D7 : D <= kb) by (unfold D; repeat first [apply Rle_refl | apply Rmin_l | eapply Rle_trans; [apply Rmin_r|]]).
  assert (D8 : D <= kr / 2) by (unfold D; repeat first [apply Rle_refl | apply Rmin_l | eapply Rle_trans; [apply Rmin_r|]]).
  assert (D0 : 0 < D). { unfold D. repeat apply Rmin_pos; try lra; apply Rdiv_lt_0_compat; try lra; apply Rmult_lt_0_compat; lra. }
  clearbody D. exists (Rmin D (D * D / 2)). split; [apply Rmin_pos; [exact D0|nra]|].
  assert (D2' : D * C1 <= ka / 2 * e) by (apply (Rmult_le_reg_r (/ C1)); [apply Rinv_0_lt_compat; lra|]; replace (D * C1 * / C1) with D by (field; lra); exact D2).
  assert (D3' : D * C2 <= kr / 2 * e) by (apply (Rmult_le_reg_r (/ C2)); [apply Rinv_0_lt_compat; lra|]; replace (D * C2 * / C2) with D by (field; lra); exact D3).
  intros q vn vp vn' vp' rho' Vq SF NS. set (d := Rmin D (D * D / 2)) in *. assert (HdD : d <= D) by apply Rmin_l. assert (HDD : 2 * d <= D * D) by (pose proof (Rmin_r D (D * D / 2)) as Z0; fold d in Z0; lra). clearbody d.
  pose proof (near_mono d D _ _ _ _ _ _ _ _ _ HdD (ns_all _ _ _ _ _ _ _ _ _ _ NS)) as NB.
  assert (Enl : nlayers p = nlayers q) by apply (sf_layers _ _ SF). assert (Eh : half p = half q) by apply (sf_half p q SF).
  assert (En : n2 q = n) by (unfold n, n2; rewrite (sf_ncoeffs p q SF); reflexivity).
  assert (DI : 0 < p_I0 p -> D <= p_I0 p / 2). { intros H. unfold kb in D7. destruct (Rlt_dec 0 (p_I0 p)); [|contradiction]. eapply Rle_trans; [exact D7|apply Rmin_l]. }
  assert (Dm : 0 < p_I0 p -> D <= p_mu0 p / 2). { intros H. unfold kb in D7. destruct (Rlt_dec 0 (p_I0 p)); [|contradiction]. eapply Rle_trans; [exact D7|apply Rmin_r]. }
  assert (Hw' : double_gauss (half q) mu w) by (rewrite <- Eh; exact Hw).
  assert (CB : shifts_by e M p q mu w vn vp vn' vp' rho rho').
  { constructor.
    - intros l i t phi Hl Hi Htl. assert (Hxi : -1 <= nth i mu 0 <= 1) by (pose proof (node q Vq mu w Hw' i ltac:(rewrite <- (streams_eq q Vq); exact Hi)); lra). pose proof (Hal l ltac:(rewrite Enl; exact Hl)) as A1. pose proof (nd_albedo _ _ _ _ _ _ _ _ _ _ NB l Hl) as A2. apply Rabs_le_between in A2.
      apply Rle_trans with (ka / 2 * e); [|apply Rmult_le_compat_r; lra]. apply Rle_trans with (2 := D2'). unfold C1. replace (D * ((2 + 4 * n) * M + Bm + (1 + S0) + 4 / kt * Z)) with (D * ((2 + 4 * n) * M) + D * Bm + D * (1 + S0) + D * (4 / kt) * Z) by ring.
      pose proof (nd_peak p q mu vn vp vn' vp' (rho 0%nat) (rho' 0%nat) D Vp Vq NB l Hl) as P1. pose proof (nd_sdist p q mu vn vp vn' vp' (rho 0%nat) (rho' 0%nat) D Vp Vq SF NB l Hl) as P2. pose proof (nb_size q Vq l Hl) as P3. rewrite En in P2, P3.
      pose proof (sdist_nonneg p q l) as P4. pose proof (size_nonneg q l) as P5.
      pose proof (place_range p q SF Vp Vq l t Hl Htl) as HPl. assert (HSp : Rabs (source p l (same_place p q l t)) <= S0). { apply HSl; [rewrite Enl; exact Hl|]. pose proof (layer_in p Vp l ltac:(rewrite Enl; exact Hl)). lra. }
      apply Rplus_le_compat; [apply Rplus_le_compat; [apply Rplus_le_compat|]|].
      + replace (D * ((2 + 4 * n) * M)) with ((2 * D + 4 * D * n) * M) by ring. apply Rmult_le_compat_r; lra.
      + apply (scatter_near p q mu vn vp vn' vp' rho rho' d D Vp Vq SF NS HdD HDD DI Dm L l _ phi t HL Hleg Hl Hxi Htl).
      + apply (nd_emission p q mu vn vp vn' vp' (rho 0%nat) (rho' 0%nat) D Vq NB l t S0 Hl Htl HSp).
      + apply Rmult_le_compat; [apply Rabs_pos| | |].
        * pose proof (size_nonneg p l). pose proof (albedo_range p Vp l ltac:(rewrite Enl; exact Hl)). pose proof (Rabs_pos (source p l (same_place p q l t))). assert (0 <= p_I0 p / (4 * PI) * scattering_size p l) by (apply Rmult_le_pos; lra). nra.
        * apply (nd_thicker p q mu vn vp vn' vp' (rho 0%nat) (rho' 0%nat) D Vq NB l kt Hl); [split; [lra|apply Hktl; rewrite Enl; exact Hl]|lra].
        * pose proof (nb_size p Vp l ltac:(rewrite Enl; exact Hl)) as P6. fold n in P6. pose proof (size_nonneg p l) as P7. pose proof (albedo_range p Vp l ltac:(rewrite Enl; exact Hl)) as P8. unfold Z.
          apply Rplus_le_compat; [apply Rplus_le_compat; [apply Rmult_le_compat_r; lra|apply Rmult_le_compat_l; lra]|]. pose proof (Rabs_pos (source p l (same_place p q l t))). nra.
    - intros i Hi. eapply Rle_trans; [apply (nd_n _ _ _ _ _ _ _ _ _ _ NB i Hi)|]. exact D5.
    - intros i phi Hi. pose proof (Hrl i ltac:(rewrite Eh; exact Hi)) as R1. cbv beta in R1. pose proof (reflectance_near p q mu w vn vp vn' vp' (rho 0%nat) (rho' 0%nat) D Vq SF NB Hw' i Hi) as R2.
      apply Rle_trans with (kr / 2 * e); [|apply Rmult_le_compat_r; lra]. apply Rle_trans with (2 := D3'). unfold C2. replace (D * (1 + (Dq * Rm + (p_I0 p + 1) * (nb + Km)) + nb * M)) with (D + D * (Dq * Rm + (p_I0 p + 1) * (nb + Km)) + D * (nb * M)) by ring.
      apply Rplus_le_compat; [apply Rplus_le_compat|].
      + apply (nd_p _ _ _ _ _ _ _ _ _ _ NB i Hi).
      + apply (bounce_near p q mu vn vp vn' vp' rho rho' d D Vp Vq SF NS HdD HDD D6 DI Dm i phi Rm Km Hi); [eapply Rle_trans; [apply Rle_abs|apply HRl]|eapply Rle_trans; [apply Rle_abs|apply HKl]]; rewrite Eh; exact Hi.
      + apply (surfaces_near p q mu w vn vp vn' vp' rho rho' d D Vq SF NS HdD Hw' i M HM0 Hi). }
  split; [exact CB|]. intros l Hl. pose proof (nd_fwd _ _ _ _ _ _ _ _ _ _ NB l Hl) as A2. apply Rabs_le_between in A2. pose proof (Hfl l ltac:(rewrite Enl; exact Hl)) as A3. cbv beta in A3. lra.
Qed.

(** For every wanted accuracy there is a distance of the numerical arguments which guarantees it. *)
Theorem call_shift_continuous p lg la jk out u : linalg_ok la -> leggauss_ok (half p) (lg (half p)) -> pydisort p lg la jk = Ok out -> po_u out = Some u -> all_modes p -> not_all_forward p ->
  forall w vn vp rho, double_gauss (half p) (po_mu out) w -> boundary_data p vn vp rho -> (forall i, (i < half p)%nat -> reflectance p (po_mu out) w (rho 0%nat) i < 1) ->
  forall eps, 0 < eps -> exists d, 0 < d /\
  forall q la' jk' out' u' vn' vp' rho', linalg_ok la' -> pydisort q lg la' jk' = Ok out' -> po_u out' = Some u' -> all_modes q -> boundary_data q vn' vp' rho' -> same_frame p q ->
  near_sky d p q (po_mu out) vn vp vn' vp' rho rho' -> phase_positive q -> surface_positive q (po_mu out) w rho' -> forall tau tau' phi, Forall2 (corresponds p q) tau tau' ->
  exists A B, u tau phi false false false = Ok (PVal (PT A)) /\ u' tau' phi false false false = Ok (PVal (PT B)) /\ twithin eps A B.
Proof.
  intros Hla Hlg Hp Hu AM Kp w vn vp rho Hw BD Hr e He. pose proof (call_valid p lg la jk out Hp) as Vp.
  destruct (rep_solves p lg la jk out u Hla Hlg Hp Hu AM w vn vp rho Hw BD) as ((f & Hf) & HS). specialize (HS f Hf).
  destruct (full_bounded p Vp _ _ _ _ _ f HS) as (M & HM0 & HM).
  destruct (shift_small p Vp (po_mu out) w rho M HM0 Hw Kp Hr e He) as (d & D0 & HD). exists d. split; [exact D0|].
  intros q la' jk' out' u' vn' vp' rho' Hla' Hq Hu' AM' BD' SF NS Hph Hsurf tau tau' phi HC. pose proof (call_valid q lg la' jk' out' Hq) as Vq.
  destruct (HD q vn vp vn' vp' rho' Vq SF NS) as (CB & Kq).
  exact (call_shifts p q lg la la' jk jk' out out' u u' Hla Hla' Hlg Hp Hq Hu Hu' AM AM' w vn vp vn' vp' rho rho' Hw BD BD' SF Kp Kq Hph Hsurf e M CB f Hf HM tau tau' phi HC).
Qed.
