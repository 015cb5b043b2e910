(** The intensity at every azimuth converges to the exact radiation. *)
From Coq Require Import String Reals Lra Lia List Bool Arith ZArith.
From Coquelicot Require Import Coquelicot.
From Verif Require Import Base Tensor Spec M_LinAlg Spec_RTE Calc M_Subroutines M_GenPart M_MathscrV M_Coeffs M_Assemble M_Pydisort
  Spec_Sol Spec_Valid Spec_Calls Spec_Unique Spec_Phys Spec_Mono Spec_Depend Spec_Exact P_Special P_Addition P_Quad P_Fourier P_Sub P_Solve P_Energy P_Pydisort P_Pydisort2 P_Pydisort3 P_Pydisort4 P_Pydisort5 P_Pydisort6 P_Pydisort8 P_Teq P_NT P_NT3 P_Unique2 P_Refine P_Max P_Max2 P_Max3 P_Max4 P_Mono P_Sym P_Depend P_Depend2 Spec_Full Spec_Azimuth P_Full P_Full2 P_Full3 P_Gauss P_Conv P_Conv2 P_Conv3 P_Exist P_Exist2 P_Exist3 P_Full2 P_Exist4 P_Exist5 P_Exist6 P_Exist7 P_Az1 P_Az2 P_Az3 P_Az4 P_Conv4.
Import ListNotations.
Local Open Scope R_scope.


Lemma rsum_abs_le n f c : (forall m, (m < n)%nat -> Rabs (f m) <= c) -> Rabs (rsum n f) <= INR n * c.
Proof.
  induction n as [|n IH]; intros H; [cbn; rewrite Rabs_R0; lra|]. cbn [rsum]. rewrite S_INR. eapply Rle_trans; [apply Rabs_triang|]. pose proof (IH (fun m Hm => H m (Nat.lt_lt_succ_r _ _ Hm))). pose proof (H n (Nat.lt_succ_diag_r n)). lra.
Qed.
Section Same.
  Variables (p q : py_in).
  Hypothesis SP : same_problem p q.
  Lemma sp_phase_s l k : phase_s p l k = phase_s q l k. Proof. unfold phase_s. rewrite (sp_phase p q SP), (sp_fwd p q SP). reflexivity. Qed.
  Lemma sp_phase_at l c : phase_at p l c = phase_at q l c. Proof. unfold phase_at. rewrite (pr_ncoeffs _ _ SP). apply rsum_ext. intros. rewrite sp_phase_s. reflexivity. Qed.
  Lemma sp_pm m l x y : phase_mode p m l x y = phase_mode q m l x y. Proof. unfold phase_mode. rewrite (pr_ncoeffs _ _ SP). apply rsum_ext. intros. unfold wphase_s. rewrite sp_phase_s. reflexivity. Qed.
  Lemma sp_surface rho x a y b : surface_at p rho x a y b = surface_at q rho x a y b. Proof. unfold surface_at. rewrite (pr_BDRF _ _ SP). reflexivity. Qed.
End Same.

Section Converge.
  Variables (p : py_in) (V : valid p) (bn bp : R -> R) (rho : nat -> R -> R -> R) (r : R).
  Notation NL := (nlayers p).
  Notation T := (bottom p).
  Notation nB := (length (p_BDRF p)).
  Hypothesis Hf : forall l, (l < NL)%nat -> fwd p l < 1.
  Hypothesis Hph : phase_positive p.
  Hypothesis AS : absorbing_surface p rho r.

  Section Near.
    Variables (N : nat) (J : nat -> R -> R -> R).
    Hypothesis HN : (ncoeffs p <= N)%nat.
    Hypothesis HB : (nB <= N)%nat.
    Hypothesis HJ : forall m, (m < N)%nat -> gfield p (Km p m) (Gm p m) (bnm bn m) (bpm p bp rho m) (Rm p rho m) (J m).
    Notation F := (Fsum p N J).
    Variables (q : py_in) (Vq : valid q) (mu : list R) (w : nat -> R) (G : nat -> R -> R -> R) (e ep : R).
    Hypothesis SP : same_problem p q.
    Hypothesis Hphi : p_phi0 p = p_phi0 q.
    Hypothesis Hw : double_gauss (half q) mu w.
    Hypothesis FG : full_solution q mu w (fun i => bn (nth i mu 0)) (fun i => bp (nth i mu 0)) rho G.
    Hypothesis He : 0 < e.
    Hypothesis Hep : 0 < ep.
    Hypothesis Ha : forall l, (l < NL)%nat -> INR N * (2 * ep) <= (1 - albedo p l) * e.
    Hypothesis Hb : INR N * ep <= (1 - r - ep) * e.
    Hypothesis Hb' : ep <= 1 - r.
    Hypothesis QJ : forall m, (m < N)%nat -> forall g, gfam p (Km p m) (Rm p rho m) (J m) g -> Rabs (rsum (half q) (fun i => w i * g (nth i mu 0)) - RInt g 0 1) <= ep.
    Hypothesis QW : forall g, gwt p (Km p 0) (Rm p rho 0) g -> Rabs (rsum (half q) (fun i => w i * g (nth i mu 0)) - RInt g 0 1) <= ep.
    Notation c m x := (cos (INR m * (p_phi0 p - x))).

    Lemma Hmu k : (k < half q)%nat -> 0 < nth k mu 0 < 1 /\ nth (half q + k) mu 0 = - nth k mu 0 /\ 0 < w k. Proof. destruct Hw as (_ & H2 & _). apply H2. Qed.
    Lemma Hdir k : (k < 2 * half q)%nat -> direction (nth k mu 0).
    Proof. intros Hk. destruct (Nat.lt_ge_cases k (half q)) as [H|H]; [destruct (Hmu k H); split; lra|]. destruct (Hmu (k - half q)%nat ltac:(lia)) as (P1 & P2 & _). replace (half q + (k - half q))%nat with k in P2 by lia. split; lra. Qed.
    Lemma cabs m x : Rabs (c m x) <= 1. Proof. apply Rabs_le, COS_bound. Qed.
    (** The quadrature of what is scattered. *)
    Lemma scat_quad m l k t : (m < N)%nat -> (l < NL)%nat -> (k < 2 * half q)%nat -> 0 <= t <= T ->
      Rabs (rsum (2 * half q) (fun j => wnode (half q) w j * (Km p m l (nth k mu 0) (nth j mu 0) * J m (nth j mu 0) t)) - gin (Km p m) (J m) l (nth k mu 0) t) <= 2 * ep.
    Proof.
      intros Hm Hl Hk Ht. pose proof (Hdir k Hk) as Dk. unfold gin. replace (2 * half q)%nat with (half q + half q)%nat by lia. rewrite rsum_split. set (x := nth k mu 0) in *.
      assert (Q1 : Rabs (rsum (half q) (fun j => wnode (half q) w j * (Km p m l x (nth j mu 0) * J m (nth j mu 0) t)) - RInt (fun y => Km p m l x y * J m y t) 0 1) <= ep).
      { rewrite (rsum_ext _ _ (fun j => w j * (fun y => Km p m l x y * J m y t) (nth j mu 0))) by (intros j Hj; unfold wnode; destruct (Nat.ltb_spec j (half q)); [reflexivity|lia]).
        refine (QJ m Hm (fun y => Km p m l x y * J m y t) _). exists (fun y => Km p m l x (1 * y)), 1, t. split; [left; exists l, x, 1; split; [exact Hl|split; [apply Dk|split; [left; reflexivity|reflexivity]]]|]. split; [left; reflexivity|]. split; [exact Ht|]. intros y. rewrite Rmult_1_l. reflexivity. }
      assert (Q2 : Rabs (rsum (half q) (fun j => wnode (half q) w (half q + j)%nat * (Km p m l x (nth (half q + j) mu 0) * J m (nth (half q + j) mu 0) t)) - RInt (fun y => Km p m l x (- y) * J m (- y) t) 0 1) <= ep).
      { rewrite (rsum_ext _ _ (fun j => w j * (fun y => Km p m l x (- y) * J m (- y) t) (nth j mu 0))).
        2: { intros j Hj. unfold wnode. destruct (Nat.ltb_spec (half q + j)%nat (half q)); [lia|]. replace (half q + j - half q)%nat with j by lia. destruct (Hmu j Hj) as (_ & -> & _). reflexivity. }
        refine (QJ m Hm (fun y => Km p m l x (- y) * J m (- y) t) _). exists (fun y => Km p m l x (-1 * y)), (-1), t. split; [left; exists l, x, (-1); split; [exact Hl|split; [apply Dk|split; [right; reflexivity|reflexivity]]]|]. split; [right; reflexivity|]. split; [exact Ht|]. intros y. replace (-1 * y) with (- y) by ring. reflexivity. }
      apply Rabs_le_between in Q1. apply Rabs_le_between in Q2. apply Rabs_le. lra.
    Qed.
    Lemma refl_quad m k : (m < N)%nat -> (k < half q)%nat ->
      Rabs (rsum (half q) (fun j => w j * (Rm p rho m (nth k mu 0) (nth j mu 0) * J m (nth (half q + j) mu 0) T)) - RInt (fun y => Rm p rho m (nth k mu 0) y * J m (- y) T) 0 1) <= ep.
    Proof.
      intros Hm Hk. destruct (Hmu k Hk) as (P1 & _). pose proof (bottom_pos p V). rewrite (rsum_ext _ _ (fun j => w j * (fun y => Rm p rho m (nth k mu 0) y * J m (- y) T) (nth j mu 0))) by (intros j Hj; destruct (Hmu j Hj) as (_ & -> & _); reflexivity).
      refine (QJ m Hm (fun y => Rm p rho m (nth k mu 0) y * J m (- y) T) _). exists (fun y => Rm p rho m (nth k mu 0) y), (-1), T. split; [right; exists (nth k mu 0); split; [lra|reflexivity]|]. split; [right; reflexivity|]. split; [lra|]. intros y. replace (-1 * y) with (- y) by ring. reflexivity.
    Qed.
    Lemma refl_eq k : reflectance q mu w (rho 0%nat) k = rsum (half q) (fun j => w j * Rm p rho 0 (nth k mu 0) (nth j mu 0)).
    Proof. unfold reflectance, Rm. rewrite (pr_BDRF _ _ SP). cbn [Nat.eqb]. destruct (Nat.ltb 0 (length (p_BDRF q))); [rewrite <- rsum_scal; apply rsum_ext; intros; ring|rewrite rsum_0; [reflexivity|intros; ring]]. Qed.
    Lemma refl_small k : (k < half q)%nat -> reflectance q mu w (rho 0%nat) k <= r + ep.
    Proof.
      intros Hk. rewrite refl_eq. destruct (Hmu k Hk) as (P1 & _). pose proof (as_share _ _ _ AS) as Hr. destruct (Rm_int p rho (as_continuous _ _ _ AS) r (fun x Hx H => as_albedo _ _ _ AS x Hx H) (proj1 Hr) (nth k mu 0) ltac:(lra)) as [_ H1].
      assert (H : gwt p (Km p 0) (Rm p rho 0) (Rm p rho 0 (nth k mu 0))) by (right; exists (nth k mu 0); split; [lra|reflexivity]). apply QW in H. apply Rabs_le_between in H. lra.
    Qed.
    (** The scattered light of the sum of the modes, by quadrature. *)
    Definition SF (l i : nat) (t x : R) (j : nat) : R := rsum N (fun m => 2 * PI * c m x * (phase_mode p m l (nth i mu 0) (nth j mu 0) * J m (nth j mu 0) t)).
    Definition BF (i : nat) (x : R) (j : nat) : R := rsum N (fun m => PI * c m x * ((if Nat.eqb m 0 then 2 else 1) * rhoN p rho m (nth i mu 0) (nth j mu 0) * J m (- nth j mu 0) T)).
    Lemma SF_quad l i t x : (l < NL)%nat -> (i < 2 * half q)%nat -> 0 <= t <= T ->
      Rabs (scl p l * (albedo_s p l / (4 * PI)) * rsum (2 * half q) (fun j => wnode (half q) w j * SF l i t x j) - rsum N (fun m => c m x * gin (Km p m) (J m) l (nth i mu 0) t)) <= INR N * (2 * ep).
    Proof.
      intros Hl Hi Ht. pose proof PI_RGT_0 as HPI.
      replace (scl p l * (albedo_s p l / (4 * PI)) * rsum (2 * half q) (fun j => wnode (half q) w j * SF l i t x j))
        with (rsum N (fun m => c m x * rsum (2 * half q) (fun j => wnode (half q) w j * (Km p m l (nth i mu 0) (nth j mu 0) * J m (nth j mu 0) t)))).
      - rewrite <- rsum_minus. apply rsum_abs_le. intros m Hm. rewrite <- Rmult_minus_distr_l, Rabs_mult. pose proof (scat_quad m l i t Hm Hl Hi Ht) as A. pose proof (cabs m x). pose proof (Rabs_pos (c m x)). match goal with |- _ * ?b <= _ => pose proof (Rabs_pos b); apply Rle_trans with (1 * b) end; [|lra]. apply Rmult_le_compat_r; [apply Rabs_pos|lra].
      - unfold SF. rewrite <- rsum_scal. rewrite (rsum_ext N _ (fun m => rsum (2 * half q) (fun j => c m x * (wnode (half q) w j * (Km p m l (nth i mu 0) (nth j mu 0) * J m (nth j mu 0) t))))) by (intros; symmetry; apply rsum_scal).
        rewrite rsum_swap. apply rsum_ext. intros j Hj. rewrite <- rsum_scal, <- rsum_scal. apply rsum_ext. intros m Hm. unfold Km. field. lra.
    Qed.
    Lemma BF_quad i x : (i < half q)%nat ->
      Rabs (/ PI * rsum (half q) (fun j => w j * nth j mu 0 * BF i x j) - rsum N (fun m => c m x * RInt (fun y => Rm p rho m (nth i mu 0) y * J m (- y) T) 0 1)) <= INR N * ep.
    Proof.
      intros Hi. pose proof PI_RGT_0 as HPI.
      replace (/ PI * rsum (half q) (fun j => w j * nth j mu 0 * BF i x j))
        with (rsum N (fun m => c m x * rsum (half q) (fun j => w j * (Rm p rho m (nth i mu 0) (nth j mu 0) * J m (nth (half q + j) mu 0) T)))).
      - rewrite <- rsum_minus. apply rsum_abs_le. intros m Hm. rewrite <- Rmult_minus_distr_l, Rabs_mult. pose proof (refl_quad m i Hm Hi) as A. pose proof (cabs m x). match goal with |- _ * ?b <= _ => apply Rle_trans with (1 * b) end; [|lra]. apply Rmult_le_compat_r; [apply Rabs_pos|lra].
      - unfold BF. rewrite <- rsum_scal. rewrite (rsum_ext N _ (fun m => rsum (half q) (fun j => c m x * (w j * (Rm p rho m (nth i mu 0) (nth j mu 0) * J m (nth (half q + j) mu 0) T))))) by (intros; symmetry; apply rsum_scal).
        rewrite rsum_swap. apply rsum_ext. intros j Hj. rewrite <- rsum_scal, <- rsum_scal. apply rsum_ext. intros m Hm. destruct (Hmu j Hj) as (_ & -> & _). unfold Rm, rhoN. destruct (Nat.ltb m nB); [destruct (Nat.eqb m 0); field; lra|ring].
    Qed.

    Lemma int_lin (h f g : R -> R) s A B C a b : is_RInt h a b A -> is_RInt (fun y => h y * f y) a b B -> is_RInt (fun y => h y * g y) a b C ->
      is_RInt (fun y => h y * (e - s * (f y - g y))) a b (e * A - s * (B - C)).
    Proof.
      intros H1 H2 H3. pose proof (is_RInt_minus (V:=R_NormedModule) _ _ _ _ _ _ (is_RInt_scal (V:=R_NormedModule) _ _ _ e _ H1) (is_RInt_scal (V:=R_NormedModule) _ _ _ s _ (is_RInt_minus (V:=R_NormedModule) _ _ _ _ _ _ H2 H3))) as X.
      eapply (is_RInt_ext (V:=R_NormedModule)); [|eapply (eq_ind _ (fun z : R => is_RInt _ _ _ z) X); unfold minus, plus, opp, scal; cbn; unfold mult; cbn; ring]. intros y _. unfold minus, plus, opp, scal; cbn; unfold mult; cbn. ring.
    Qed.
    Lemma F_der l i t x : (l < NL)%nat -> (i < 2 * half q)%nat -> top_of p l < t < bot_of p l -> is_derive (fun s => F (nth i mu 0) s x) t
      ((scl p l * (F (nth i mu 0) t x - albedo_s p l / (4 * PI) * phase_at p l (cos_between (nth i mu 0) x (- p_mu0 p) (p_phi0 p)) * p_I0 p * exp (- depth_s p l t / p_mu0 p))
        - rsum N (fun m => c m x * gin (Km p m) (J m) l (nth i mu 0) t) - (1 - albedo p l) * source p l t) / nth i mu 0).
    Proof.
      intros Hl Hi Ht. pose proof (Hdir i Hi) as Hx. set (y := nth i mu 0) in *. pose proof PI_RGT_0 as HPI.
      pose proof (der_sum N (fun m s => c m x * J m y s) t (fun m => c m x * ((scl p l * J m y t - gsrc (Km p m) (Gm p m) (J m) l y t) / y))) as D.
      refine (der_eq _ _ _ _ _ (D _)); [|intros m Hm; apply der_scal; exact (gf_transfer _ _ _ _ _ _ _ (HJ m Hm) l y t Hl Hx Ht)].
      unfold gsrc. rewrite (rsum_ext _ _ (fun m => / y * ((scl p l * (c m x * J m y t) - c m x * gin (Km p m) (J m) l y t) - c m x * Gm p m l y t))) by (intros; unfold Rdiv; ring).
      rewrite rsum_scal, !rsum_minus, rsum_scal, (beam_modes p V N HN HB l y x t Hl (proj1 Hx)). fold (Fsum p N J y t x). field. split; [lra|apply Hx].
    Qed.
    Lemma F_top i x : (i < half q)%nat -> F (nth (half q + i) mu 0) 0 x = bn (nth i mu 0).
    Proof. intros Hi. destruct (Hmu i Hi) as (P1 & -> & _). apply (ei_top _ _ _ _ _ (Fsum_exact p V bn bp rho r AS N J HN HB HJ)). lra. Qed.
    Lemma F_bot i x : (i < half q)%nat -> F (nth i mu 0) T x = bp (nth i mu 0) + rsum N (fun m => c m x * RInt (fun y => Rm p rho m (nth i mu 0) y * J m (- y) T) 0 1)
      + p_mu0 p * p_I0 p / PI * surface_at p rho (nth i mu 0) x (p_mu0 p) (p_phi0 p) * exp (- depth_s p (NL - 1) T / p_mu0 p).
    Proof.
      intros Hi. destruct (Hmu i Hi) as (P1 & _). set (y := nth i mu 0) in *. pose proof PI_RGT_0 as HPI. unfold Fsum.
      rewrite (rsum_ext _ _ (fun m => (c m x * (if Nat.eqb m 0 then bp y else 0) - (-1) * (c m x * RInt (fun z => Rm p rho m y z * J m (- z) T) 0 1))
        - (-1) * ((p_mu0 p * p_I0 p / PI * exp (- depth_s p (NL - 1) T / p_mu0 p)) * (rhoN p rho m y (p_mu0 p) * cos (INR m * (x - p_phi0 p)))))).
      - rewrite !rsum_minus, !rsum_scal, <- (surface_pad p rho N HN HB). rewrite (rsum_single N 0 (fun m => c m x * (if Nat.eqb m 0 then bp y else 0))); [|pose proof (nc0 p V); lia|intros k Hk Hne; rewrite (proj2 (Nat.eqb_neq k 0)) by auto; ring].
        cbn [Nat.eqb INR]. rewrite Rmult_0_l, cos_0. ring.
      - intros m Hm. rewrite (gf_bottom _ _ _ _ _ _ _ (HJ m Hm) y ltac:(lra)). unfold bpm, rhoN. replace (INR m * (p_phi0 p - x)) with (- (INR m * (x - p_phi0 p))) by ring. rewrite cos_neg. destruct (Nat.ltb m nB); field; lra.
    Qed.
    Lemma F_cont i : (i < 2 * half q)%nat -> cont2_on 0 T (F (nth i mu 0)).
    Proof.
      intros Hi. apply (cont2_ext 0 T (fun t x => rsum N (fun m => J m (nth i mu 0) t * c m x))); [intros; unfold Fsum; apply rsum_ext; intros; ring|].
      apply (cont2_sum 0 T N (fun m t x => J m (nth i mu 0) t * c m x)). intros m Hm. apply cont2_term. apply (gf_continuous _ _ _ _ _ _ _ (HJ m Hm)), Hdir, Hi.
    Qed.
    Lemma F_turn y t x : F y t (x + 2 * PI) = F y t x.
    Proof. unfold Fsum. apply rsum_ext. intros m Hm. f_equal. replace (INR m * (p_phi0 p - x)) with (INR m * (p_phi0 p - (x + 2 * PI) + 2 * IZR 1 * PI)) by ring. symmetry. apply cos_shift_Z. Qed.

    Lemma near1 s : s = 1 \/ s = -1 -> forall i t x, (i < 2 * half q)%nat -> 0 <= t <= T -> 0 <= e - s * (F (nth i mu 0) t x - G i t x).
    Proof.
      intros Hs i t x Hi Ht. pose proof PI_RGT_0 as HPI. destruct FG as [G1 G2 G3 G4 G5]. pose proof (sp_bottom p q SP) as Eb. pose proof (sp_nlayers p q SP) as En. rewrite (streams_eq q Vq) in G1, G2, G3.
      assert (SA : forall a b, Rabs a <= b -> - b <= s * a). { intros a b H. apply Rabs_le_between in H. destruct Hs as [-> | ->]; lra. }
      rewrite Eb in Ht. refine (full_nonneg q Vq mu w rho Hw _ _ _ (fun i t x => e - s * (F (nth i mu 0) t x - G i t x)) _ _ _ _ _ i t x Hi Ht).
      - intros l z Hl Ha' Hz. rewrite <- (sp_phase_at p q SP). rewrite <- (sp_albedo_s p q SP) in Ha'. apply Hph; auto. rewrite En. exact Hl.
      - intros a b y z Ha' Hb''. rewrite <- (sp_surface p q SP). destruct (Hmu a Ha'). destruct (Hmu b Hb''). apply (as_nonneg _ _ _ AS); lra.
      - intros a Ha'. pose proof (refl_small a Ha'). lra.
      - intros k Hk. rewrite <- Eb in G2 |- *. pose proof (F_cont k Hk) as FC. pose proof (G2 k Hk) as GC.
        assert (Cs : forall f, cont2_on 0 T f -> cont2_on 0 T (fun t x => s * f t x)) by (intros f Cf; destruct Hs as [-> | ->]; [apply (cont2_ext 0 T f); [intros; ring|exact Cf]|apply (cont2_ext 0 T (fun t x => - f t x)); [intros; ring|apply cont2_opp; exact Cf]]).
        apply (cont2_ext 0 T (fun t x => (e + - (s * F (nth k mu 0) t x)) + s * G k t x)); [intros; ring|]. apply cont2_plus; [apply cont2_plus; [apply cont2_const|apply cont2_opp, Cs, FC]|apply Cs, GC].
      - intros k u y Hk Hu. cbv beta. rewrite F_turn, G3 by auto. reflexivity.
      - intros l k u y Hl Hk Hu. destruct (G1 l k u y Hl Hk Hu) as (JG & IG & DG). assert (Hlp : (l < NL)%nat) by (rewrite En; exact Hl). rewrite <- (sp_top p q SP), <- (sp_bot p q SP) in Hu. pose proof (in_bottom p V l u Hlp ltac:(lra)) as Hub. pose proof (Hdir k Hk) as Dk.
        pose proof (F_der l k u y Hlp Hk Hu) as DF. pose proof (SF_quad l k u y Hlp Hk Hub) as SQ. set (SFs := rsum (2 * half q) (fun j => wnode (half q) w j * SF l k u y j)) in *. set (gs := rsum N (fun m => c m y * gin (Km p m) (J m) l (nth k mu 0) u)) in *.
        exists (fun j => e * (2 * PI * phase_mode p 0 l (nth k mu 0) (nth j mu 0)) - s * (SF l k u y j - JG j)), ((1 - albedo p l) * e + s * (scl p l * (albedo_s p l / (4 * PI)) * SFs - gs)). split; [|split].
        + pose proof (SA _ _ SQ). pose proof (Ha l Hlp). lra.
        + intros j Hj. pose proof (Hdir j Hj) as Dj. eapply (is_RInt_ext (V:=R_NormedModule)); [|apply (int_lin (fun b => phase_at p l (cos_between (nth k mu 0) y (nth j mu 0) b)) (F (nth j mu 0) u) (G j u) s _ _ _ _ _ (int_mean p l (nth k mu 0) y (nth j mu 0) (nc0 p V) (proj1 Dk) (proj1 Dj)) (inner p V N J HN HB l (nth k mu 0) y (nth j mu 0) u (proj1 Dk) (proj1 Dj)))].
          * intros b _. cbv beta. rewrite (sp_phase_at p q SP). reflexivity.
          * eapply (is_RInt_ext (V:=R_NormedModule)); [|exact (IG j Hj)]. intros b _. cbv beta. rewrite (sp_phase_at p q SP). reflexivity.
        + rewrite <- (sp_scl p q SP), <- (sp_albedo_s p q SP), <- (sp_albedo p q SP), <- (sp_source p q SP), <- (sp_depth p q SP), <- (pr_I0 _ _ SP), <- (pr_mu0 _ _ SP), <- Hphi, <- (sp_phase_at p q SP) in DG. rewrite <- (sp_scl p q SP), <- (sp_albedo_s p q SP).
          refine (der_eq _ _ _ _ _ (der_minus _ _ _ _ _ (is_derive_const e u) (der_scal _ s _ _ (der_minus _ _ _ _ _ DF DG)))). change zero with 0.
          rewrite (rsum_ext _ (fun j => wnode (half q) w j * (e * (2 * PI * phase_mode p 0 l (nth k mu 0) (nth j mu 0)) - s * (SF l k u y j - JG j)))
            (fun j => (2 * PI * e * (wnode (half q) w j * phase_mode q 0 l (nth k mu 0) (nth j mu 0)) - s * (wnode (half q) w j * SF l k u y j)) - (- s) * (wnode (half q) w j * JG j))) by (intros; rewrite (sp_pm p q SP); ring).
          rewrite !rsum_minus, !rsum_scal. fold SFs. set (JGs := rsum (2 * half q) (fun j => wnode (half q) w j * JG j)). pose proof (row_sum q Vq mu w Hw l k Hl) as RS. rewrite <- (sp_albedo_s p q SP) in RS. set (P0 := rsum (2 * half q) (fun i0 => wnode (half q) w i0 * phase_mode q 0 l (nth k mu 0) (nth i0 mu 0))) in *.
          assert (Ea : scl p l * (1 - albedo_s p l) = 1 - albedo p l) by (pose proof (scl_pos p V l Hlp); unfold albedo_s, scl in *; field; lra).
          assert (Ep : albedo_s p l / (4 * PI) * (2 * PI * e * P0) = albedo_s p l * e). { replace (albedo_s p l / (4 * PI) * (2 * PI * e * P0)) with (e / 2 * (P0 * albedo_s p l)) by (field; lra). rewrite RS. field. }
          rewrite <- Ea. match goal with |- ?a = (?b) / ?z => apply (Rmult_eq_reg_r z); [|apply Dk] end.
          replace ((scl p l * (e - s * (F (nth k mu 0) u y - G k u y) - albedo_s p l / (4 * PI) * (2 * PI * e * P0 - s * SFs - - s * JGs)) - (scl p l * (1 - albedo_s p l) * e + s * (scl p l * (albedo_s p l / (4 * PI)) * SFs - gs))))
            with (scl p l * (e - s * (F (nth k mu 0) u y - G k u y)) - scl p l * (albedo_s p l / (4 * PI) * (2 * PI * e * P0)) + scl p l * (albedo_s p l / (4 * PI)) * s * (SFs - JGs) - (scl p l * (1 - albedo_s p l) * e + s * (scl p l * (albedo_s p l / (4 * PI)) * SFs - gs))) by ring.
          rewrite Ep. field. split; [lra|apply Dk].
      - intros k y Hk. cbv beta. rewrite (F_top k y Hk), (G4 k y Hk). rewrite Rminus_eq_0. lra.
      - intros k y Hk. destruct (G5 k y Hk) as (JG & IG & EG). pose proof (BF_quad k y Hk) as BQ. set (BFs := rsum (half q) (fun j => w j * nth j mu 0 * BF k y j)) in *. set (gs := rsum N (fun m => c m y * RInt (fun z => Rm p rho m (nth k mu 0) z * J m (- z) T) 0 1)) in *.
        exists (fun j => e * (if Nat.ltb 0 nB then 2 * PI * rho 0%nat (nth k mu 0) (nth j mu 0) else 0) - s * (BF k y j - JG j)), ((1 - reflectance q mu w (rho 0%nat) k) * e + s * (/ PI * BFs - gs)). split; [|split].
        + pose proof (SA _ _ BQ). pose proof (refl_small k Hk) as Hk'. assert ((1 - r - ep) * e <= (1 - reflectance q mu w (rho 0%nat) k) * e) by (apply Rmult_le_compat_r; lra). lra.
        + intros j Hj. destruct (Hmu j Hj) as (_ & E2 & _). cbv beta. rewrite E2, <- Eb. eapply (is_RInt_ext (V:=R_NormedModule)); [|apply (int_lin (fun b => surface_at p rho (nth k mu 0) y (nth j mu 0) b) (F (- nth j mu 0) T) (G (half q + j)%nat T) s _ _ _ _ _ (int_smean p rho (nth k mu 0) y (nth j mu 0)) (sinner p rho N J HN HB (nth k mu 0) y (nth j mu 0) T))].
          * intros b _. cbv beta. rewrite (sp_surface p q SP). reflexivity.
          * eapply (is_RInt_ext (V:=R_NormedModule)); [|exact (IG j Hj)]. intros b _. cbv beta. rewrite (sp_surface p q SP), Eb. reflexivity.
        + cbv beta. rewrite <- Eb in EG |- *. rewrite EG, (F_bot k y Hk). rewrite <- (pr_I0 _ _ SP), <- (pr_mu0 _ _ SP), <- Hphi, <- (sp_surface p q SP), <- En, <- (sp_depth p q SP). fold gs.
          rewrite (rsum_ext _ (fun j => w j * nth j mu 0 * (e * (if Nat.ltb 0 nB then 2 * PI * rho 0%nat (nth k mu 0) (nth j mu 0) else 0) - s * (BF k y j - JG j)))
            (fun j => (PI * e * (w j * Rm p rho 0 (nth k mu 0) (nth j mu 0)) - s * (w j * nth j mu 0 * BF k y j)) - (- s) * (w j * nth j mu 0 * JG j))) by (intros; unfold Rm; cbn [Nat.eqb]; destruct (Nat.ltb 0 nB); ring).
          rewrite !rsum_minus, !rsum_scal, <- refl_eq. fold BFs. field. lra.
    Qed.
    Lemma near i t x : (i < 2 * half q)%nat -> 0 <= t <= T -> Rabs (F (nth i mu 0) t x - G i t x) <= e.
    Proof. intros Hi Ht. pose proof (near1 1 (or_introl eq_refl) i t x Hi Ht). pose proof (near1 (-1) (or_intror eq_refl) i t x Hi Ht). apply Rabs_le. lra. Qed.
  End Near.

  Hypothesis Cn : ucont1 bn.
  Hypothesis Cp : ucont1 bp.
  Lemma mode_quad J ep N : 0 < ep -> (forall m, (m < N)%nat -> gfield p (Km p m) (Gm p m) (bnm bn m) (bpm p bp rho m) (Rm p rho m) (J m)) ->
    exists N0, forall m n mu w, (m < N)%nat -> (N0 <= n)%nat -> double_gauss n mu w ->
     (forall g, gfam p (Km p m) (Rm p rho m) (J m) g -> Rabs (rsum n (fun i => w i * g (nth i mu 0)) - RInt g 0 1) <= ep) /\
     (forall g, gwt p (Km p m) (Rm p rho m) g -> Rabs (rsum n (fun i => w i * g (nth i mu 0)) - RInt g 0 1) <= ep).
  Proof.
    intros Hep. induction N as [|N IH]; intros HJ; [exists 0%nat; intros; lia|]. destruct IH as (N1 & H1); [intros; apply HJ; lia|].
    destruct (Gm_bounded p V Hf Hph N) as (Q & HQ).
    destruct (gquad p V (Km p N) (Gm p N) Q (bnm bn N) (bpm p bp rho N) (Rm p rho N) (J N) (Km_uc p N) (Km_le p V Hf Hph N) HQ (Gm_ucont p V N) (bnm_uc bn Cn N) (bpm_uc p V bp rho Cp (as_continuous _ _ _ AS) N) (Rm_uc p rho (as_continuous _ _ _ AS) N) (HJ N ltac:(lia)) ep Hep) as (N2 & H2).
    exists (Nat.max N1 N2). intros m n mu w Hm Hn Hw. destruct (Nat.eq_dec m N) as [->|Hne]; [apply H2; [lia|exact Hw]|apply H1; [lia|lia|exact Hw]].
  Qed.

  Theorem u_converges f eps : exact_intensity p bn bp rho f -> 0 < eps -> exists N0, forall q lg la jk out u, same_problem p q -> p_phi0 p = p_phi0 q -> (N0 <= half q)%nat -> all_modes q ->
    linalg_ok la -> leggauss_ok (half q) (lg (half q)) -> pydisort q lg la jk = Ok out -> po_u out = Some u ->
    boundary_data q (fun i => bn (nth i (po_mu out) 0)) (fun i => bp (nth i (po_mu out) 0)) rho -> forall tau phi, depths_ok p tau ->
    exists A, u tau phi false false false = Ok (PVal (PT A)) /\
     twithin eps A (tsqueeze (mkT [streams q; length tau; length phi] (fun idx => f (nth (nth 0 idx 0%nat) (po_mu out) 0) (nth (nth 1 idx 0%nat) tau 0) (nth (nth 2 idx 0%nat) phi 0)))).
  Proof.
    intros EI He. pose proof (as_share _ _ _ AS) as Hr. set (N := (ncoeffs p + nB)%nat). assert (HN : (ncoeffs p <= N)%nat) by lia. assert (HB : (nB <= N)%nat) by lia.
    destruct (modes_ex p V bn bp rho r Hf Hph AS Cn Cp N) as (J & HJ). pose proof (Fsum_exact p V bn bp rho r AS N J HN HB HJ) as EF.
    pose proof (intensity_unique p V bn bp rho r Hf Hph AS f (Fsum p N J) EI EF) as EQ.
    destruct (pos_lower NL (fun l => 1 - albedo p l)) as (a & Ha & Hal). { intros l Hl. pose proof (albedo_range p V l Hl). lra. }
    assert (HN0 : 0 < INR N) by (apply lt_0_INR; pose proof (nc0 p V); lia).
    assert (Hae : 0 < a * eps) by (apply Rmult_lt_0_compat; lra). assert (Hre : 0 < (1 - r) / 2 * eps) by (apply Rmult_lt_0_compat; lra).
    set (ep := Rmin (a * eps / (2 * INR N)) (Rmin ((1 - r) / 2) ((1 - r) / 2 * eps / INR N))).
    assert (Hep : 0 < ep). { repeat apply Rmin_pos; try lra; apply Rdiv_lt_0_compat; lra. }
    assert (E1 : INR N * (2 * ep) <= a * eps). { apply Rle_trans with (INR N * (2 * (a * eps / (2 * INR N)))); [apply Rmult_le_compat_l; [lra|]; apply Rmult_le_compat_l; [lra|apply Rmin_l]|right; field; lra]. }
    assert (E2 : ep <= (1 - r) / 2) by (unfold ep; eapply Rle_trans; [apply Rmin_r|apply Rmin_l]).
    assert (E3 : INR N * ep <= (1 - r) / 2 * eps). { apply Rle_trans with (INR N * ((1 - r) / 2 * eps / INR N)); [apply Rmult_le_compat_l; [lra|]; unfold ep; eapply Rle_trans; [apply Rmin_r|apply Rmin_r]|right; field; lra]. }
    clearbody ep. destruct (mode_quad J ep N Hep HJ) as (N0 & HQ). exists N0. intros q lg la jk out u SP Hphi HNq AM Hla Hlg Hok Hu BD tau phi Ht. pose proof (call_valid q lg la jk out Hok) as Vq.
    destruct (modes_exist q lg la jk out Hla Hlg Hok) as (U & HU). destruct (call_fluxes q lg la jk out Hla Hlg Hok U HU) as (w & Hw & _).
    destruct (rep_solves q lg la jk out u Hla Hlg Hok Hu AM w _ _ rho Hw BD) as ((g & Hg) & FS). specialize (FS g Hg).
    assert (Ht' : depths_ok q tau) by (intros t Hin; rewrite <- (sp_bottom p q SP); apply Ht; exact Hin).
    destruct (Hg tau phi Ht') as (A & EA & SA). exists A. split; [exact EA|].
    refine (squeezed_within _ _ _ _ _ _ SA (conj eq_refl (fun idx _ => eq_refl)) _). intros idx Hi. rewrite (streams_eq q Vq) in Hi. apply inb_3 in Hi as (i & b & k & -> & Hi & Hb & Hk). cbn [nth].
    assert (Hin : 0 <= nth b tau 0 <= T) by (apply Ht, nth_In; exact Hb).
    assert (Hdi : direction (nth i (po_mu out) 0)) by (eapply Hdir; eauto).
    rewrite (EQ (nth i (po_mu out) 0) (nth b tau 0) (nth k phi 0) Hdi Hin), Rabs_minus_sym.
    refine (near N J HN HB HJ q Vq (po_mu out) w g eps ep SP Hphi Hw FS He _ _ _ _ _ i _ _ Hi Hin).
    - intros l Hl. pose proof (Hal l Hl) as Hl'. cbv beta in Hl'. assert (a * eps <= (1 - albedo p l) * eps) by (apply Rmult_le_compat_r; lra). lra.
    - assert ((1 - r) / 2 * eps <= (1 - r - ep) * eps) by (apply Rmult_le_compat_r; lra). lra.
    - lra.
    - intros m Hm. apply (HQ m _ _ _ Hm HNq Hw).
    - apply (HQ 0%nat _ _ _ ltac:(pose proof (nc0 p V); lia) HNq Hw).
  Qed.
End Converge.
