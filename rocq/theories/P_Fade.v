(** The influence of the boundaries fades with the absorption. *)
From Coq Require Import Classical String Reals Lra Lia List Bool Arith ZArith.
From Coquelicot Require Import Coquelicot.
From Verif Require Import Base Tensor Spec M_LinAlg Spec_RTE Calc M_Subroutines M_GenPart M_MathscrV M_Coeffs M_Assemble M_Pydisort
  Spec_Sol Spec_Valid Spec_Calls Spec_Unique Spec_Phys Spec_Mono P_Special P_Solve P_Energy P_Sub3 P_Pydisort P_Pydisort2 P_Pydisort3 P_Pydisort4 P_Pydisort5 P_Pydisort6 P_Pydisort8 P_NT3 P_Unique P_Unique2 P_Pydisort8 P_Refine P_Max P_Max2 P_Max3 P_Max4
  P_Mono Spec_Full P_Full P_Full2 P_Full3 P_Conv2 P_Exist3 Spec_Fade.
Import ListNotations.
Local Open Scope R_scope.

Lemma rmin_lip a b c : Rabs (Rmin a c - Rmin b c) <= Rabs (a - b).
Proof. unfold Rmin, Rabs. repeat destruct Rle_dec; repeat destruct Rcase_abs; lra. Qed.
Lemma cont_on_rmin a b c : cont_on a b (fun t => Rmin t c).
Proof. intros x Hx e He. exists e. split; [exact He|]. intros y Hy Hd. eapply Rle_lt_trans; [apply rmin_lip|]. exact Hd. Qed.
Lemma cont_on_exp a b f : cont_on a b f -> cont_on a b (fun t => exp (f t)).
Proof.
  intros H x Hx e He. destruct (derivable_continuous_pt exp (f x) (derivable_pt_exp (f x)) e He) as (d & Hd & C). destruct (H x Hx d Hd) as (d' & Hd' & C'). exists d'. split; [exact Hd'|].
  intros y Hy Hyx. destruct (Req_dec (f y) (f x)) as [E|E]; [rewrite E, Rminus_eq_0, Rabs_R0; exact He|]. apply (C (f y)). split; [split; [exact I|auto]|]. apply C'; auto.
Qed.

Section Absorbed.
  Variables (p : py_in) (V : valid p).
  Let NL := nlayers p.
  Lemma layer_le k l : (k < l)%nat -> (l < NL)%nat -> bot_of p k <= top_of p l.
  Proof.
    intros Hk. induction l as [|l IH]; [lia|]. intros Hl. change (top_of p (S l)) with (bot_of p l). destruct (Nat.eq_dec k l) as [->|Hne]; [lra|].
    pose proof (v_inc p V l ltac:(unfold NL, nlayers in *; lia)) as Hi. specialize (IH ltac:(lia) ltac:(lia)). unfold bot_of in *. destruct l; cbn [top_of] in *; lra.
  Qed.
  Lemma layer_own l : (l < NL)%nat -> top_of p l < bot_of p l.
  Proof. intros Hl. exact (v_inc p V l ltac:(unfold NL, nlayers in *; lia)). Qed.
  Lemma absorbed_cont : cont_on 0 (bottom p) (absorbed p).
  Proof.
    unfold absorbed. apply (cont_on_sum 0 (bottom p) (nlayers p) (fun l t => (1 - albedo p l) * (Rmin t (bot_of p l) - Rmin t (top_of p l)))). intros l Hl. apply cont_on_scal.
    apply (cont_on_ext _ _ (fun t => Rmin t (bot_of p l) + (-1) * Rmin t (top_of p l))); [intros; ring|]. apply cont_on_plus; [apply cont_on_rmin|apply cont_on_scal, cont_on_rmin].
  Qed.
  Lemma absorbed_der l t : (l < NL)%nat -> top_of p l < t < bot_of p l -> is_derive (absorbed p) t (1 - albedo p l).
  Proof.
    intros Hl Ht.
    assert (D : is_derive (absorbed p) t (rsum (nlayers p) (fun k => if Nat.eqb k l then 1 - albedo p l else 0))).
    { apply (der_sum (nlayers p) (fun k t => (1 - albedo p k) * (Rmin t (bot_of p k) - Rmin t (top_of p k)))). intros k Hk. destruct (Nat.eqb_spec k l) as [->|Hne].
      - apply (der_ext_loc (fun s => (1 - albedo p l) * (s - top_of p l)) _ t _ _ _ Ht).
        + intros y Hy. rewrite (Rmin_left y), (Rmin_right y) by lra. reflexivity.
        + refine (der_eq _ _ _ _ _ (der_scal _ _ _ _ (der_minus _ _ _ _ _ (der_id t) (der_const (top_of p l) t)))). ring.
      - apply (der_ext_loc (fun s => (1 - albedo p k) * (Rmin t (bot_of p k) - Rmin t (top_of p k))) _ t _ _ _ Ht); [|apply der_const]. intros y Hy. f_equal.
        destruct (Nat.lt_ge_cases k l) as [Hkl|Hkl].
        + pose proof (layer_le k l Hkl Hl). pose proof (layer_own k Hk). rewrite !(Rmin_right t), !(Rmin_right y) by lra. reflexivity.
        + pose proof (layer_le l k ltac:(lia) Hk). pose proof (layer_own k Hk). rewrite !(Rmin_left t), !(Rmin_left y) by lra. ring. }
    refine (der_eq _ _ _ _ _ D). rewrite (rsum_single (nlayers p) l); [rewrite Nat.eqb_refl; reflexivity|exact Hl|]. intros k Hk Hne. rewrite (proj2 (Nat.eqb_neq k l)) by auto. reflexivity.
  Qed.
  Lemma absorbed_nonneg t : 0 <= t -> 0 <= absorbed p t.
  Proof.
    intros Ht. apply rsum_nonneg. intros l Hl. pose proof (albedo_range p V l Hl). pose proof (layer_own l Hl) as H0. apply Rlt_le in H0.
    apply Rmult_le_pos; [lra|]. unfold Rmin. repeat destruct Rle_dec; lra.
  Qed.
  Lemma absorbed_0 : absorbed p 0 = 0.
  Proof.
    apply rsum_0. intros l Hl. pose proof (layer_own l Hl) as Hi.
    assert (0 <= top_of p l) by (apply (layer_range p V l (top_of p l) Hl); lra). rewrite !Rmin_left by lra. ring.
  Qed.

  Variables (e d1 d2 : R).
  Hypothesis He : 0 <= e.
  Hypothesis H1 : 0 <= d1.
  Hypothesis H2 : 0 <= d2.
  Definition envelope (t : R) : R := e + fading d1 d2 p t.
  Definition slope (l : nat) (t : R) : R := - (1 - albedo p l) * (d1 * exp (- absorbed p t)) + (1 - albedo p l) * (d2 * exp (- (absorbed p (bottom p) - absorbed p t))).
  Lemma envelope_cont : cont_on 0 (bottom p) envelope.
  Proof.
    unfold envelope, fading. apply cont_on_plus; [apply cont_on_const|]. apply cont_on_plus; apply cont_on_scal; apply cont_on_exp.
    - apply (cont_on_ext _ _ (fun t => (-1) * absorbed p t)); [intros; ring|]. apply cont_on_scal, absorbed_cont.
    - apply (cont_on_ext _ _ (fun t => - absorbed p (bottom p) + absorbed p t)); [intros; ring|]. apply cont_on_plus; [apply cont_on_const|apply absorbed_cont].
  Qed.
  Lemma envelope_der l t : (l < NL)%nat -> top_of p l < t < bot_of p l -> is_derive envelope t (slope l t).
  Proof.
    intros Hl Ht. pose proof (absorbed_der l t Hl Ht) as D. unfold envelope, fading.
    refine (der_eq _ _ _ _ _ (der_plus _ _ _ _ _ (der_const e t) (der_plus _ _ _ _ _ (der_scal _ d1 _ _ (der_exp _ _ _ (der_opp _ _ _ D))) (der_scal _ d2 _ _ (der_exp _ _ _ (der_opp _ _ _ (der_minus _ _ _ _ _ (der_const (absorbed p (bottom p)) t) D))))))).
    unfold slope. ring.
  Qed.
  Lemma envelope_slope l t x : (l < NL)%nat -> -1 <= x <= 1 -> x * slope l t <= (1 - albedo p l) * (envelope t - e).
  Proof.
    intros Hl Hx. pose proof (albedo_range p V l Hl). unfold slope, envelope, fading.
    assert (0 <= d1 * exp (- absorbed p t)) by (apply Rmult_le_pos; [lra|left; apply exp_pos]). assert (0 <= d2 * exp (- (absorbed p (bottom p) - absorbed p t))) by (apply Rmult_le_pos; [lra|left; apply exp_pos]).
    set (a := d1 * _) in *. set (b := d2 * _) in *. assert (0 <= (1 - albedo p l) * (a * (1 + x))) by (apply Rmult_le_pos; [lra|apply Rmult_le_pos; lra]).
    assert (0 <= (1 - albedo p l) * (b * (1 - x))) by (apply Rmult_le_pos; [lra|apply Rmult_le_pos; lra]). lra.
  Qed.
  Lemma envelope_pos t : 0 <= envelope t.
  Proof. unfold envelope, fading. assert (0 <= d1 * exp (- absorbed p t)) by (apply Rmult_le_pos; [lra|left; apply exp_pos]). assert (0 <= d2 * exp (- (absorbed p (bottom p) - absorbed p t))) by (apply Rmult_le_pos; [lra|left; apply exp_pos]). lra. Qed.
  Lemma envelope_top : e + d1 <= envelope 0.
  Proof. unfold envelope, fading. rewrite absorbed_0, Ropp_0, exp_0. assert (0 <= d2 * exp (- (absorbed p (bottom p) - 0))) by (apply Rmult_le_pos; [lra|left; apply exp_pos]). lra. Qed.
  Lemma envelope_bot : e + d2 <= envelope (bottom p).
  Proof. unfold envelope, fading. rewrite Rminus_eq_0, Ropp_0, exp_0. assert (0 <= d1 * exp (- absorbed p (bottom p))) by (apply Rmult_le_pos; [lra|left; apply exp_pos]). lra. Qed.
End Absorbed.

Section Near.
  Variables (e d1 d2 : R) (p q : py_in) (mu : list R) (w vn vp vn' vp' : nat -> R).
  Hypothesis V : valid q.
  Hypothesis Hdg : double_gauss (half q) mu w.
  Hypothesis S : same_medium p q.
  Hypothesis He : 0 <= e.
  Hypothesis H1 : 0 <= d1.
  Hypothesis H2 : 0 <= d2.
  Hypothesis HI : p_I0 p = p_I0 q.
  Hypothesis Hs : forall l t, (l < nlayers q)%nat -> top_of q l <= t <= bot_of q l -> source p l t - source q l t <= e.
  Hypothesis Hn : forall i, (i < half q)%nat -> vn i - vn' i <= e + d1.
  Let E := envelope q e d1 d2.

  (** Azimuthal mean. *)
  Theorem bvp_fade rho F G : phase_nonneg q mu -> passive_surface q mu w rho -> (forall i, (i < half q)%nat -> vp i - vp' i <= (1 - reflectance q mu w rho i) * (e + d2)) ->
    bvp p mu w vn vp rho 0 F -> bvp q mu w vn' vp' rho 0 G -> forall i t, (i < streams q)%nat -> 0 <= t <= bottom q -> F i t - G i t <= E t.
  Proof.
    intros Hph Hsurf Hp [A1 A2 A3 A4] [B1 B2 B3 B4] i t Hi Ht. rewrite (streams_eq q V) in *.
    enough (0 <= E t - F i t + G i t) by lra. assert (HN : (half q <= 2 * half q)%nat) by lia.
    refine (field_nonneg q V mu w Hdg (fun i t => E t - F i t + G i t)
      (fun i j => if Nat.ltb 0 (length (p_BDRF q)) then 2 * (rho (nth i mu 0) (nth j mu 0) * nth j mu 0 * w j) else 0) Hph _ _ _ _ _ _ i t Hi Ht).
    - intros k Hk. apply (cont_on_ext _ _ (fun x => (E x + (-1) * F k x) + G k x)); [intros; ring|]. apply cont_on_plus; [|apply B2; exact Hk]. apply cont_on_plus; [apply envelope_cont|].
      apply cont_on_scal. rewrite <- (sm_bottom p q S). apply A2. rewrite (sm_streams p q S), (streams_eq q V). exact Hk.
    - intros l k x Hl Hk Hx. destruct (cutoff_ex (albedo_s q l) (wphase_s q l) (ncoeffs q) 0) as (wg & Hc).
      set (nc := rsum (2 * half q) (fun j => wnode (half q) w j * D_spec (albedo_s q l) wg (ncoeffs q) 0 (nth k mu 0) (nth j mu 0))).
      pose proof (node q V mu w Hdg k Hk) as (Hmu & Hmu0).
      exists wg, (scl q l * E x * (1 - nc) - (1 - albedo q l) * (source p l x - source q l x) - nth k mu 0 * slope q d1 d2 l x). split; [exact Hc|]. pose proof (scl_pos q V l Hl) as Hsc. split.
      + pose proof (D_row_le q V mu w Hdg l wg k Hl Hc) as Hnc. fold nc in Hnc. pose proof (Hs l x Hl ltac:(lra)). pose proof (albedo_range q V l Hl).
        assert (EE : scl q l * (1 - albedo_s q l) = 1 - albedo q l) by (unfold albedo_s, scl in *; field; lra).
        pose proof (envelope_slope q V e d1 d2 H1 H2 l x (nth k mu 0) Hl Hmu) as Hsl. fold E in Hsl. pose proof (envelope_pos q e d1 d2 He H1 H2 x) as HE. fold E in HE.
        set (ds := source p l x - source q l x) in *.
        assert (0 <= (1 - albedo q l) * (e - ds)) by (apply Rmult_le_pos; lra).
        assert (0 <= (scl q l * E x) * (albedo_s q l - nc)) by (apply Rmult_le_pos; [apply Rmult_le_pos; lra|lra]).
        replace (scl q l * E x * (1 - nc)) with (scl q l * (1 - albedo_s q l) * E x + scl q l * E x * (albedo_s q l - nc)) by ring.
        rewrite EE. lra.
      + pose proof (B1 l k wg x Hl Hk Hx Hc) as DG.
        assert (DF : is_derive (F k) x (rte p mu w wg 0 l k x (fun j => F j x) / nth k mu 0)).
        { apply A1; [rewrite (sm_nlayers p q S); exact Hl|rewrite (sm_streams p q S), (streams_eq q V); exact Hk|rewrite (sm_top p q S), (sm_bot p q S); exact Hx|].
          rewrite (sm_albedo_s p q S), (sm_wphase p q S), (sm_ncoeffs p q S). exact Hc. }
        refine (der_eq _ _ _ _ _ (der_plus _ _ _ _ _ (der_minus _ _ _ _ _ (envelope_der q V e d1 d2 l x Hl Hx) DF) DG)). unfold rte. cbn [Nat.eqb].
        rewrite (sm_scl p q S), (sm_streams p q S), (sm_half p q S), (sm_albedo_s p q S), (sm_ncoeffs p q S), (sm_mu0 p q S), (sm_depth p q S), (sm_albedo p q S), HI, (streams_eq q V), !X_spec_0m.
        set (Dq := D_spec (albedo_s q l) wg (ncoeffs q) 0 (nth k mu 0)) in *.
        rewrite (rsum_ext _ (fun j => wnode (half q) w j * Dq (nth j mu 0) * (E x - F j x + G j x))
          (fun j => (E x * (wnode (half q) w j * Dq (nth j mu 0)) - wnode (half q) w j * Dq (nth j mu 0) * F j x) - (-1) * (wnode (half q) w j * Dq (nth j mu 0) * G j x))) by (intros; ring).
        rewrite !rsum_minus, !rsum_scal. fold nc. unfold Rdiv. set (sl := slope q d1 d2 l x). replace sl with (nth k mu 0 * sl * / nth k mu 0) at 1 by (field; exact Hmu0). ring.
    - intros k Hk. rewrite (B3 k Hk). replace (half q) with (half p) in * by apply (sm_half p q S). rewrite (A3 k Hk). cbn [Nat.eqb]. pose proof (Hn k Hk). pose proof (envelope_top q V e d1 d2 H2) as X. fold E in X. lra.
    - intros k Hk. rewrite (B4 k Hk). replace (F k (bottom q)) with (F k (bottom p)) by (rewrite (sm_bottom p q S); reflexivity). rewrite (A4 k) by (rewrite (sm_half p q S); exact Hk). cbn [Nat.eqb].
      rewrite (sm_BDRF p q S), (sm_half p q S), (sm_mu0 p q S), (sm_depth p q S), (sm_nlayers p q S), (sm_bottom p q S), HI. pose proof (Hp k Hk) as Hpk.
      pose proof (envelope_bot q e d1 d2 H1) as HB. fold E in HB. set (eb := E (bottom q)) in *.
      assert (Hpk' : vp k - vp' k <= (1 - reflectance q mu w rho k) * eb).
      { apply Rle_trans with (1 := Hpk). apply Rmult_le_compat_l; [pose proof (ps_albedo _ _ _ _ Hsurf k Hk); lra|exact HB]. }
      clear Hpk. unfold reflectance in Hpk'.
      destruct (Nat.ltb 0 (length (p_BDRF q))).
      + rewrite (rsum_ext _ (fun j => 2 * (rho (nth k mu 0) (nth j mu 0) * nth j mu 0 * w j) * (eb - F (half q + j)%nat (bottom q) + G (half q + j)%nat (bottom q)))
          (fun j => (2 * eb * (rho (nth k mu 0) (nth j mu 0) * nth j mu 0 * w j) - 2 * (rho (nth k mu 0) (nth j mu 0) * nth j mu 0 * w j * F (half q + j)%nat (bottom q))) - (- 2) * (rho (nth k mu 0) (nth j mu 0) * nth j mu 0 * w j * G (half q + j)%nat (bottom q)))) by (intros; ring).
        rewrite !rsum_minus, !rsum_scal. lra.
      + rewrite rsum_0 by (intros; ring). lra.
    - intros k j Hk Hj. cbv beta. destruct (Nat.ltb 0 (length (p_BDRF q))); [|apply Rle_refl]. destruct Hdg as (_ & Hd2 & _). destruct (Hd2 j Hj) as (P1 & _ & P3). pose proof (ps_nonneg _ _ _ _ Hsurf k j Hk Hj).
      apply Rmult_le_pos; [lra|]. apply Rmult_le_pos; [apply Rmult_le_pos; lra|lra].
    - intros k Hk. pose proof (ps_albedo _ _ _ _ Hsurf k Hk) as Pa. unfold reflectance in Pa. destruct (Nat.ltb 0 (length (p_BDRF q))); [rewrite rsum_scal; exact Pa|]. rewrite rsum_0 by reflexivity. lra.
  Qed.

  (** Every azimuth. *)
  Theorem full_fade rho F G : p_phi0 p = p_phi0 q -> phase_positive q -> surface_positive q mu w rho ->
    (forall i, (i < half q)%nat -> vp i - vp' i <= (1 - reflectance q mu w (rho 0%nat) i) * (e + d2)) ->
    full_solution p mu w vn vp rho F -> full_solution q mu w vn' vp' rho G -> forall i t x, (i < streams q)%nat -> 0 <= t <= bottom q -> F i t x - G i t x <= E t.
  Proof.
    intros Ephi Hph [Sn Sb Sa] Hp [A1 A2 A2' A3 A4] [B1 B2 B2' B3 B4] i t x Hi Ht. rewrite (streams_eq q V) in *. pose proof PI_RGT_0 as HPI.
    enough (0 <= E t + (G i t x - F i t x)) by lra.
    rewrite (sm_streams p q S), (sm_bottom p q S), ?(sm_half p q S), ?(sm_nlayers p q S), ?(streams_eq q V) in *.
    refine (full_nonneg q V mu w rho Hdg Hph Sn Sa (fun i t x => E t + (G i t x - F i t x)) _ _ _ _ _ i t x Hi Ht).
    - intros k Hk. apply cont2_plus; [|apply cont2_plus; [apply B2; exact Hk|apply cont2_opp, A2; exact Hk]].
      intros s y Hs0 ee Hee. destruct (envelope_cont q e d1 d2 s Hs0 ee Hee) as (d & Hd & HC). exists d. split; [exact Hd|]. intros s' y' Hs1 Hs2 _. apply HC; auto.
    - intros k s y Hk Hs'. rewrite B2', A2' by auto. reflexivity.
    - intros l k s y Hl Hk Hs'. destruct (B1 l k s y Hl Hk Hs') as (JG & HJG & DG). pose proof (node q V mu w Hdg k Hk) as (Hmu & Hmu0).
      destruct (A1 l k s y Hl Hk) as (JF & HJF & DF); [rewrite (sm_top p q S), (sm_bot p q S); exact Hs'|].
      rewrite (sm_scl p q S), (sm_albedo_s p q S), (sm_albedo p q S), (sm_mu0 _ _ S), (sm_depth p q S), (sm_phase_at p q S), Ephi, HI in DF.
      exists (fun j => E s * (2 * PI * phase_mode q 0 l (nth k mu 0) (nth j mu 0)) + (JG j - JF j)), ((1 - albedo q l) * E s - (1 - albedo q l) * (source p l s - source q l s) - nth k mu 0 * slope q d1 d2 l s). split; [|split].
      + pose proof (albedo_range q V l Hl). pose proof (Hs l s Hl ltac:(lra)). pose proof (envelope_slope q V e d1 d2 H1 H2 l s (nth k mu 0) Hl Hmu) as Hsl. fold E in Hsl.
        assert (0 <= (1 - albedo q l) * (e - (source p l s - source q l s))) by (apply Rmult_le_pos; lra). lra.
      + intros j Hj. apply (is_RInt_ext (V:=R_NormedModule) (fun z => plus (scal (E s) (phase_at q l (cos_between (nth k mu 0) y (nth j mu 0) z))) (minus (phase_at q l (cos_between (nth k mu 0) y (nth j mu 0) z) * G j s z) (phase_at p l (cos_between (nth k mu 0) y (nth j mu 0) z) * F j s z)))).
        * intros z _. unfold minus, plus, opp, scal; simpl; unfold mult; simpl. rewrite (sm_phase_at p q S). ring.
        * apply (is_RInt_plus (V:=R_NormedModule)); [apply (is_RInt_scal (V:=R_NormedModule)); apply (int_phase q V mu w Hdg l k j y Hk Hj)|]. apply (is_RInt_minus (V:=R_NormedModule)); [apply HJG; exact Hj|apply HJF; exact Hj].
      + refine (der_eq _ _ _ _ _ (der_plus _ _ _ _ _ (envelope_der q V e d1 d2 l s Hl Hs') (der_minus _ _ _ _ _ DG DF))).
        rewrite (rsum_ext _ (fun j => wnode (half q) w j * (E s * (2 * PI * phase_mode q 0 l (nth k mu 0) (nth j mu 0)) + (JG j - JF j)))
          (fun j => (2 * PI * E s) * (wnode (half q) w j * phase_mode q 0 l (nth k mu 0) (nth j mu 0)) + (wnode (half q) w j * JG j - wnode (half q) w j * JF j))) by (intros; ring). rewrite rsum_plus, rsum_minus, rsum_scal.
        pose proof (row_sum q V mu w Hdg l k Hl) as ER. set (RS := rsum (2 * half q) (fun j => wnode (half q) w j * phase_mode q 0 l (nth k mu 0) (nth j mu 0))) in *. pose proof (scl_pos q V l Hl) as Hsc.
        assert (E2 : scl q l * (1 - albedo_s q l) = 1 - albedo q l) by (unfold albedo_s, scl in *; field; lra).
        set (SG := rsum _ (fun j => wnode (half q) w j * JG j)). set (SF := rsum _ (fun j => wnode (half q) w j * JF j)).
        replace (albedo_s q l / (4 * PI) * (2 * PI * E s * RS + (SG - SF))) with (E s / 2 * (RS * albedo_s q l) + albedo_s q l / (4 * PI) * (SG - SF)) by (field; lra). rewrite ER, <- E2. 
        set (sl := slope q d1 d2 l s). replace sl with (nth k mu 0 * sl * / nth k mu 0) at 1 by (field; exact Hmu0). field. split; [lra|exact Hmu0].
    - intros k y Hk. rewrite (B3 k y Hk), (A3 k y Hk). specialize (Hn k Hk). pose proof (envelope_top q V e d1 d2 H2) as X. fold E in X. lra.
    - intros k y Hk. destruct (B4 k y Hk) as (JG & HJG & EG). destruct (A4 k y Hk) as (JF & HJF & EF).
      rewrite (sm_surface_at p q S), (sm_mu0 _ _ S), (sm_depth p q S), Ephi, HI in EF. set (eb := E (bottom q)) in *.
      exists (fun j => eb * (if Nat.ltb 0 (length (p_BDRF q)) then 2 * PI * rho 0%nat (nth k mu 0) (nth j mu 0) else 0) + (JG j - JF j)), (vp' k - vp k + (1 - reflectance q mu w (rho 0%nat) k) * eb). split; [|split].
      + specialize (Hp k Hk). pose proof (envelope_bot q e d1 d2 H1) as HB. fold E in HB. fold eb in HB.
        assert ((1 - reflectance q mu w (rho 0%nat) k) * (e + d2) <= (1 - reflectance q mu w (rho 0%nat) k) * eb) by (apply Rmult_le_compat_l; [pose proof (Sa k Hk); lra|exact HB]). lra.
      + intros j Hj. apply (is_RInt_ext (V:=R_NormedModule) (fun z => plus (scal eb (surface_at q rho (nth k mu 0) y (nth j mu 0) z)) (minus (surface_at q rho (nth k mu 0) y (nth j mu 0) z * G (half q + j)%nat (bottom q) z) (surface_at p rho (nth k mu 0) y (nth j mu 0) z * F (half q + j)%nat (bottom q) z)))).
        * intros z _. unfold minus, plus, opp, scal; simpl; unfold mult; simpl. rewrite (sm_surface_at p q S). fold eb. ring.
        * apply (is_RInt_plus (V:=R_NormedModule)); [apply (is_RInt_scal (V:=R_NormedModule)); apply (int_surface q V mu rho k j y)|]. apply (is_RInt_minus (V:=R_NormedModule)); [apply HJG; exact Hj|apply HJF; exact Hj].
      + cbv beta. fold eb. rewrite EG, EF. unfold reflectance. destruct (Nat.ltb 0 (length (p_BDRF q))).
        * rewrite (rsum_ext _ (fun j => w j * nth j mu 0 * (eb * (2 * PI * rho 0%nat (nth k mu 0) (nth j mu 0)) + (JG j - JF j)))
            (fun j => (2 * PI * eb) * (rho 0%nat (nth k mu 0) (nth j mu 0) * nth j mu 0 * w j) + (w j * nth j mu 0 * JG j - w j * nth j mu 0 * JF j))) by (intros; ring). rewrite rsum_plus, rsum_minus, rsum_scal. field. lra.
        * rewrite (rsum_ext _ (fun j => w j * nth j mu 0 * (eb * 0 + (JG j - JF j))) (fun j => w j * nth j mu 0 * JG j - w j * nth j mu 0 * JF j)) by (intros; ring). rewrite rsum_minus. field. lra.
  Qed.
End Near.

Lemma squeezed_within_each A B s f g c : squeezed A s f -> squeezed B s g -> (forall idx, inb s idx -> Rabs (f idx - g idx) <= c idx) -> within_each s c A B.
Proof.
  intros [S1 E1] [S2 E2] H. split; [rewrite S1; reflexivity|]. split; [rewrite S1, S2; reflexivity|]. intros idx Hi. rewrite E1 by exact Hi. rewrite E2 by (rewrite S2; rewrite S1 in Hi; exact Hi).
  unfold tsqueeze. cbn [elt]. apply H. apply inb_unsq. rewrite S1 in Hi. exact Hi.
Qed.
Lemma sm_absorbed p q (S : same_medium p q) t : absorbed p t = absorbed q t.
Proof. unfold absorbed. rewrite (sm_nlayers p q S). apply rsum_ext. intros l Hl. rewrite (sm_albedo p q S), (sm_top p q S), (sm_bot p q S). reflexivity. Qed.
Lemma sm_envelope p q (S : same_medium p q) e d1 d2 t : envelope p e d1 d2 t = envelope q e d1 d2 t.
Proof. unfold envelope, fading. rewrite !(sm_absorbed p q S), (sm_bottom p q S). reflexivity. Qed.

Section Calls.
  Variables (p q : py_in) (lg : leggauss_t) (la la' : linalg) (jk jk' : junk) (out out' : py_out).
  Hypothesis Hla : linalg_ok la.
  Hypothesis Hla' : linalg_ok la'.
  Hypothesis Hlg : leggauss_ok (half p) (lg (half p)).
  Hypothesis Hp : pydisort p lg la jk = Ok out.
  Hypothesis Hq : pydisort q lg la' jk' = Ok out'.
  Hypothesis SM : same_medium p q.
  Variables (w : nat -> R) (vn vp vn' vp' : nat -> R) (rho : nat -> R -> R -> R).
  Hypothesis Hw : double_gauss (half p) (po_mu out) w.
  Hypothesis BD : boundary_data p vn vp rho.
  Hypothesis BD' : boundary_data q vn' vp' rho.
  Variables (e d1 d2 : R).
  Hypothesis SN : sources_near e d1 d2 p q (po_mu out) w vn vp vn' vp' (rho 0%nat).
  Let E := envelope q e d1 d2.

  Section Mean.
  Hypothesis Hph : phase_nonneg q (po_mu out).
  Hypothesis Hsurf' : passive_surface q (po_mu out) w (rho 0%nat).
  Lemma fade_modes U U' : modes_of p out U -> modes_of q out' U' -> forall i t, (i < streams q)%nat -> 0 <= t <= bottom q -> Rabs (U 0%nat i t - U' 0%nat i t) <= E t.
  Proof.
    intros HU HU' i t Hi Ht. pose proof (call_valid p lg la jk out Hp) as Vp. pose proof (call_valid q lg la' jk' out' Hq) as Vq.
    pose proof (same_mu p q lg la la' jk jk' out out' Hp Hq (sm_NQuad _ _ SM)) as Em. pose proof (sm_half p q SM) as Eh.
    assert (Hw' : double_gauss (half q) (po_mu out') w) by (rewrite <- Em, <- Eh; exact Hw).
    assert (Hlg' : leggauss_ok (half q) (lg (half q))) by (rewrite <- Eh; exact Hlg).
    pose proof (bd_bvp p lg la jk out Hla Hlg Hp w vn vp rho Hw BD U 0%nat HU (seen_0 p Vp)) as B.
    pose proof (bd_bvp q lg la' jk' out' Hla' Hlg' Hq w vn' vp' rho Hw' BD' U' 0%nat HU' (seen_0 q Vq)) as B'.
    rewrite <- Em in B', Hw'. destruct SN as [g0 g1 g2 k0 k1 k2 k3].
    assert (Hph' : phase_nonneg p (po_mu out)).
    { intros l a b Hl Ha Hb. rewrite (sm_phase_mode p q SM). apply Hph; [rewrite <- (sm_nlayers p q SM)|rewrite <- (sm_streams p q SM)|rewrite <- (sm_streams p q SM)]; auto. }
    assert (Hsurf : passive_surface p (po_mu out) w (rho 0%nat)).
    { destruct Hsurf' as [c1 c2 c3]. constructor; rewrite ?Eh, ?(sm_mu0 p q SM), ?k0; auto. intros a Ha. rewrite (sm_reflectance p q SM). auto. }
    apply Rabs_le. split.
    - enough (U' 0%nat i t - U 0%nat i t <= E t) by lra. unfold E. rewrite <- (sm_envelope p q SM).
      refine (bvp_fade e d1 d2 q p (po_mu out) w vn' vp' vn vp Vp Hw (sm_sym _ _ SM) g0 g1 g2 (eq_sym k0) _ _ (rho 0%nat) (U' 0%nat) (U 0%nat) Hph' Hsurf _ B' B i t _ _).
      + intros l x Hl Hx. rewrite (sm_nlayers p q SM) in Hl. rewrite (sm_top p q SM), (sm_bot p q SM) in Hx. specialize (k1 l x Hl Hx). apply Rabs_le_between in k1. lra.
      + intros j Hj. rewrite Eh in Hj. specialize (k2 j Hj). apply Rabs_le_between in k2. lra.
      + intros j Hj. rewrite (sm_reflectance p q SM). rewrite Eh in Hj. specialize (k3 j Hj). apply Rabs_le_between in k3. lra.
      + rewrite (sm_streams p q SM). exact Hi.
      + rewrite (sm_bottom p q SM). exact Ht.
    - refine (bvp_fade e d1 d2 p q (po_mu out) w vn vp vn' vp' Vq Hw' SM g0 g1 g2 k0 _ _ (rho 0%nat) (U 0%nat) (U' 0%nat) Hph Hsurf' _ B B' i t Hi Ht).
      + intros l x Hl Hx. specialize (k1 l x Hl Hx). apply Rabs_le_between in k1. lra.
      + intros j Hj. specialize (k2 j Hj). apply Rabs_le_between in k2. lra.
      + intros j Hj. specialize (k3 j Hj). apply Rabs_le_between in k3. lra.
  Qed.

  Theorem call_fade : forall tau, depths_ok p tau -> let c := fun k => e + fading d1 d2 q (nth k tau 0) in
    (exists A B, po_u0 out tau false false false = Ok (PVal (PT A)) /\ po_u0 out' tau false false false = Ok (PVal (PT B)) /\ within_each [streams q; length tau] (fun idx => c (nth 1 idx 0%nat)) A B) /\
    (exists A B, po_flux_up out tau false false = Ok (PVal (PT A)) /\ po_flux_up out' tau false false = Ok (PVal (PT B)) /\ within_each [length tau] (fun idx => PI * c (nth 0 idx 0%nat)) A B) /\
    (exists A A0 B B0, po_flux_down out tau false false = Ok (PTup [PT A; PT A0]) /\ po_flux_down out' tau false false = Ok (PTup [PT B; PT B0]) /\ within_each [length tau] (fun idx => PI * c (nth 0 idx 0%nat)) A B).
  Proof.
    intros tau Ht c. pose proof (call_valid p lg la jk out Hp) as Vp. pose proof (call_valid q lg la' jk' out' Hq) as Vq.
    pose proof (same_mu p q lg la la' jk jk' out out' Hp Hq (sm_NQuad _ _ SM)) as Em. pose proof (sm_half p q SM) as Eh. pose proof (sm_streams p q SM) as Es.
    assert (Hlg' : leggauss_ok (half q) (lg (half q))) by (rewrite <- Eh; exact Hlg).
    destruct (modes_exist p lg la jk out Hla Hlg Hp) as (U & HU). destruct (modes_exist q lg la' jk' out' Hla' Hlg' Hq) as (U' & HU').
    pose proof (fade_modes U U' HU HU') as HLE.
    assert (Ht' : depths_ok q tau) by (intros t Hin; rewrite <- (sm_bottom p q SM); apply Ht; exact Hin).
    assert (Hin : forall k, (k < length tau)%nat -> 0 <= nth k tau 0 <= bottom q) by (intros k Hk; apply Ht', nth_In; exact Hk).
    destruct (call_fluxes p lg la jk out Hla Hlg Hp U HU) as (w1 & D1 & R1 & R1'). destruct (call_fluxes q lg la' jk' out' Hla' Hlg' Hq U' HU') as (w2 & D2 & R2 & R2').
    pose proof (dg_weights _ _ _ _ D1 Hw) as E1. rewrite <- Em, <- Eh in D2. pose proof (dg_weights _ _ _ _ D2 Hw) as E2. rewrite <- Em, <- Eh in R2, R2'.
    assert (Hc : forall i, (i < half p)%nat -> 0 <= w i * nth i (po_mu out) 0).
    { intros i Hi. destruct Hw as (_ & H2 & _). destruct (H2 i Hi) as (P1 & _ & P2). apply Rmult_le_pos; lra. }
    pose proof PI_RGT_0. assert (Hst : streams q = (half p + half p)%nat) by (rewrite (streams_eq q Vq), Eh; lia).
    assert (HS : forall ee f g, (forall i, (i < half p)%nat -> Rabs (f i - g i) <= ee) ->
      Rabs (2 * PI * rsum (half p) (fun i => w1 i * nth i (po_mu out) 0 * f i) - 2 * PI * rsum (half p) (fun i => w2 i * nth i (po_mu out) 0 * g i)) <= PI * ee).
    { intros ee f g Hfg. rewrite <- Rmult_minus_distr_l, <- rsum_minus, Rabs_mult, (Rabs_pos_eq (2 * PI)) by lra.
      apply Rle_trans with (2 * PI * (1 / 2 * ee)); [|right; field]. apply Rmult_le_compat_l; [lra|].
      rewrite <- (dg_first (half p) (po_mu out) w (half_pos p Vp) Hw), Rmult_comm, <- rsum_scal. eapply Rle_trans; [apply rsum_abs|]. apply rsum_le. intros i Hi.
      rewrite E1, E2 by auto. rewrite <- Rmult_minus_distr_l, Rabs_mult, (Rabs_pos_eq (w i * _)) by auto. rewrite (Rmult_comm ee). apply Rmult_le_compat_l; auto. }
    split; [|split].
    - destruct (proj1 HU tau Ht) as (A & EA & SA). destruct (proj1 HU' tau Ht') as (B & EB & SB). exists A, B. split; [exact EA|]. split; [exact EB|].
      rewrite Es in SA. refine (squeezed_within_each _ _ _ _ _ _ SA SB _). intros idx Hi. apply inb_2 in Hi as (a & b & -> & Ha & Hb). cbn [nth]. apply HLE; [lia|apply Hin; lia].
    - destruct (R1 tau Ht) as (A & EA & SA). destruct (R2 tau Ht') as (B & EB & SB). exists A, B. split; [exact EA|]. split; [exact EB|].
      refine (squeezed_within_each _ _ _ _ _ _ SA SB _). intros idx Hi. apply inb_1 in Hi as (a & -> & Ha). cbn [nth].
      apply (HS (c a) (fun i => U 0%nat i (nth a tau 0)) (fun i => U' 0%nat i (nth a tau 0))). intros i Hi'. apply HLE; [lia|apply Hin; lia].
    - destruct (R1' tau Ht) as (A & A0 & EA & SA & _). destruct (R2' tau Ht') as (B & B0 & EB & SB & _). exists A, A0, B, B0. split; [exact EA|]. split; [exact EB|].
      refine (squeezed_within_each _ _ _ _ _ _ SA SB _). intros idx Hi. apply inb_1 in Hi as (a & -> & Ha). cbn [nth]. unfold direct.
      rewrite (sm_sdepth p q SM), (sm_mu0 p q SM), (snr_I0 _ _ _ _ _ _ _ _ _ _ _ _ SN).
      match goal with |- Rabs (?x + ?c - ?d - (?y + ?c - ?d)) <= _ => replace (x + c - d - (y + c - d)) with (x - y) by ring end.
      apply (HS (c a) (fun i => U 0%nat (half p + i)%nat (nth a tau 0)) (fun i => U' 0%nat (half p + i)%nat (nth a tau 0))). intros i Hi'. apply HLE; [lia|apply Hin; lia].
  Qed.
  End Mean.

  Section Full.
  Variables (u u' : list R -> list R -> bool -> bool -> bool -> res pret).
  Hypothesis Hu : po_u out = Some u.
  Hypothesis Hu' : po_u out' = Some u'.
  Hypothesis Ephi : p_phi0 p = p_phi0 q.
  Hypothesis AM : all_modes p.
  Hypothesis AM' : all_modes q.
  Hypothesis Hph : phase_positive q.
  Hypothesis Hsp : surface_positive q (po_mu out) w rho.
  Theorem call_fade_full : forall tau phi, depths_ok p tau ->
    exists A B, u tau phi false false false = Ok (PVal (PT A)) /\ u' tau phi false false false = Ok (PVal (PT B)) /\
    within_each [streams q; length tau; length phi] (fun idx => e + fading d1 d2 q (nth (nth 1 idx 0%nat) tau 0)) A B.
  Proof.
    intros tau phi Ht. pose proof (call_valid _ _ _ _ _ Hp) as Vp. pose proof (call_valid _ _ _ _ _ Hq) as Vq. pose proof (same_mu p q lg la la' jk jk' out out' Hp Hq (sm_NQuad _ _ SM)) as Em.
    pose proof (sm_half p q SM) as Eh.
    assert (Hlg' : leggauss_ok (half q) (lg (half q))) by (rewrite <- Eh; exact Hlg).
    assert (Hw' : double_gauss (half q) (po_mu out') w) by (rewrite <- Eh, <- Em; exact Hw).
    assert (Ht' : depths_ok q tau) by (intros t Hin; rewrite <- (sm_bottom p q SM); apply Ht; exact Hin).
    destruct (rep_solves p lg la jk out u Hla Hlg Hp Hu AM w vn vp rho Hw BD) as ((f & Hf) & H). specialize (H f Hf).
    destruct (rep_solves q lg la' jk' out' u' Hla' Hlg' Hq Hu' AM' w vn' vp' rho Hw' BD') as ((g & Hg) & H'). specialize (H' g Hg). rewrite <- Em in H', Hw'.
    destruct (Hf tau phi Ht) as (A & EA & SA). destruct (Hg tau phi Ht') as (B & EB & SB). exists A, B. split; [exact EA|]. split; [exact EB|]. rewrite (sm_streams p q SM) in SA.
    apply (squeezed_within_each _ _ _ _ _ _ SA SB). intros idx Hi. apply inb_3 in Hi as (a & b & c & -> & Ha & Hb & Hc). cbn [nth]. set (t := nth b tau 0). set (x := nth c phi 0).
    assert (Htr : 0 <= t <= bottom q) by (apply Ht', nth_In; exact Hb). change (e + fading d1 d2 q t) with (E t). destruct SN as [g0 g1 g2 k0 k1 k2 k3]. apply Rabs_le. split.
    - enough (g a t x - f a t x <= E t) by lra. unfold E. rewrite <- (sm_envelope p q SM).
      refine (full_fade e d1 d2 q p (po_mu out) w vn' vp' vn vp Vp Hw (sm_sym _ _ SM) g1 g2 (eq_sym k0) _ _ rho g f (eq_sym Ephi) _ _ _ H' H a t x _ _).
      + intros l y Hl Hx. rewrite (sm_nlayers p q SM) in Hl. rewrite (sm_top p q SM), (sm_bot p q SM) in Hx. specialize (k1 l y Hl Hx). apply Rabs_le_between in k1. lra.
      + intros j Hj. rewrite Eh in Hj. specialize (k2 j Hj). apply Rabs_le_between in k2. lra.
      + intros l y Hl Ha' Hy. rewrite (sm_phase_at p q SM). rewrite (sm_nlayers p q SM) in Hl. rewrite (sm_albedo_s p q SM) in Ha'. apply Hph; auto.
      + destruct Hsp as [c1 c2 c3]. constructor; rewrite ?Eh, ?(sm_mu0 p q SM), ?k0, ?Ephi.
        * intros. rewrite (sm_surface_at p q SM). auto.
        * intros. rewrite (sm_surface_at p q SM). auto.
        * intros j Hj. rewrite (sm_reflectance p q SM). auto.
      + intros j Hj. rewrite (sm_reflectance p q SM). rewrite Eh in Hj. specialize (k3 j Hj). apply Rabs_le_between in k3. lra.
      + rewrite (sm_streams p q SM). exact Ha.
      + rewrite (sm_bottom p q SM). exact Htr.
    - refine (full_fade e d1 d2 p q (po_mu out) w vn vp vn' vp' Vq Hw' SM g1 g2 k0 _ _ rho f g Ephi Hph Hsp _ H H' a t x Ha Htr).
      + intros l y Hl Hx. specialize (k1 l y Hl Hx). apply Rabs_le_between in k1. lra.
      + intros j Hj. specialize (k2 j Hj). apply Rabs_le_between in k2. lra.
      + intros j Hj. specialize (k3 j Hj). apply Rabs_le_between in k3. lra.
  Qed.
  End Full.
End Calls.

(** Without a beam the radiation approaches the emission of the layers away from the boundaries. *)
Theorem call_thermal p lg la jk out u : linalg_ok la -> leggauss_ok (half p) (lg (half p)) -> pydisort p lg la jk = Ok out -> po_u out = Some u -> all_modes p -> p_I0 p = 0 ->
  forall w vn vp rho, double_gauss (half p) (po_mu out) w -> boundary_data p vn vp rho -> phase_positive p -> surface_positive p (po_mu out) w rho ->
  forall B e d1 d2, 0 <= d1 -> 0 <= d2 -> (forall l t, (l < nlayers p)%nat -> top_of p l <= t <= bot_of p l -> Rabs (source p l t - B) <= e) ->
  (forall i, (i < half p)%nat -> Rabs (vn i - B) <= e + d1) -> (forall i, (i < half p)%nat -> Rabs (vp i - (1 - reflectance p (po_mu out) w (rho 0%nat) i) * B) <= (1 - reflectance p (po_mu out) w (rho 0%nat) i) * (e + d2)) ->
  forall tau phi, depths_ok p tau -> exists A, u tau phi false false false = Ok (PVal (PT A)) /\
  within_each [streams p; length tau; length phi] (fun idx => e + fading d1 d2 p (nth (nth 1 idx 0%nat) tau 0)) A (tsqueeze (mkT [streams p; length tau; length phi] (fun _ => B))).
Proof.
  intros Hla Hlg Hok Hu AM HI w vn vp rho Hw BD Hph Hsp B e d1 d2 H1 H2 Hs Hn Hp tau phi Ht. pose proof (call_valid _ _ _ _ _ Hok) as V.
  destruct (rep_solves p lg la jk out u Hla Hlg Hok Hu AM w vn vp rho Hw BD) as ((f & Hf) & H). specialize (H f Hf).
  destruct (Hf tau phi Ht) as (A & EA & SA). exists A. split; [exact EA|]. refine (squeezed_within_each _ _ _ _ _ _ SA (conj eq_refl (fun _ _ => eq_refl)) _).
  intros idx Hi. apply inb_3 in Hi as (a & b & c & -> & Ha & Hb & Hc). cbn [nth]. set (t := nth b tau 0). set (x := nth c phi 0).
  assert (Htr : 0 <= t <= bottom p) by (apply Ht, nth_In; exact Hb). pose proof (const_full p (po_mu out) w rho B V Hw) as C. pose proof (uniform_medium p B) as SM.
  change (e + fading d1 d2 p t) with (envelope p e d1 d2 t). apply Rabs_le. split.
  - enough (B - f a t x <= envelope p e d1 d2 t) by lra.
    refine (full_fade e d1 d2 (uniform p B) p (po_mu out) w _ _ vn vp V Hw SM H1 H2 (eq_sym HI) _ _ rho (fun _ _ _ => B) f eq_refl Hph Hsp _ C H a t x Ha Htr).
    + intros l y Hl Hx. rewrite uniform_source by exact Hl. specialize (Hs l y Hl Hx). apply Rabs_le_between in Hs. lra.
    + intros j Hj. specialize (Hn j Hj). apply Rabs_le_between in Hn. lra.
    + intros j Hj. specialize (Hp j Hj). apply Rabs_le_between in Hp. lra.
  - rewrite <- (sm_envelope _ _ SM).
    refine (full_fade e d1 d2 p (uniform p B) (po_mu out) w vn vp _ _ (uniform_valid p B V) Hw (sm_sym _ _ SM) H1 H2 HI _ _ rho f (fun _ _ _ => B) eq_refl _ _ _ H C a t x Ha Htr).
    + intros l y Hl Hx. rewrite uniform_source by exact Hl. specialize (Hs l y Hl Hx). apply Rabs_le_between in Hs. lra.
    + intros j Hj. specialize (Hn j Hj). apply Rabs_le_between in Hn. lra.
    + intros l y Hl Ha' Hy. rewrite (sm_phase_at _ _ SM). apply Hph; auto.
    + destruct Hsp as [c1 c2 c3]. constructor; [exact c1|cbn; lra|exact c3].
    + intros j Hj. specialize (Hp j Hj). apply Rabs_le_between in Hp. cbn beta. change (reflectance (uniform p B) (po_mu out) w (rho 0%nat) j) with (reflectance p (po_mu out) w (rho 0%nat) j). lra.
Qed.
