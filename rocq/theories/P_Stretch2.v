(** Continuous dependence of the reported radiation on all numerical arguments, the thicknesses of the layers included: calls. *)
From Coq Require Import Classical String Reals Lra Lia List Bool Arith ZArith.
From Coquelicot Require Import Coquelicot.
From Verif Require Import Base Tensor Spec M_LinAlg Spec_RTE Calc M_Subroutines M_GenPart M_MathscrV M_Coeffs M_Assemble M_Pydisort
  Spec_Sol Spec_Valid Spec_Calls Spec_Unique Spec_Phys Spec_Mono Spec_Depend Spec_Stretch P_Special P_Addition P_Quad P_Sub P_Solve P_Energy P_Pydisort P_Pydisort2 P_Pydisort3 P_Pydisort4 P_Pydisort5 P_Pydisort6 P_Pydisort8 P_Teq P_NT3 P_Unique2 P_Refine P_Max P_Max2 P_Max3 P_Max4 P_Mono P_Full2 P_Depend P_Depend2 P_Conv2 P_Stretch.
Import ListNotations.
Local Open Scope R_scope.

Lemma corr_theta p q : valid q -> forall t s, corresponds p q t s -> 0 <= s <= bottom q /\ theta p q s = t.
Proof.
  intros Vq t s (l & Hl & Hs & ->). split; [pose proof (layer_in q Vq l Hl); lra|]. apply (theta_layer p q Vq l s Hl Hs).
Qed.
Lemma corr_lay p q : same_frame p q -> valid p -> valid q -> forall t s, corresponds p q t s -> lay p t = lay q s /\ (lay q s < nlayers q)%nat /\ top_of q (lay q s) <= s <= bot_of q (lay q s) /\ t = same_place p q (lay q s) s.
Proof.
  intros SF Vp Vq t s Hc. destruct (corr_theta p q Vq t s Hc) as (Hs & Et). destruct (lay_at q Vq s Hs) as (Hl & Hlt).
  assert (Hx : top_of q (lay q s) <= s <= bot_of q (lay q s)). { destruct Hlt as [Hx|(El & E0)]; [lra|]. rewrite El, E0. split; [cbn; lra|]. apply Rlt_le, (v_tau q Vq). pose proof (v_ne q Vq). lia. }
  assert (E : t = same_place p q (lay q s) s) by (rewrite <- Et; apply (theta_layer p q Vq); auto).
  split; [|auto]. assert (Hlp : (lay q s < nlayers p)%nat) by (rewrite (sf_layers _ _ SF); exact Hl). destruct Hlt as [Hy|(El & E0)].
  - apply (lay_of_at p Vp). split; [exact Hlp|left]. rewrite E. pose proof (place_range p q SF Vp Vq (lay q s) s Hl Hx) as (_ & P2). split; [|exact P2].
    unfold same_place. pose proof (thicker_pos p q SF Vp Vq (lay q s) Hl). nra.
  - assert (t = 0) as -> by (rewrite <- Et, E0; apply (theta_top p q Vq)). rewrite E0. 
    assert (Z : forall r, valid r -> lay r 0 = 0%nat).
    { intros r Vr. assert (0 < bottom r) by (rewrite (bottom_eq r); apply (v_tau r Vr); pose proof (v_ne r Vr); lia). destruct (lay_at r Vr 0 ltac:(lra)) as (Hr & [Hr'|(Er & _)]); [|exact Er].
      pose proof (layer_in r Vr (lay r 0) Hr). lra. }
    rewrite !Z by assumption. reflexivity.
Qed.
Lemma corr_nth p q tau tau' : Forall2 (corresponds p q) tau tau' -> forall k, (k < length tau')%nat -> corresponds p q (nth k tau 0) (nth k tau' 0).
Proof. induction 1 as [|t s tau tau' H _ IH]; intros [|k] Hk; cbn in *; try lia; [exact H|apply IH; lia]. Qed.
Lemma corr_length p q tau tau' : Forall2 (corresponds p q) tau tau' -> length tau = length tau'.
Proof. induction 1; cbn; congruence. Qed.
Lemma corr_depths p q : same_frame p q -> valid p -> valid q -> forall tau tau', Forall2 (corresponds p q) tau tau' -> depths_ok p tau /\ depths_ok q tau'.
Proof.
  intros SF Vp Vq tau tau' H. induction H as [|t s tau tau' H _ [I1 I2]]; [split; intros x []|]. destruct (corr_theta p q Vq t s H) as (Hs & <-).
  split; intros x [<-|Hx]; auto. apply (theta_range p q SF Vp Vq s Hs).
Qed.

Section Calls.
  Variables (p q : py_in) (lg : leggauss_t) (la la' : linalg) (jk jk' : junk) (out out' : py_out).
  Hypothesis Hla : linalg_ok la.
  Hypothesis Hla' : linalg_ok la'.
  Hypothesis Hlg : leggauss_ok (half p) (lg (half p)).
  Hypothesis Hp : pydisort p lg la jk = Ok out.
  Hypothesis Hq : pydisort q lg la' jk' = Ok out'.
  Variables (w : nat -> R) (vn vp vn' vp' : nat -> R) (rho rho' : nat -> R -> R -> R).
  Hypothesis Hw : double_gauss (half p) (po_mu out) w.
  Hypothesis BD : boundary_data p vn vp rho.
  Hypothesis BD' : boundary_data q vn' vp' rho'.
  Hypothesis SF : same_frame p q.
  Hypothesis Kp : scattering_kept p.
  Hypothesis Kq : scattering_kept q.
  Hypothesis Hph : phase_nonneg q (po_mu out).
  Hypothesis Hsurf' : passive_surface q (po_mu out) w (rho' 0%nat).
  Variables e M bm : R.
  Hypothesis DB : deforms_by e M p q (po_mu out) w vn vp vn' vp' (rho 0%nat) (rho' 0%nat).
  Hypothesis BW : beams_within bm p q.

  Lemma stretch_modes U U' : modes_of p out U -> modes_of q out' U' -> (forall i t, (i < streams p)%nat -> 0 <= t <= bottom p -> Rabs (U 0%nat i t) <= M) ->
    forall i t, (i < streams q)%nat -> 0 <= t <= bottom q -> Rabs (U 0%nat i (theta p q t) - U' 0%nat i t) <= e.
  Proof.
    intros HU HU' HM i t Hi Ht. pose proof (call_valid p lg la jk out Hp) as Vp. pose proof (call_valid q lg la' jk' out' Hq) as Vq.
    pose proof (same_mu p q lg la la' jk jk' out out' Hp Hq (sf_NQuad _ _ SF)) as Em. pose proof (sf_half p q SF) as Eh.
    assert (Hw' : double_gauss (half q) (po_mu out') w) by (rewrite <- Em, <- Eh; exact Hw).
    assert (Hlg' : leggauss_ok (half q) (lg (half q))) by (rewrite <- Eh; exact Hlg).
    pose proof (bd_bvp p lg la jk out Hla Hlg Hp w vn vp rho Hw BD U 0%nat HU (seen_0 p Vp)) as B.
    pose proof (bd_bvp q lg la' jk' out' Hla' Hlg' Hq w vn' vp' rho' Hw' BD' U' 0%nat HU' (seen_0 q Vq)) as B'.
    rewrite <- Em in B', Hw'.
    exact (bvp_stretch p q SF Vp Vq Kp Kq (po_mu out) w vn vp vn' vp' (rho 0%nat) (rho' 0%nat) e M Hw' DB (U 0%nat) (U' 0%nat) B B' HM Hph Hsurf' i t Hi Ht).
  Qed.

  Lemma call_stretch0 U : modes_of p out U -> (forall i t, (i < streams p)%nat -> 0 <= t <= bottom p -> Rabs (U 0%nat i t) <= M) -> forall tau tau', Forall2 (corresponds p q) tau tau' ->
    (exists A B, po_u0 out tau false false false = Ok (PVal (PT A)) /\ po_u0 out' tau' false false false = Ok (PVal (PT B)) /\ twithin e A B) /\
    (exists A B, po_flux_up out tau false false = Ok (PVal (PT A)) /\ po_flux_up out' tau' false false = Ok (PVal (PT B)) /\ twithin (PI * e) A B) /\
    (exists A A0 B B0, po_flux_down out tau false false = Ok (PTup [PT A; PT A0]) /\ po_flux_down out' tau' false false = Ok (PTup [PT B; PT B0]) /\ twithin (PI * e + 2 * bm) A B /\ (0 < p_I0 p -> 0 < p_I0 q -> twithin bm A0 B0)).
  Proof.
    intros HU HM tau tau' HC. pose proof (call_valid p lg la jk out Hp) as Vp. pose proof (call_valid q lg la' jk' out' Hq) as Vq.
    pose proof (same_mu p q lg la la' jk jk' out out' Hp Hq (sf_NQuad _ _ SF)) as Em. pose proof (sf_half p q SF) as Eh. pose proof (sf_streams p q SF) as Es.
    assert (Hlg' : leggauss_ok (half q) (lg (half q))) by (rewrite <- Eh; exact Hlg).
    destruct (modes_exist q lg la' jk' out' Hla' Hlg' Hq) as (U' & HU').
    pose proof (stretch_modes U U' HU HU' HM) as HLE.
    destruct (corr_depths p q SF Vp Vq tau tau' HC) as (Ht & Ht'). pose proof (corr_length p q tau tau' HC) as EL.
    assert (Hin : forall k, (k < length tau)%nat -> 0 <= nth k tau' 0 <= bottom q /\ theta p q (nth k tau' 0) = nth k tau 0) by (intros k Hk; apply (corr_theta p q Vq), corr_nth; [exact HC|lia]).
    assert (HLE' : forall i k, (i < streams q)%nat -> (k < length tau)%nat -> Rabs (U 0%nat i (nth k tau 0) - U' 0%nat i (nth k tau' 0)) <= e).
    { intros i k Hi Hk. destruct (Hin k Hk) as (I1 & I2). rewrite <- I2. apply HLE; auto. }
    destruct (call_fluxes p lg la jk out Hla Hlg Hp U HU) as (w1 & D1 & R1 & R1'). destruct (call_fluxes q lg la' jk' out' Hla' Hlg' Hq U' HU') as (w2 & D2 & R2 & R2').
    pose proof (dg_weights _ _ _ _ D1 Hw) as E1. rewrite <- Em, <- Eh in D2. pose proof (dg_weights _ _ _ _ D2 Hw) as E2. rewrite <- Em, <- Eh in R2, R2'.
    assert (Hc : forall i, (i < half p)%nat -> 0 <= w i * nth i (po_mu out) 0).
    { intros i Hi. destruct Hw as (_ & H2 & _). destruct (H2 i Hi) as (P1 & _ & P2). apply Rmult_le_pos; lra. }
    pose proof PI_RGT_0. assert (Hst : streams q = (half p + half p)%nat) by (rewrite (streams_eq q Vq), Eh; lia).
    assert (HS : forall f g, (forall i, (i < half p)%nat -> Rabs (f i - g i) <= e) ->
      Rabs (2 * PI * rsum (half p) (fun i => w1 i * nth i (po_mu out) 0 * f i) - 2 * PI * rsum (half p) (fun i => w2 i * nth i (po_mu out) 0 * g i)) <= PI * e).
    { intros f g Hfg. rewrite <- Rmult_minus_distr_l, <- rsum_minus, Rabs_mult, (Rabs_pos_eq (2 * PI)) by lra.
      apply Rle_trans with (2 * PI * (1 / 2 * e)); [|right; field]. apply Rmult_le_compat_l; [lra|].
      rewrite <- (dg_first (half p) (po_mu out) w (half_pos p Vp) Hw), Rmult_comm, <- rsum_scal. eapply Rle_trans; [apply rsum_abs|]. apply rsum_le. intros i Hi.
      rewrite E1, E2 by auto. rewrite <- Rmult_minus_distr_l, Rabs_mult, (Rabs_pos_eq (w i * _)) by auto. rewrite (Rmult_comm e). apply Rmult_le_compat_l; auto. }
    split; [|split].
    - destruct (proj1 HU tau Ht) as (A & EA & SA). destruct (proj1 HU' tau' Ht') as (B & EB & SB). exists A, B. split; [exact EA|]. split; [exact EB|].
      rewrite <- Es, <- EL in SB. refine (squeezed_within _ _ _ _ _ _ SA SB _). intros idx Hi. apply inb_2 in Hi as (a & b & -> & Ha & Hb). cbn [nth]. apply HLE'; [rewrite <- Es; lia|lia].
    - destruct (R1 tau Ht) as (A & EA & SA). destruct (R2 tau' Ht') as (B & EB & SB). exists A, B. split; [exact EA|]. split; [exact EB|].
      rewrite <- EL in SB. refine (squeezed_within _ _ _ _ _ _ SA SB _). intros idx Hi. apply inb_1 in Hi as (a & -> & Ha). cbn [nth].
      apply (HS (fun i => U 0%nat i (nth a tau 0)) (fun i => U' 0%nat i (nth a tau' 0))). intros i Hi'. apply HLE'; lia.
    - destruct (R1' tau Ht) as (A & A0 & EA & SA & SA0 & _). destruct (R2' tau' Ht') as (B & B0 & EB & SB & SB0 & _). exists A, A0, B, B0. split; [exact EA|]. split; [exact EB|].
      rewrite <- EL in SB, SB0. split.
      2: { intros I1 I2. refine (squeezed_within _ _ _ _ _ _ (SA0 I1) (SB0 I2) _). intros idx Hi. apply inb_1 in Hi as (a & -> & Ha). cbn [nth].
        exact (proj1 (BW _ _ (corr_nth p q tau tau' HC a ltac:(lia)))). }
      refine (squeezed_within _ _ _ _ _ _ SA SB _). intros idx Hi. apply inb_1 in Hi as (a & -> & Ha). cbn [nth].
      destruct (BW _ _ (corr_nth p q tau tau' HC a ltac:(lia))) as [HB' HB].
      pose proof (HS (fun i => U 0%nat (half p + i)%nat (nth a tau 0)) (fun i => U' 0%nat (half p + i)%nat (nth a tau' 0)) ltac:(intros i Hi'; apply HLE'; lia)) as HF. cbv beta in HF.
      fold (direct p (sdepth p (nth a tau 0))). fold (direct q (sdepth q (nth a tau' 0))). rewrite Rabs_minus_sym in HB'.
      match goal with |- Rabs ?x <= _ => match type of HB' with Rabs ?z' <= _ => match type of HF with Rabs ?y <= _ => match type of HB with Rabs ?z <= _ => replace x with (y + z + z') by ring end end end end.
      eapply Rle_trans; [apply Rabs_triang|]. eapply Rle_trans; [apply Rplus_le_compat_r, Rabs_triang|]. lra.
  Qed.
  Theorem call_stretch : u0_bounded p out M -> forall tau tau', Forall2 (corresponds p q) tau tau' ->
    (exists A B, po_u0 out tau false false false = Ok (PVal (PT A)) /\ po_u0 out' tau' false false false = Ok (PVal (PT B)) /\ twithin e A B) /\
    (exists A B, po_flux_up out tau false false = Ok (PVal (PT A)) /\ po_flux_up out' tau' false false = Ok (PVal (PT B)) /\ twithin (PI * e) A B) /\
    (exists A A0 B B0, po_flux_down out tau false false = Ok (PTup [PT A; PT A0]) /\ po_flux_down out' tau' false false = Ok (PTup [PT B; PT B0]) /\ twithin (PI * e + 2 * bm) A B /\ (0 < p_I0 p -> 0 < p_I0 q -> twithin bm A0 B0)).
  Proof.
    intros HB. destruct (modes_exist p lg la jk out Hla Hlg Hp) as (U & HU). apply (call_stretch0 U HU).
    exact (bounded_modes p (call_valid p lg la jk out Hp) out M U HB HU).
  Qed.
End Calls.

Section Near.
  Variables (p q : py_in) (mu : list R) (w vn vp vn' vp' : nat -> R) (rho rho' : R -> R -> R) (d : R).
  Hypothesis Vp : valid p.
  Hypothesis Vq : valid q.
  Hypothesis SF : same_frame p q.
  Hypothesis NB : near_deformed d p q mu vn vp vn' vp' rho rho'.
  Lemma d_nonneg' : 0 <= d. Proof. eapply Rle_trans; [apply Rabs_pos|apply (nd_n _ _ _ _ _ _ _ _ _ _ NB 0%nat), half_pos; exact Vq]. Qed.
  Lemma nd_peak l : (l < nlayers q)%nat -> peak_dist p q l <= 2 * d.
  Proof.
    intros Hl. unfold peak_dist. eapply Rle_trans; [apply (abs_prod _ _ _ _ d d); [apply NB; exact Hl|apply NB; exact Hl]|]. pose proof d_nonneg'.
    pose proof (fwd_range p Vp l). pose proof (albedo_range q Vq l Hl). rewrite !Rabs_pos_eq by lra. nra.
  Qed.
  Lemma nd_scattering l k : (l < nlayers q)%nat -> (k < ncoeffs q)%nat -> Rabs (scattering p l k - scattering q l k) <= 4 * d.
  Proof.
    intros Hl Hk. unfold scattering. pose proof d_nonneg'.
    assert (H1 : Rabs (phase p l k - fwd p l) <= 2).
    { pose proof (phase_abs p Vp l k ltac:(rewrite (sf_layers _ _ SF); exact Hl) ltac:(rewrite (sf_ncoeffs p q SF); exact Hk)) as A. apply Rabs_le_between in A. pose proof (fwd_range p Vp l). apply Rabs_le. lra. }
    eapply Rle_trans; [apply (abs_prod _ _ _ _ d (2 * d)); [apply NB; exact Hl|]|].
    - pose proof (nd_phase _ _ _ _ _ _ _ _ _ _ NB l k Hl Hk) as A1. pose proof (nd_fwd _ _ _ _ _ _ _ _ _ _ NB l Hl) as A2. apply Rabs_le_between in A1. apply Rabs_le_between in A2. apply Rabs_le. lra.
    - pose proof (albedo_range q Vq l Hl). rewrite (Rabs_pos_eq (albedo q l)) by lra. pose proof (Rabs_pos (phase p l k - fwd p l)). nra.
  Qed.
  Lemma nd_sdist l : (l < nlayers q)%nat -> scattering_dist p q l <= 4 * d * n2 q.
  Proof.
    intros Hl. unfold scattering_dist, n2. rewrite <- rsum_scal. apply rsum_le. intros k Hk. pose proof (pos_INR k). pose proof (nd_scattering l k Hl Hk). nra.
  Qed.
  Lemma nd_top l : (l < nlayers q)%nat -> Rabs (top_of p l - top_of q l) <= d.
  Proof.
    intros Hl. destruct l as [|l]; [cbn; rewrite Rminus_eq_0, Rabs_R0; apply d_nonneg'|]. cbn [top_of]. apply (nd_bottom _ _ _ _ _ _ _ _ _ _ NB l). lia.
  Qed.
  Lemma nd_thickness l : (l < nlayers q)%nat -> Rabs (thickness p l - thickness q l) <= 2 * d.
  Proof.
    intros Hl. pose proof (nd_top l Hl) as A1. pose proof (nd_bottom _ _ _ _ _ _ _ _ _ _ NB l Hl) as A2. apply Rabs_le_between in A1. apply Rabs_le_between in A2. apply Rabs_le. unfold thickness. lra.
  Qed.
  Lemma nd_scaled : scaled_dist p q <= 2 * d * (bottom p + INR (nlayers p)).
  Proof.
    unfold scaled_dist. rewrite <- (sf_layers _ _ SF). rewrite Rmult_plus_distr_l, <- (layers_sum p Vp). replace (2 * d * INR (nlayers p)) with (rsum (nlayers p) (fun _ => 2 * d)) by (rewrite rsum_const; ring). rewrite <- rsum_scal, <- rsum_plus. apply rsum_le. intros l Hl.
    rewrite (sf_layers _ _ SF) in Hl. pose proof d_nonneg' as Hd. pose proof (thick_p p q SF Vp l Hl) as Ht. pose proof (scl_pos q Vq l Hl) as Hs. assert (Hs1 : scl q l <= 1) by (unfold scl; pose proof (albedo_range q Vq l Hl); pose proof (fwd_range q Vq l); nra).
    eapply Rle_trans; [apply (abs_prod _ _ _ _ (2 * d) (2 * d)); [|apply nd_thickness; exact Hl]|].
    - rewrite Rabs_minus_sym, peak_scl. apply nd_peak; exact Hl.
    - rewrite (Rabs_pos_eq (thickness p l)), (Rabs_pos_eq (scl q l)) by lra. fold (thickness p l). nra.
  Qed.
  Lemma nd_moved : thickness_dist p q <= 2 * d * (bottom p + INR (nlayers p)).
  Proof.
    unfold thickness_dist. rewrite <- (sf_layers _ _ SF). apply Rle_trans with (rsum (nlayers p) (fun _ => 2 * d)); [apply rsum_le; intros l Hl; apply nd_thickness; rewrite <- (sf_layers _ _ SF); exact Hl|].
    rewrite rsum_const. pose proof d_nonneg'. pose proof (pos_INR (nlayers p)). assert (0 <= bottom p). { rewrite (bottom_eq p). apply Rlt_le, (v_tau p Vp). pose proof (v_ne p Vp). lia. } nra.
  Qed.
  Lemma nd_thicker l k : (l < nlayers q)%nat -> 0 < k <= thickness p l -> 2 * d <= k / 2 -> Rabs (thicker p q l - 1) <= d * (4 / k).
  Proof.
    intros Hl Hk Hd. pose proof (nd_thickness l Hl) as A. pose proof (thick_q q Vq l Hl) as Hq. assert (Hq2 : k / 2 <= thickness q l) by (apply Rabs_le_between in A; lra).
    replace (thicker p q l - 1) with ((thickness p l - thickness q l) * / thickness q l) by (unfold thicker; field; lra). rewrite Rabs_mult, (Rabs_pos_eq (/ thickness q l)) by (apply Rlt_le, Rinv_0_lt_compat; exact Hq).
    replace (d * (4 / k)) with (2 * d * / (k / 2)) by (field; lra). apply Rmult_le_compat; [apply Rabs_pos|apply Rlt_le, Rinv_0_lt_compat; exact Hq|exact A|]. apply Rinv_le_contravar; lra.
  Qed.
  Lemma nd_emission l s S0 : (l < nlayers q)%nat -> top_of q l <= s <= bot_of q l -> Rabs (source p l (same_place p q l s)) <= S0 ->
    Rabs ((1 - albedo p l) * source p l (same_place p q l s) - (1 - albedo q l) * source q l s) <= d * (1 + S0).
  Proof.
    intros Hl Ht HS. eapply Rle_trans; [apply (abs_prod _ _ _ _ d d); [|apply NB; auto]|].
    - replace (1 - albedo p l - (1 - albedo q l)) with (- (albedo p l - albedo q l)) by ring. rewrite Rabs_Ropp. apply NB; exact Hl.
    - pose proof d_nonneg'. pose proof (albedo_range q Vq l Hl). rewrite (Rabs_pos_eq (1 - _)) by lra. pose proof (Rabs_pos (source p l (same_place p q l s))). nra.
  Qed.

  (** The beam. *)
  Let T : R := bottom p + INR (nlayers p).
  Definition q_exp : R := 4 * T / p_mu0 p + 2 * T / (p_mu0 p * p_mu0 p).
  Definition q_dir : R := 1 + 2 * p_I0 p * (1 + q_exp).
  Definition q_beam (L : R) : R := 2 * n2 p + 2 * p_I0 p * (4 * n2 p + 2 * n2 p * L + 2 * n2 p * q_exp).
  Hypothesis D1 : d <= 1.
  Hypothesis DI : 0 < p_I0 p -> d <= p_I0 p / 2.
  Hypothesis Dm : 0 < p_I0 p -> d <= p_mu0 p / 2.
  Lemma T_pos : 0 <= T.
  Proof. unfold T. pose proof (pos_INR (nlayers p)). assert (0 <= bottom p). { rewrite (bottom_eq p). apply Rlt_le, (v_tau p Vp). pose proof (v_ne p Vp). lia. } lra. Qed.
  Lemma near_I0 : 0 <= p_I0 q <= p_I0 p + d /\ (0 < p_I0 p -> 0 < p_I0 q <= 2 * p_I0 p).
  Proof. pose proof (nd_I0 _ _ _ _ _ _ _ _ _ _ NB) as H. apply Rabs_le_between in H. pose proof (v_I0 q Vq). split; [lra|]. intros HI. pose proof (DI HI). lra. Qed.
  Lemma near_mu0 : 0 < p_I0 p -> p_mu0 p / 2 <= p_mu0 q <= 1.
  Proof. intros HI. pose proof (nd_mu0 _ _ _ _ _ _ _ _ _ _ NB) as H. apply Rabs_le_between in H. pose proof (Dm HI). pose proof (v_mu0 q Vq (proj1 (proj2 near_I0 HI))). lra. Qed.
  Lemma q_exp_pos : 0 < p_I0 p -> 0 <= q_exp.
  Proof.
    intros HI. pose proof (v_mu0 p Vp HI) as Hm. pose proof T_pos. assert (0 < / p_mu0 p) by (apply Rinv_0_lt_compat; lra). assert (0 < / (p_mu0 p * p_mu0 p)) by (apply Rinv_0_lt_compat; nra).
    unfold q_exp, Rdiv. apply Rplus_le_le_0_compat; apply Rmult_le_pos; lra.
  Qed.
  Lemma q_dir_pos : 1 <= q_dir.
  Proof. unfold q_dir. destruct (Rle_lt_or_eq_dec 0 (p_I0 p) (v_I0 p Vp)) as [HI|<-]; [|lra]. pose proof (q_exp_pos HI). nra. Qed.
  Lemma q_beam_pos L : 0 <= L -> 0 <= q_beam L.
  Proof.
    intros HL. unfold q_beam. pose proof (n2_nonneg p) as Hn. destruct (Rle_lt_or_eq_dec 0 (p_I0 p) (v_I0 p Vp)) as [HI|<-]; [|lra]. pose proof (q_exp_pos HI).
    assert (0 <= n2 p * L) by (apply Rmult_le_pos; lra). assert (0 <= n2 p * q_exp) by (apply Rmult_le_pos; lra). assert (0 <= p_I0 p * (4 * n2 p + 2 * n2 p * L + 2 * n2 p * q_exp)) by (apply Rmult_le_pos; lra). lra.
  Qed.
  Lemma exp_near x y : 0 < p_I0 p -> 0 <= x <= T -> 0 <= y -> Rabs (x - y) <= 2 * d * T -> Rabs (exp (- x / p_mu0 p) - exp (- y / p_mu0 q)) <= d * q_exp.
  Proof.
    intros HI Hx Hy Hxy. pose proof (v_mu0 p Vp HI) as Hm. pose proof (near_mu0 HI) as Hm'. pose proof d_nonneg' as Hd. pose proof T_pos as HT.
    assert (I1 : 0 < / p_mu0 p) by (apply Rinv_0_lt_compat; lra). assert (I2 : 0 < / p_mu0 q) by (apply Rinv_0_lt_compat; lra).
    assert (I3 : / p_mu0 q <= 2 * / p_mu0 p). { replace (2 * / p_mu0 p) with (/ (p_mu0 p / 2)) by (field; lra). apply Rinv_le_contravar; lra. }
    replace (- x / p_mu0 p) with (- (x * / p_mu0 p)) by (field; lra). replace (- y / p_mu0 q) with (- (y * / p_mu0 q)) by (field; lra).
    eapply Rle_trans; [apply exp_lip; apply Rmult_le_pos; lra|].
    replace (x * / p_mu0 p - y * / p_mu0 q) with ((x - y) * / p_mu0 q + x * (p_mu0 q - p_mu0 p) * (/ p_mu0 p * / p_mu0 q)) by (field; lra).
    eapply Rle_trans; [apply Rabs_triang|]. rewrite !Rabs_mult, (Rabs_pos_eq (/ p_mu0 q)), (Rabs_pos_eq (/ p_mu0 p)), (Rabs_pos_eq x) by lra.
    unfold q_exp. replace (d * (4 * T / p_mu0 p + 2 * T / (p_mu0 p * p_mu0 p))) with (2 * d * T * (2 * / p_mu0 p) + T * d * (/ p_mu0 p * (2 * / p_mu0 p))) by (field; lra).
    apply Rplus_le_compat; [apply Rmult_le_compat; try lra; apply Rabs_pos|].
    pose proof (nd_mu0 _ _ _ _ _ _ _ _ _ _ NB) as H. rewrite Rabs_minus_sym in H.
    apply Rmult_le_compat; [apply Rmult_le_pos; [lra|apply Rabs_pos]|apply Rmult_le_pos; lra| |apply Rmult_le_compat_l; lra]. apply Rmult_le_compat; try lra. apply Rabs_pos.
  Qed.
  Lemma exp_le1 r x : 0 < p_mu0 r -> 0 <= x -> 0 < exp (- x / p_mu0 r) <= 1.
  Proof.
    intros Hm Hx. split; [apply exp_pos|]. rewrite <- exp_0. apply exp_mono. assert (0 < / p_mu0 r) by (apply Rinv_0_lt_compat; lra).
    assert (0 <= x * / p_mu0 r) by (apply Rmult_le_pos; lra). unfold Rdiv in *. lra.
  Qed.
  Lemma direct_range r x : valid r -> 0 <= x -> 0 <= direct r x <= p_I0 r.
  Proof.
    intros Vr Hx. unfold direct. pose proof (v_I0 r Vr) as H0. destruct (Rle_lt_or_eq_dec 0 (p_I0 r) H0) as [HI|<-]; [|rewrite Rmult_0_r, Rmult_0_l; lra].
    pose proof (v_mu0 r Vr HI) as Hm. pose proof (exp_le1 r x ltac:(lra) Hx) as He. assert (0 <= p_mu0 r * p_I0 r <= p_I0 r) by nra. split; [apply Rmult_le_pos; lra|]. nra.
  Qed.
  Lemma direct_near x y : 0 <= x <= T -> 0 <= y -> Rabs (x - y) <= 2 * d * T -> Rabs (direct p x - direct q y) <= d * q_dir.
  Proof.
    intros Hx Hy Hxy. pose proof d_nonneg' as Hd. pose proof q_dir_pos as Hq. destruct near_I0 as [HI1 HI2]. destruct (Rle_lt_or_eq_dec 0 (p_I0 p) (v_I0 p Vp)) as [HI|HI].
    - specialize (HI2 HI). pose proof (v_mu0 p Vp HI) as Hm. pose proof (near_mu0 HI) as Hm'. pose proof (exp_near x y HI Hx Hy Hxy) as HE. pose proof (exp_le1 p x ltac:(lra) ltac:(lra)) as H1. pose proof (exp_le1 q y ltac:(lra) Hy) as H2.
      pose proof (q_exp_pos HI) as HQ. unfold direct. rewrite (Rmult_comm (p_mu0 p)), (Rmult_comm (p_mu0 q)), !Rmult_assoc.
      eapply Rle_trans; [apply (abs_prod _ _ _ _ d (d * (1 + q_exp))); [apply NB|]|].
      + eapply Rle_trans; [apply (abs_prod _ _ _ _ d (d * q_exp)); [apply NB|exact HE]|]. rewrite !Rabs_pos_eq by lra. assert (0 <= d * q_exp) by (apply Rmult_le_pos; lra). nra.
      + rewrite (Rabs_pos_eq (p_I0 q)), (Rabs_pos_eq (p_mu0 p * _)) by (try apply Rmult_le_pos; lra). unfold q_dir.
        assert (p_mu0 p * exp (- x / p_mu0 p) <= 1) by nra. assert (p_I0 q * (d * (1 + q_exp)) <= 2 * p_I0 p * (d * (1 + q_exp))) by (apply Rmult_le_compat_r; [apply Rmult_le_pos; lra|lra]). nra.
    - unfold direct at 1. rewrite <- HI, Rmult_0_r, Rmult_0_l. pose proof (direct_range q y Vq Hy). rewrite Rabs_minus_sym, Rabs_pos_eq by lra. unfold q_dir in *. rewrite <- HI in *. lra.
  Qed.
  Lemma depth_le r l t : valid r -> (l < nlayers r)%nat -> top_of r l <= t <= bot_of r l -> 0 <= depth_s r l t <= t.
  Proof.
    intros Vr Hl Ht. split; [apply (depth_nonneg r Vr); auto; lra|]. unfold depth_s.
    assert (K : rsum l (fun k => scl r k * (bot_of r k - top_of r k)) <= top_of r l).
    { rewrite top_sum. apply rsum_le. intros k Hk. pose proof (scl_pos r Vr k ltac:(lia)). pose proof (v_inc r Vr k ltac:(lia)). unfold thickness. nra. }
    pose proof (scl_pos r Vr l Hl). nra.
  Qed.
  Lemma beams_near : beams_within (d * q_dir) p q.
  Proof.
    intros t s Hc. destruct (corr_lay p q SF Vp Vq t s Hc) as (L1 & L2 & L3 & L4). pose proof (pos_INR (nlayers p)) as HN.
    pose proof (place_range p q SF Vp Vq (lay q s) s L2 L3) as HP. rewrite <- L4 in HP. assert (L2' : (lay q s < nlayers p)%nat) by (rewrite (sf_layers _ _ SF); exact L2).
    pose proof (layer_in p Vp _ L2') as HL. pose proof (layer_in q Vq _ L2) as HL'. pose proof (depth_le p (lay q s) t Vp L2' HP) as HD. pose proof (depth_le q (lay q s) s Vq L2 L3) as HD'.
    split; apply direct_near.
    - unfold T. lra.
    - lra.
    - pose proof (place_near p q Vq (lay q s) s L2 L3) as K. rewrite <- L4 in K. pose proof nd_moved as Zs. fold T in Zs. lra.
    - unfold sdepth. rewrite L1. unfold T. lra.
    - unfold sdepth. lra.
    - unfold sdepth. rewrite L1. pose proof (depth_place p q Vq (lay q s) s L2 L3) as K. rewrite <- L4 in K. pose proof nd_scaled as Zs. fold T in Zs. lra.
  Qed.
  Lemma beam_sum r l x (Vr : valid r) : (l < nlayers r)%nat -> -1 <= x <= 1 -> 0 < p_mu0 r <= 1 ->
    Rabs (rsum (ncoeffs r) (fun k => (2 * INR k + 1) * scattering r l k * legendre k x * legendre k (- p_mu0 r))) <= 2 * n2 r.
  Proof.
    intros Hl Hx Hm. apply Rle_trans with (2 := nb_size r Vr l Hl). unfold scattering_size. eapply Rle_trans; [apply rsum_abs|]. apply rsum_le. intros k Hk.
    replace ((2 * INR k + 1) * scattering r l k * legendre k x * legendre k (- p_mu0 r)) with ((2 * INR k + 1) * (scattering r l k * (legendre k x * legendre k (- p_mu0 r)))) by ring.
    pose proof (pos_INR k). rewrite Rabs_mult, (Rabs_pos_eq (2 * INR k + 1)) by lra. apply Rmult_le_compat_l; [lra|]. rewrite Rabs_mult.
    pose proof (leg_prod k x (- p_mu0 r) Hx ltac:(lra)). pose proof (Rabs_pos (scattering r l k)). nra.
  Qed.
  Lemma n2_same : n2 q = n2 p.
  Proof. unfold n2. rewrite (sf_ncoeffs p q SF). reflexivity. Qed.
  Lemma beam_near_d L l x s : 0 <= L -> (forall k y y', (k < ncoeffs p)%nat -> -1 <= y <= 1 -> -1 <= y' <= 1 -> Rabs (legendre k y - legendre k y') <= L * Rabs (y - y')) ->
    (l < nlayers q)%nat -> -1 <= x <= 1 -> top_of q l <= s <= bot_of q l ->
    Rabs (beam_source p l x (same_place p q l s) - beam_source q l x s) <= d * q_beam L.
  Proof.
    intros HL Hleg Hl Hx Hs. pose proof d_nonneg' as Hd. destruct near_I0 as [HI1 HI2]. pose proof (n2_nonneg p) as Hn. pose proof PI2_3_2 as HPI.
    assert (Hl' : (l < nlayers p)%nat) by (rewrite (sf_layers _ _ SF); exact Hl). pose proof (place_range p q SF Vp Vq l s Hl Hs) as HP.
    pose proof (depth_le p l _ Vp Hl' HP) as HD. pose proof (depth_le q l s Vq Hl Hs) as HD'. pose proof (layer_in p Vp _ Hl') as HLp. pose proof (pos_INR (nlayers p)) as HN.
    assert (Hi4 : 0 < / (4 * PI) <= 1). { split; [apply Rinv_0_lt_compat; lra|]. rewrite <- Rinv_1. apply Rinv_le_contravar; lra. }
    set (Sp := rsum (ncoeffs p) (fun k => (2 * INR k + 1) * scattering p l k * legendre k x * legendre k (- p_mu0 p))).
    set (Sq := rsum (ncoeffs q) (fun k => (2 * INR k + 1) * scattering q l k * legendre k x * legendre k (- p_mu0 q))).
    assert (HSq : 0 < p_I0 q -> Rabs Sq <= 2 * n2 p) by (intros HI; rewrite <- n2_same; apply beam_sum; auto; apply (v_mu0 q Vq HI)).
    assert (Ep : beam_source p l x (same_place p q l s) = / (4 * PI) * (p_I0 p * (Sp * exp (- depth_s p l (same_place p q l s) / p_mu0 p)))) by (unfold beam_source; fold Sp; unfold Rdiv; ring).
    assert (Eq : beam_source q l x s = / (4 * PI) * (p_I0 q * (Sq * exp (- depth_s q l s / p_mu0 q)))) by (unfold beam_source; fold Sq; unfold Rdiv; ring).
    rewrite Ep, Eq, <- Rmult_minus_distr_l, Rabs_mult, (Rabs_pos_eq (/ (4 * PI))) by lra. pose proof (q_beam_pos L HL) as HQB.
    apply Rle_trans with (1 * (d * q_beam L)); [|lra]. apply Rmult_le_compat; [lra|apply Rabs_pos|lra|].
    destruct (Rle_lt_or_eq_dec 0 (p_I0 p) (v_I0 p Vp)) as [HI|HI].
    - specialize (HI2 HI). pose proof (v_mu0 p Vp HI) as Hm. pose proof (near_mu0 HI) as Hm'. pose proof (q_exp_pos HI) as HQ. specialize (HSq (proj1 HI2)).
      assert (HSp : Rabs Sp <= 2 * n2 p) by (apply beam_sum; auto; lra).
      pose proof (exp_le1 p (depth_s p l (same_place p q l s)) ltac:(lra) ltac:(lra)) as H1.
      assert (HE : Rabs (exp (- depth_s p l (same_place p q l s) / p_mu0 p) - exp (- depth_s q l s / p_mu0 q)) <= d * q_exp).
      { apply exp_near; [exact HI|unfold T; lra|lra|]. pose proof (depth_place p q Vq l s Hl Hs). pose proof nd_scaled as Zs. fold T in Zs. lra. }
      assert (HS : Rabs (Sp - Sq) <= d * (4 * n2 p + 2 * n2 p * L)).
      { unfold Sp, Sq. rewrite (sf_ncoeffs p q SF), <- rsum_minus. replace (d * (4 * n2 p + 2 * n2 p * L)) with (d * (4 + 2 * L) * n2 q) by (rewrite n2_same; ring). unfold n2. rewrite <- rsum_scal.
        eapply Rle_trans; [apply rsum_abs|]. apply rsum_le. intros k Hk. pose proof (pos_INR k) as Hk0.
        replace ((2 * INR k + 1) * scattering p l k * legendre k x * legendre k (- p_mu0 p) - (2 * INR k + 1) * scattering q l k * legendre k x * legendre k (- p_mu0 q))
          with ((2 * INR k + 1) * (legendre k x * (scattering p l k * legendre k (- p_mu0 p) - scattering q l k * legendre k (- p_mu0 q)))) by ring.
        rewrite Rabs_mult, (Rabs_pos_eq (2 * INR k + 1)), (Rmult_comm (d * (4 + 2 * L))) by lra. apply Rmult_le_compat_l; [lra|]. rewrite Rabs_mult.
        assert (HA : Rabs (scattering p l k * legendre k (- p_mu0 p) - scattering q l k * legendre k (- p_mu0 q)) <= d * (4 + 2 * L)).
        { eapply Rle_trans; [apply (abs_prod _ _ _ _ (4 * d) (L * d)); [apply nd_scattering; auto|]|].
          - eapply Rle_trans; [apply Hleg; [rewrite (sf_ncoeffs p q SF); exact Hk|lra|lra]|]. apply Rmult_le_compat_l; [exact HL|]. replace (- p_mu0 p - - p_mu0 q) with (- (p_mu0 p - p_mu0 q)) by ring. rewrite Rabs_Ropp. apply NB.
          - pose proof (legendre_abs k (- p_mu0 p) ltac:(lra)) as La. assert (Hsc : Rabs (scattering q l k) <= 2).
            { pose proof (phase_abs q Vq l k Hl Hk) as A. apply Rabs_le_between in A. pose proof (fwd_range q Vq l). pose proof (albedo_range q Vq l Hl). unfold scattering. apply Rabs_le. nra. }
            assert (0 <= L * d) by (apply Rmult_le_pos; lra). pose proof (Rabs_pos (scattering q l k)). pose proof (Rabs_pos (legendre k (- p_mu0 p))). nra. }
        pose proof (legendre_abs k x Hx) as La. pose proof (Rabs_pos (legendre k x)).
        match type of HA with ?z <= _ => assert (0 <= z) by apply Rabs_pos; set (Zz := z) in * end. nra. }
      assert (HSE : Rabs (Sp * exp (- depth_s p l (same_place p q l s) / p_mu0 p) - Sq * exp (- depth_s q l s / p_mu0 q)) <= d * (4 * n2 p + 2 * n2 p * L) + d * (2 * n2 p * q_exp)).
      { eapply Rle_trans; [apply (abs_prod _ _ _ _ _ _ HS HE)|]. rewrite (Rabs_pos_eq (exp _)) by lra. assert (0 <= d * (4 * n2 p + 2 * n2 p * L)) by (apply Rle_trans with (2 := HS); apply Rabs_pos).
        assert (0 <= d * q_exp) by (apply Rmult_le_pos; lra). pose proof (Rabs_pos Sq). apply Rplus_le_compat; [nra|]. replace (d * (2 * n2 p * q_exp)) with (2 * n2 p * (d * q_exp)) by ring. apply Rmult_le_compat_r; lra. }
      eapply Rle_trans; [apply (abs_prod _ _ _ _ d _ (nd_I0 _ _ _ _ _ _ _ _ _ _ NB) HSE)|]. rewrite Rabs_mult, (Rabs_pos_eq (exp _)), (Rabs_pos_eq (p_I0 q)) by lra.
      replace (d * q_beam L) with (d * (2 * n2 p) + 2 * p_I0 p * (d * (4 * n2 p + 2 * n2 p * L) + d * (2 * n2 p * q_exp))) by (unfold q_beam; ring).
      apply Rplus_le_compat; [apply Rmult_le_compat_l; [lra|]; pose proof (Rabs_pos Sp); nra|]. apply Rmult_le_compat_r; [apply Rle_trans with (2 := HSE); apply Rabs_pos|lra].
    - unfold q_beam. rewrite <- HI in *. rewrite Rmult_0_l, Rminus_0_l, Rabs_Ropp, Rmult_0_r, Rmult_0_l, Rplus_0_r. destruct (Rle_lt_or_eq_dec 0 (p_I0 q) (v_I0 q Vq)) as [HIq|<-].
      2: { rewrite Rmult_0_l, Rabs_R0. apply Rmult_le_pos; lra. }
      pose proof (v_mu0 q Vq HIq). pose proof (exp_le1 q (depth_s q l s) ltac:(lra) ltac:(lra)). rewrite !Rabs_mult, (Rabs_pos_eq (p_I0 q)), (Rabs_pos_eq (exp _)) by lra. specialize (HSq HIq). pose proof (Rabs_pos Sq).
      apply Rmult_le_compat; [lra|apply Rmult_le_pos; lra|lra|]. nra.
  Qed.
  Lemma mirror_near i Rm : (i < half q)%nat -> Rabs (reflects p rho (nth i mu 0) (p_mu0 p)) <= Rm ->
    Rabs (beam_mirror p rho (nth i mu 0) - beam_mirror q rho' (nth i mu 0)) <= d * (q_dir * Rm + (p_I0 p + 1)).
  Proof.
    intros Hi HR. pose proof d_nonneg' as Hd. destruct near_I0 as [HI1 _]. pose proof PI2_3_2 as HPI. pose proof (v_ne p Vp) as Hnp. pose proof (v_ne q Vq) as Hnq. pose proof q_dir_pos as Hq. pose proof (pos_INR (nlayers p)) as HN.
    assert (Hi4 : 0 < / PI <= 1). { split; [apply Rinv_0_lt_compat; lra|]. rewrite <- Rinv_1. apply Rinv_le_contravar; lra. }
    set (xp := depth_s p (nlayers p - 1) (bottom p)). set (xq := depth_s q (nlayers q - 1) (bottom q)).
    assert (E : forall r x z, p_mu0 r * p_I0 r / PI * z * exp (- x / p_mu0 r) = / PI * (direct r x * z)) by (intros; unfold direct, Rdiv; ring).
    unfold beam_mirror. fold xp. fold xq. rewrite (E p xp), (E q xq), <- Rmult_minus_distr_l, Rabs_mult, (Rabs_pos_eq (/ PI)) by lra.
    pose proof (last_range q Vq) as LQ. pose proof (depth_le q (nlayers q - 1) (bottom q) Vq ltac:(lia) LQ) as Hxq. fold xq in Hxq. pose proof (last_range p Vp) as LP. pose proof (depth_le p (nlayers p - 1) (bottom p) Vp ltac:(lia) LP) as Hxp. fold xp in Hxp.
    assert (HD : Rabs (direct p xp - direct q xq) <= d * q_dir).
    { apply direct_near; [unfold T; lra|lra|]. pose proof (depth_place p q Vq (nlayers q - 1) (bottom q) ltac:(lia) LQ) as K. rewrite (sf_bottom_place p q SF Vq) in K. rewrite <- (sf_layers _ _ SF) in K at 1. fold xp in K. fold xq in K. pose proof nd_scaled as Zs. fold T in Zs. lra. }
    pose proof (direct_range q xq Vq ltac:(lra)) as HQ. pose proof (Rabs_pos (reflects p rho (nth i mu 0) (p_mu0 p))) as HR0.
    match goal with |- _ * Rabs ?z <= ?y => assert (K : Rabs z <= y) end; [|match type of K with Rabs ?z <= _ => pose proof (Rabs_pos z) end; nra].
    eapply Rle_trans; [apply (abs_prod _ _ _ _ _ _ HD (nd_rho0 _ _ _ _ _ _ _ _ _ _ NB i Hi))|]. rewrite (Rabs_pos_eq (direct q xq)) by lra.
    assert (0 <= d * q_dir) by (apply Rmult_le_pos; lra). assert (d * q_dir * Rabs (reflects p rho (nth i mu 0) (p_mu0 p)) <= d * q_dir * Rm) by (apply Rmult_le_compat_l; lra). assert (direct q xq * d <= (p_I0 p + 1) * d) by (apply Rmult_le_compat_r; lra). lra.
  Qed.
  Hypothesis Hdg : double_gauss (half q) mu w.
  Lemma surface_near i M : 0 <= M -> (i < half q)%nat ->
    2 * rsum (half q) (fun j => Rabs (reflects p rho (nth i mu 0) (nth j mu 0) - reflects q rho' (nth i mu 0) (nth j mu 0)) * nth j mu 0 * w j) * M <= d * M.
  Proof.
    intros HM Hi. apply Rmult_le_compat_r; [exact HM|]. apply Rle_trans with (2 * (d * (1 / 2))); [|lra]. apply Rmult_le_compat_l; [lra|].
    rewrite <- (dg_first (half q) mu w (half_pos q Vq) Hdg), <- rsum_scal. apply rsum_le. intros j Hj. destruct Hdg as (_ & H2 & _). destruct (H2 j Hj) as (P1 & _ & P2).
    rewrite Rmult_assoc, (Rmult_comm (nth j mu 0)). apply Rmult_le_compat_r; [apply Rmult_le_pos; lra|]. apply NB; assumption.
  Qed.
  Lemma reflectance_near i : (i < half q)%nat -> reflectance q mu w rho' i <= reflectance p mu w rho i + d.
  Proof.
    intros Hi. pose proof d_nonneg' as Hd.
    assert (E : forall r g, reflectance r mu w g i = 2 * rsum (half r) (fun j => reflects r g (nth i mu 0) (nth j mu 0) * nth j mu 0 * w j)).
    { intros r g. unfold reflectance, reflects. destruct (Nat.ltb 0 (length (p_BDRF r))); [reflexivity|]. rewrite (rsum_ext _ _ (fun _ => 0)) by (intros; ring). rewrite rsum_const. ring. }
    rewrite !E, (sf_half p q SF). replace (2 * rsum (half q) (fun j => reflects p rho (nth i mu 0) (nth j mu 0) * nth j mu 0 * w j) + d) with (2 * (rsum (half q) (fun j => reflects p rho (nth i mu 0) (nth j mu 0) * nth j mu 0 * w j) + d * (1 / 2))) by field.
    apply Rmult_le_compat_l; [lra|]. rewrite <- (dg_first (half q) mu w (half_pos q Vq) Hdg), <- rsum_scal, <- rsum_plus. apply rsum_le. intros j Hj. destruct Hdg as (_ & H2 & _). destruct (H2 j Hj) as (P1 & _ & P2).
    pose proof (nd_rho _ _ _ _ _ _ _ _ _ _ NB i j Hi Hj) as A. apply Rabs_le_between in A. assert (0 <= w j * nth j mu 0) by (apply Rmult_le_pos; lra). nra.
  Qed.
End Near.

(** Changes of the arguments that are small enough have small effects. *)
Lemma deform_small p (Vp : valid p) mu w rho M : 0 <= M -> double_gauss (half p) mu w -> (forall i, (i < half p)%nat -> reflectance p mu w rho i < 1) ->
  forall e, 0 < e -> exists d, 0 < d /\
  forall q vn vp vn' vp' rho', valid q -> same_frame p q -> near_deformed d p q mu vn vp vn' vp' rho rho' ->
  deforms_by e M p q mu w vn vp vn' vp' rho rho' /\ beams_within e p q /\ (0 < p_I0 p -> 0 < p_I0 q).
Proof.
  intros HM0 Hw Hr e He. pose proof (v_I0 p Vp) as HI. pose proof PI_RGT_0 as HPI. assert (Hbot : 0 < bottom p). { rewrite (bottom_eq p). apply (v_tau p Vp). pose proof (v_ne p Vp). lia. }
  destruct (pos_lower (nlayers p) (fun l => 1 - albedo p l)) as (ka & Hka & Hal); [intros l Hl; pose proof (albedo_range p Vp l Hl); lra|].
  destruct (pos_lower (nlayers p) (thickness p)) as (kt & Hkt & Hktl); [intros l Hl; unfold thickness; pose proof (v_inc p Vp l Hl); lra|].
  destruct (pos_lower (half p) (fun i => 1 - reflectance p mu w rho i)) as (kr & Hkr & Hrl); [intros i Hi; pose proof (Hr i Hi); lra|].
  destruct (fin_upper (half p) (fun i => reflects p rho (nth i mu 0) (p_mu0 p))) as (Rm & HRm & HRl).
  destruct (source_bounded p Vp) as (S0 & HS0 & HSl).
  set (n := n2 p). pose proof (n2_nonneg p) as Hn. fold n in Hn. set (T := bottom p + INR (nlayers p)). assert (HT : 0 < T) by (unfold T; pose proof (pos_INR (nlayers p)); lra).
  destruct (leg_lips (ncoeffs p)) as (L & HL & Hleg).
  set (Bm := q_beam p L). assert (HBm : 0 <= Bm) by (apply (q_beam_pos p Vp); exact HL).
  set (Dq := q_dir p). assert (HDq : 1 <= Dq) by apply (q_dir_pos p Vp).
  set (Z := (1 + 2 * n) * M + p_I0 p / (4 * PI) * (2 * n) + S0). assert (HI4 : 0 <= p_I0 p / (4 * PI)) by (apply Rmult_le_pos; [lra|apply Rlt_le, Rinv_0_lt_compat; lra]). assert (HZ : 0 <= Z) by (unfold Z; nra).
  assert (Hk4 : 0 < 4 / kt) by (apply Rdiv_lt_0_compat; lra).
  set (C1 := (2 + 4 * n) * M + Bm + (1 + S0) + 4 / kt * Z). assert (HC1 : 0 < C1) by (unfold C1; nra).
  set (C2 := 1 + (Dq * Rm + (p_I0 p + 1)) + M). assert (HC2 : 0 < C2) by (unfold C2; assert (0 <= Dq * Rm) by (apply Rmult_le_pos; lra); lra).
  set (C3 := Dq). assert (HC3 : 0 < C3) by (unfold C3; lra).
  set (kb := if Rlt_dec 0 (p_I0 p) then Rmin (p_I0 p / 2) (p_mu0 p / 2) else 1).
  assert (Hkb : 0 < kb). { unfold kb. destruct (Rlt_dec 0 (p_I0 p)) as [H|H]; [|lra]. pose proof (v_mu0 p Vp H). apply Rmin_pos; lra. }
  set (d := Rmin (kt / 4) (Rmin (ka / 2) (Rmin (ka / 2 * e / C1) (Rmin (kr / 2 * e / C2) (Rmin (e / C3) (Rmin (e) (Rmin (1) (Rmin (kb) (kr / 2))))))))).
  assert (DT : d <= kt / 4) by (unfold d; repeat first [apply Rle_refl | apply Rmin_l | eapply Rle_trans; [apply Rmin_r|]]).
  assert (D1 : d <= ka / 2) by (unfold d; repeat first [apply Rle_refl | apply Rmin_l | eapply Rle_trans; [apply Rmin_r|]]).
  assert (D2 : d <= ka / 2 * e / C1) by (unfold d; repeat first [apply Rle_refl | apply Rmin_l | eapply Rle_trans; [apply Rmin_r|]]).
  assert (D3 : d <= kr / 2 * e / C2) by (unfold d; repeat first [apply Rle_refl | apply Rmin_l | eapply Rle_trans; [apply Rmin_r|]]).
  assert (D4 : d <= e / C3) by (unfold d; repeat first [apply Rle_refl | apply Rmin_l | eapply Rle_trans; [apply Rmin_r|]]).
  assert (D5 : d <= e) by (unfold d; repeat first [apply Rle_refl | apply Rmin_l | eapply Rle_trans; [apply Rmin_r|]]).
  assert (D6 : d <= 1) by (unfold d; repeat first [apply Rle_refl | apply Rmin_l | eapply Rle_trans; [apply Rmin_r|]]).
  assert (D7 : d <= kb) by (unfold d; repeat first [apply Rle_refl | apply Rmin_l | eapply Rle_trans; [apply Rmin_r|]]).
  assert (D8 : d <= kr / 2) by (unfold d; repeat first [apply Rle_refl | apply Rmin_l | eapply Rle_trans; [apply Rmin_r|]]).
  assert (D0 : 0 < d). { unfold d. repeat apply Rmin_pos; try lra; apply Rdiv_lt_0_compat; try lra; apply Rmult_lt_0_compat; lra. }
  clearbody d. exists d. split; [exact D0|].
  assert (D2' : d * C1 <= ka / 2 * e) by (apply (Rmult_le_reg_r (/ C1)); [apply Rinv_0_lt_compat; lra|]; replace (d * C1 * / C1) with d by (field; lra); exact D2).
  assert (D3' : d * C2 <= kr / 2 * e) by (apply (Rmult_le_reg_r (/ C2)); [apply Rinv_0_lt_compat; lra|]; replace (d * C2 * / C2) with d by (field; lra); exact D3).
  assert (D4' : d * C3 <= e) by (apply (Rmult_le_reg_r (/ C3)); [apply Rinv_0_lt_compat; lra|]; replace (d * C3 * / C3) with d by (field; lra); exact D4).
  intros q vn vp vn' vp' rho' Vq SF NB.
  assert (Enl : nlayers p = nlayers q) by apply (sf_layers _ _ SF). assert (Eh : half p = half q) by apply (sf_half p q SF).
  assert (En : n2 q = n) by (unfold n, n2; rewrite (sf_ncoeffs p q SF); reflexivity).
  assert (DI : 0 < p_I0 p -> d <= p_I0 p / 2). { intros H. unfold kb in D7. destruct (Rlt_dec 0 (p_I0 p)); [|contradiction]. eapply Rle_trans; [exact D7|apply Rmin_l]. }
  assert (Dm : 0 < p_I0 p -> d <= p_mu0 p / 2). { intros H. unfold kb in D7. destruct (Rlt_dec 0 (p_I0 p)); [|contradiction]. eapply Rle_trans; [exact D7|apply Rmin_r]. }
  assert (Hw' : double_gauss (half q) mu w) by (rewrite <- Eh; exact Hw).
  pose proof (beams_near p q mu vn vp vn' vp' rho rho' d Vp Vq SF NB DI Dm) as BW. fold Dq in BW.
  assert (CB : deforms_by e M p q mu w vn vp vn' vp' rho rho').
  { constructor.
    - intros l i t Hl Hi Htl. assert (Hxi : -1 <= nth i mu 0 <= 1) by (pose proof (node q Vq mu w Hw' i ltac:(rewrite <- (streams_eq q Vq); exact Hi)); lra). pose proof (Hal l ltac:(rewrite Enl; exact Hl)) as A1. pose proof (nd_albedo _ _ _ _ _ _ _ _ _ _ NB l Hl) as A2. apply Rabs_le_between in A2.
      apply Rle_trans with (ka / 2 * e); [|apply Rmult_le_compat_r; lra]. apply Rle_trans with (2 := D2'). unfold C1. replace (d * ((2 + 4 * n) * M + Bm + (1 + S0) + 4 / kt * Z)) with (d * ((2 + 4 * n) * M) + d * Bm + d * (1 + S0) + d * (4 / kt) * Z) by ring.
      pose proof (nd_peak p q mu vn vp vn' vp' rho rho' d Vp Vq NB l Hl) as P1. pose proof (nd_sdist p q mu vn vp vn' vp' rho rho' d Vp Vq SF NB l Hl) as P2. pose proof (nb_size q Vq l Hl) as P3. rewrite En in P2, P3.
      pose proof (sdist_nonneg p q l) as P4. pose proof (size_nonneg q l) as P5.
      pose proof (place_range p q SF Vp Vq l t Hl Htl) as HPl. assert (HSp : Rabs (source p l (same_place p q l t)) <= S0). { apply HSl; [rewrite Enl; exact Hl|]. pose proof (layer_in p Vp l ltac:(rewrite Enl; exact Hl)). lra. }
      apply Rplus_le_compat; [apply Rplus_le_compat; [apply Rplus_le_compat|]|].
      + replace (d * ((2 + 4 * n) * M)) with ((2 * d + 4 * d * n) * M) by ring. apply Rmult_le_compat_r; lra.
      + apply (beam_near_d p q mu vn vp vn' vp' rho rho' d Vp Vq SF NB DI Dm L l _ t HL Hleg Hl Hxi Htl).
      + apply (nd_emission p q mu vn vp vn' vp' rho rho' d Vq NB l t S0 Hl Htl HSp).
      + apply Rmult_le_compat; [apply Rabs_pos| | |].
        * pose proof (size_nonneg p l). pose proof (albedo_range p Vp l ltac:(rewrite Enl; exact Hl)). pose proof (Rabs_pos (source p l (same_place p q l t))). assert (0 <= p_I0 p / (4 * PI) * scattering_size p l) by (apply Rmult_le_pos; lra). nra.
        * apply (nd_thicker p q mu vn vp vn' vp' rho rho' d Vq NB l kt Hl); [split; [lra|apply Hktl; rewrite Enl; exact Hl]|lra].
        * pose proof (nb_size p Vp l ltac:(rewrite Enl; exact Hl)) as P6. fold n in P6. pose proof (size_nonneg p l) as P7. pose proof (albedo_range p Vp l ltac:(rewrite Enl; exact Hl)) as P8. unfold Z.
          apply Rplus_le_compat; [apply Rplus_le_compat; [apply Rmult_le_compat_r; lra|apply Rmult_le_compat_l; lra]|]. pose proof (Rabs_pos (source p l (same_place p q l t))). nra.
    - intros i Hi. eapply Rle_trans; [apply (nd_n _ _ _ _ _ _ _ _ _ _ NB i Hi)|]. exact D5.
    - intros i Hi. pose proof (Hrl i ltac:(rewrite Eh; exact Hi)) as R1. cbv beta in R1. pose proof (reflectance_near p q mu w vn vp vn' vp' rho rho' d Vq SF NB Hw' i Hi) as R2.
      apply Rle_trans with (kr / 2 * e); [|apply Rmult_le_compat_r; lra]. apply Rle_trans with (2 := D3'). unfold C2. replace (d * (1 + (Dq * Rm + (p_I0 p + 1)) + M)) with (d + d * (Dq * Rm + (p_I0 p + 1)) + d * M) by ring.
      apply Rplus_le_compat; [apply Rplus_le_compat|].
      + apply (nd_p _ _ _ _ _ _ _ _ _ _ NB i Hi).
      + apply (mirror_near p q mu vn vp vn' vp' rho rho' d Vp Vq SF NB D6 DI Dm i Rm Hi). apply HRl. rewrite Eh; exact Hi.
      + apply (surface_near p q mu w vn vp vn' vp' rho rho' d Vq NB Hw' i M HM0 Hi). }
  split; [exact CB|]. split.
  - intros t s Hc. destruct (BW t s Hc) as [X1 X2]. unfold C3 in D4'. split; lra.
  - intros HI0. exact (proj1 (proj2 (near_I0 p q mu vn vp vn' vp' rho rho' d Vq NB DI) HI0)).
Qed.

(** For every wanted accuracy there is a distance of the numerical arguments which guarantees it. *)
Theorem call_stretch_continuous p lg la jk out : linalg_ok la -> leggauss_ok (half p) (lg (half p)) -> pydisort p lg la jk = Ok out ->
  forall w vn vp rho, double_gauss (half p) (po_mu out) w -> boundary_data p vn vp rho -> scattering_kept p -> (forall i, (i < half p)%nat -> reflectance p (po_mu out) w (rho 0%nat) i < 1) ->
  forall eps, 0 < eps -> exists d, 0 < d /\
  forall q la' jk' out' vn' vp' rho', linalg_ok la' -> pydisort q lg la' jk' = Ok out' -> boundary_data q vn' vp' rho' -> same_frame p q -> near_deformed d p q (po_mu out) vn vp vn' vp' (rho 0%nat) (rho' 0%nat) ->
  scattering_kept q -> phase_nonneg q (po_mu out) -> passive_surface q (po_mu out) w (rho' 0%nat) -> forall tau tau', Forall2 (corresponds p q) tau tau' ->
  (exists A B, po_u0 out tau false false false = Ok (PVal (PT A)) /\ po_u0 out' tau' false false false = Ok (PVal (PT B)) /\ twithin eps A B) /\
  (exists A B, po_flux_up out tau false false = Ok (PVal (PT A)) /\ po_flux_up out' tau' false false = Ok (PVal (PT B)) /\ twithin eps A B) /\
  (exists A A0 B B0, po_flux_down out tau false false = Ok (PTup [PT A; PT A0]) /\ po_flux_down out' tau' false false = Ok (PTup [PT B; PT B0]) /\ twithin eps A B /\ (0 < p_I0 p -> 0 < p_I0 q /\ twithin eps A0 B0)).
Proof.
  intros Hla Hlg Hp w vn vp rho Hw BD Kp Hr eps Heps. pose proof (call_valid p lg la jk out Hp) as Vp. destruct (modes_exist p lg la jk out Hla Hlg Hp) as (U & HU).
  pose proof (half_pos p Vp) as Hh. pose proof (streams_eq p Vp) as Est.
  assert (Hbot : 0 < bottom p). { rewrite (bottom_eq p). apply (v_tau p Vp). pose proof (v_ne p Vp). lia. }
  pose proof (bd_bvp p lg la jk out Hla Hlg Hp w vn vp rho Hw BD U 0%nat HU (seen_0 p Vp)) as B0.
  destruct (family_bounded 0 (bottom p) (streams p) (U 0%nat) ltac:(lia) ltac:(lra) (bvp_cont _ _ _ _ _ _ _ _ B0)) as (M & HM0 & HM).
  set (e := eps / 8). assert (He : 0 < e) by (unfold e; lra).
  destruct (deform_small p Vp (po_mu out) w (rho 0%nat) M HM0 Hw Hr e He) as (d & D0 & HD). exists d. split; [exact D0|].
  intros q la' jk' out' vn' vp' rho' Hla' Hq BD' SF NB Kq Hph Hsurf tau tau' HC. pose proof (call_valid q lg la' jk' out' Hq) as Vq.
  destruct (HD q vn vp vn' vp' (rho' 0%nat) Vq SF NB) as (CB & BW & HIq).
  destruct (call_stretch0 p q lg la la' jk jk' out out' Hla Hla' Hlg Hp Hq w vn vp vn' vp' rho rho' Hw BD BD' SF Kp Kq Hph Hsurf e M e CB BW U HU HM tau tau' HC) as ((A & B & E1 & E2 & W1) & (A' & B' & E3 & E4 & W2) & (A1 & A2 & B1 & B2 & E5 & E6 & W3 & W4)).
  assert (HP4 : PI <= 4) by apply PI_4. assert (Hw8 : PI * e <= eps / 2) by (unfold e; nra).
  assert (TW : forall x A B, x <= eps -> twithin x A B -> twithin eps A B) by (intros x X Y Hx [X1 X2]; split; [exact X1|]; intros idx Hidx; eapply Rle_trans; [apply X2; exact Hidx|exact Hx]).
  split; [exists A, B|split; [exists A', B'|exists A1, A2, B1, B2]].
  - split; [exact E1|]. split; [exact E2|]. apply (TW e); [unfold e; lra|exact W1].
  - split; [exact E3|]. split; [exact E4|]. apply (TW (PI * e)); [lra|exact W2].
  - split; [exact E5|]. split; [exact E6|]. split; [apply (TW (PI * e + 2 * e)); [unfold e in *; lra|exact W3]|].
    intros HI0. split; [exact (HIq HI0)|]. apply (TW e); [unfold e; lra|apply W4; auto].
Qed.
