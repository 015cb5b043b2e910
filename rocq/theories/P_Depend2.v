(** Continuous dependence of the reported radiation on the optical properties: calls. *)
From Coq Require Import Classical String Reals Lra Lia List Bool Arith ZArith.
From Coquelicot Require Import Coquelicot.
From Verif Require Import Base Tensor Spec M_LinAlg Spec_RTE Calc M_Subroutines M_GenPart M_MathscrV M_Coeffs M_Assemble M_Pydisort
  Spec_Sol Spec_Valid Spec_Calls Spec_Unique Spec_Phys Spec_Mono Spec_Depend P_Special P_Addition P_Quad P_Sub P_Solve P_Energy P_Pydisort P_Pydisort2 P_Pydisort3 P_Pydisort4 P_Pydisort5 P_Pydisort6 P_Pydisort8 P_Teq P_NT3 P_Unique2 P_Refine P_Max P_Max2 P_Max3 P_Max4 P_Mono P_Full2 P_Depend.
Import ListNotations.
Local Open Scope R_scope.

Lemma pos_lower n (f : nat -> R) : (forall i, (i < n)%nat -> 0 < f i) -> exists k, 0 < k /\ forall i, (i < n)%nat -> k <= f i.
Proof.
  induction n as [|n IH]; intros H; [exists 1; split; [lra|intros; lia]|]. destruct IH as (k & Hk & Hle); [intros; apply H; lia|].
  exists (Rmin k (f n)). split; [apply Rmin_pos; [exact Hk|apply H; lia]|]. intros i Hi. destruct (Nat.eq_dec i n) as [->|]; [apply Rmin_r|]. eapply Rle_trans; [apply Rmin_l|apply Hle; lia].
Qed.
Lemma fin_upper n (f : nat -> R) : exists K, 0 <= K /\ forall i, (i < n)%nat -> Rabs (f i) <= K.
Proof.
  induction n as [|n IH]; [exists 0; split; [lra|intros; lia]|]. destruct IH as (K & HK & Hle). exists (Rmax K (Rabs (f n))). split; [eapply Rle_trans; [exact HK|apply Rmax_l]|].
  intros i Hi. destruct (Nat.eq_dec i n) as [->|]; [apply Rmax_r|]. eapply Rle_trans; [apply Hle; lia|apply Rmax_l].
Qed.
Lemma family_bounded a b n (V : nat -> R -> R) : (0 < n)%nat -> a <= b -> (forall i, (i < n)%nat -> cont_on a b (V i)) -> exists M, 0 <= M /\ forall i t, (i < n)%nat -> a <= t <= b -> Rabs (V i t) <= M.
Proof.
  intros Hn Hab Hc. destruct (family_min a b n (fun i t => -1 * Rabs (V i t)) Hn Hab) as (i0 & t0 & _ & _ & Hm); [intros i Hi; apply cont_on_scal, cont_on_abs; auto|].
  exists (Rabs (V i0 t0)). split; [apply Rabs_pos|]. intros i t Hi Ht. specialize (Hm i t Hi Ht). cbv beta in Hm. lra.
Qed.

Lemma bounded_modes p (V : valid p) out M U : u0_bounded p out M -> modes_of p out U -> forall i t, (i < streams p)%nat -> 0 <= t <= bottom p -> Rabs (U 0%nat i t) <= M.
Proof.
  intros HB HU i t Hi Ht. assert (Hd : depths_ok p [t]) by (intros x [<-|[]]; exact Ht). destruct (proj1 HU [t] Hd) as (A & EA & SA & HA).
  specialize (HB [t] A Hd EA [i]). pose proof (streams_eq p V) as Es. pose proof (half_pos p V) as Hh.
  assert (E1 : shp A = [streams p]). { rewrite SA. unfold tsqueeze. cbn [shp length]. unfold sq_shape. cbn [filter]. destruct (Nat.eqb_spec (streams p) 1); [lia|]. reflexivity. }
  assert (Hin : inb (shp A) [i]) by (rewrite E1; cbn; auto). specialize (HB Hin). rewrite (HA [i] Hin) in HB. revert HB. unfold tsqueeze. cbn [elt shp length unsq].
  destruct (Nat.eqb_spec (streams p) 1); [lia|]. cbn [unsq nth Nat.eqb]. tauto.
Qed.

Section Calls.
  Variables (p q : py_in) (lg : leggauss_t) (la la' : linalg) (jk jk' : junk) (out out' : py_out).
  Hypothesis Hla : linalg_ok la.
  Hypothesis Hla' : linalg_ok la'.
  Hypothesis Hlg : leggauss_ok (half p) (lg (half p)).
  Hypothesis Hp : pydisort p lg la jk = Ok out.
  Hypothesis Hq : pydisort q lg la' jk' = Ok out'.
  Variables (w : nat -> R) (vn vp vn' vp' : nat -> R) (rho : nat -> R -> R -> R).
  Hypothesis Hw : double_gauss (half p) (po_mu out) w.
  Hypothesis BD : boundary_data p vn vp rho.
  Hypothesis BD' : boundary_data q vn' vp' rho.
  Hypothesis SS : same_setting p q.
  Hypothesis Kp : scattering_kept p.
  Hypothesis Kq : scattering_kept q.
  Hypothesis Hph : phase_nonneg q (po_mu out).
  Hypothesis Hsurf' : passive_surface q (po_mu out) w (rho 0%nat).
  Variables e M : R.
  Hypothesis CB : changes_by e M p q (po_mu out) w vn vp vn' vp' (rho 0%nat).

  Lemma change_modes U U' : modes_of p out U -> modes_of q out' U' -> (forall i t, (i < streams q)%nat -> 0 <= t <= bottom q -> Rabs (U 0%nat i t) <= M) ->
    forall i t, (i < streams q)%nat -> 0 <= t <= bottom q -> Rabs (U 0%nat i t - U' 0%nat i t) <= e.
  Proof.
    intros HU HU' HM i t Hi Ht. pose proof (call_valid p lg la jk out Hp) as Vp. pose proof (call_valid q lg la' jk' out' Hq) as Vq.
    pose proof (same_mu p q lg la la' jk jk' out out' Hp Hq (ss_NQuad _ _ SS)) as Em. pose proof (ss_half p q SS) as Eh.
    assert (Hw' : double_gauss (half q) (po_mu out') w) by (rewrite <- Em, <- Eh; exact Hw).
    assert (Hlg' : leggauss_ok (half q) (lg (half q))) by (rewrite <- Eh; exact Hlg).
    pose proof (bd_bvp p lg la jk out Hla Hlg Hp w vn vp rho Hw BD U 0%nat HU (seen_0 p Vp)) as B.
    pose proof (bd_bvp q lg la' jk' out' Hla' Hlg' Hq w vn' vp' rho Hw' BD' U' 0%nat HU' (seen_0 q Vq)) as B'.
    rewrite <- Em in B', Hw'.
    exact (bvp_change p q SS Vp Vq Kp Kq (po_mu out) w vn vp vn' vp' (rho 0%nat) e M Hw' CB (U 0%nat) (U' 0%nat) B B' HM Hph Hsurf' i t Hi Ht).
  Qed.

  Lemma call_change0 U : modes_of p out U -> (forall i t, (i < streams q)%nat -> 0 <= t <= bottom q -> Rabs (U 0%nat i t) <= M) -> forall tau, depths_ok p tau ->
    (exists A B, po_u0 out tau false false false = Ok (PVal (PT A)) /\ po_u0 out' tau false false false = Ok (PVal (PT B)) /\ twithin e A B) /\
    (exists A B, po_flux_up out tau false false = Ok (PVal (PT A)) /\ po_flux_up out' tau false false = Ok (PVal (PT B)) /\ twithin (PI * e) A B) /\
    (exists A A0 B B0, po_flux_down out tau false false = Ok (PTup [PT A; PT A0]) /\ po_flux_down out' tau false false = Ok (PTup [PT B; PT B0]) /\ twithin (PI * e + p_I0 q * depth_dist p q) A B).
  Proof.
    intros HU HM tau Ht. pose proof (call_valid p lg la jk out Hp) as Vp. pose proof (call_valid q lg la' jk' out' Hq) as Vq.
    pose proof (same_mu p q lg la la' jk jk' out out' Hp Hq (ss_NQuad _ _ SS)) as Em. pose proof (ss_half p q SS) as Eh. pose proof (ss_streams p q SS) as Es.
    assert (Hlg' : leggauss_ok (half q) (lg (half q))) by (rewrite <- Eh; exact Hlg).
    destruct (modes_exist q lg la' jk' out' Hla' Hlg' Hq) as (U' & HU').
    pose proof (change_modes U U' HU HU' HM) as HLE.
    assert (Ht' : depths_ok q tau) by (intros t Hin; rewrite <- (ss_bottom p q SS); apply Ht; exact Hin).
    assert (Hin : forall k, (k < length tau)%nat -> 0 <= nth k tau 0 <= bottom q) by (intros k Hk; apply Ht', nth_In; exact Hk).
    destruct (call_fluxes p lg la jk out Hla Hlg Hp U HU) as (w1 & D1 & R1 & R1'). destruct (call_fluxes q lg la' jk' out' Hla' Hlg' Hq U' HU') as (w2 & D2 & R2 & R2').
    pose proof (dg_weights _ _ _ _ D1 Hw) as E1. rewrite <- Em, <- Eh in D2. pose proof (dg_weights _ _ _ _ D2 Hw) as E2. rewrite <- Em, <- Eh in R2, R2'.
    assert (Hc : forall i, (i < half p)%nat -> 0 <= w i * nth i (po_mu out) 0).
    { intros i Hi. destruct Hw as (_ & H2 & _). destruct (H2 i Hi) as (P1 & _ & P2). apply Rmult_le_pos; lra. }
    pose proof PI_RGT_0. assert (Hst : streams q = (half p + half p)%nat) by (rewrite (streams_eq q Vq), Eh; lia).
    assert (HS : forall f g, (forall i, (i < half p)%nat -> Rabs (f i - g i) <= e) ->
      Rabs (2 * PI * rsum (half p) (fun i => w1 i * nth i (po_mu out) 0 * f i) - 2 * PI * rsum (half p) (fun i => w2 i * nth i (po_mu out) 0 * g i)) <= PI * e).
    { intros f g Hfg. rewrite <- Rmult_minus_distr_l, <- rsum_minus, Rabs_mult, (Rabs_pos_eq (2 * PI)) by lra.
      apply Rle_trans with (2 * PI * (1 / 2 * e)); [|right; field]. apply Rmult_le_compat_l; [lra|].
      rewrite <- (dg_first (half p) (po_mu out) w (half_pos p Vp) Hw), Rmult_comm, <- rsum_scal. eapply Rle_trans; [apply rsum_abs|]. apply rsum_le. intros i Hi.
      rewrite E1, E2 by auto. rewrite <- Rmult_minus_distr_l, Rabs_mult, (Rabs_pos_eq (w i * _)) by auto. rewrite (Rmult_comm e). apply Rmult_le_compat_l; auto. }
    split; [|split].
    - destruct (proj1 HU tau Ht) as (A & EA & SA). destruct (proj1 HU' tau Ht') as (B & EB & SB). exists A, B. split; [exact EA|]. split; [exact EB|].
      rewrite <- Es in SB. refine (squeezed_within _ _ _ _ _ _ SA SB _). intros idx Hi. apply inb_2 in Hi as (a & b & -> & Ha & Hb). cbn [nth]. apply HLE; [rewrite <- Es; lia|apply Hin; lia].
    - destruct (R1 tau Ht) as (A & EA & SA). destruct (R2 tau Ht') as (B & EB & SB). exists A, B. split; [exact EA|]. split; [exact EB|].
      refine (squeezed_within _ _ _ _ _ _ SA SB _). intros idx Hi. apply inb_1 in Hi as (a & -> & Ha). cbn [nth].
      apply (HS (fun i => U 0%nat i (nth a tau 0)) (fun i => U' 0%nat i (nth a tau 0))). intros i Hi'. apply HLE; [lia|apply Hin; lia].
    - destruct (R1' tau Ht) as (A & A0 & EA & SA & _). destruct (R2' tau Ht') as (B & B0 & EB & SB & _). exists A, A0, B, B0. split; [exact EA|]. split; [exact EB|].
      refine (squeezed_within _ _ _ _ _ _ SA SB _). intros idx Hi. apply inb_1 in Hi as (a & -> & Ha). cbn [nth]. unfold direct.
      rewrite (ss_mu0 p q SS), (ss_I0 p q SS). set (t := nth a tau 0). pose proof (Hin a ltac:(lia)) as Hta. fold t in Hta.
      pose proof (HS (fun i => U 0%nat (half p + i)%nat t) (fun i => U' 0%nat (half p + i)%nat t) ltac:(intros i Hi'; apply HLE; [lia|exact Hta])) as HF. cbv beta in HF.
      assert (HB : Rabs (p_I0 q * p_mu0 q * exp (- sdepth p t / p_mu0 q) - p_I0 q * p_mu0 q * exp (- sdepth q t / p_mu0 q)) <= p_I0 q * depth_dist p q).
      { pose proof (v_I0 q Vq) as HI. destruct (Rle_lt_or_eq_dec 0 (p_I0 q) ltac:(lra)) as [Hlt|E]; [|rewrite <- E, !Rmult_0_l, Rminus_0_r, Rabs_R0; lra].
        pose proof (v_mu0 q Vq Hlt) as Hm. unfold sdepth. rewrite (ss_lay p q SS). pose proof (lay_at q Vq t Hta) as (Hl & Hlt').
        assert (Hx : top_of q (lay q t) <= t <= bot_of q (lay q t)). { destruct Hlt' as [Hx|(El & E0)]; [lra|]. rewrite El, E0. split; [cbn; lra|]. apply Rlt_le, (v_tau q Vq). pose proof (v_ne q Vq). lia. }
        pose proof (beam_near p q SS Vp Vq (lay q t) t ltac:(lra) Hl Hx) as K. rewrite <- Rmult_minus_distr_l, Rabs_mult, (Rabs_pos_eq (_ * _)) by (apply Rmult_le_pos; lra).
        replace (p_I0 q * depth_dist p q) with (p_I0 q * p_mu0 q * (depth_dist p q / p_mu0 q)) by (field; lra). apply Rmult_le_compat_l; [apply Rmult_le_pos; lra|exact K]. }
      match goal with |- Rabs ?x <= _ => match type of HF with Rabs ?y <= _ => match type of HB with Rabs ?z <= _ => replace x with (y + z) by ring end end end.
      eapply Rle_trans; [apply Rabs_triang|]. lra.
  Qed.
  Theorem call_change : u0_bounded p out M -> forall tau, depths_ok p tau ->
    (exists A B, po_u0 out tau false false false = Ok (PVal (PT A)) /\ po_u0 out' tau false false false = Ok (PVal (PT B)) /\ twithin e A B) /\
    (exists A B, po_flux_up out tau false false = Ok (PVal (PT A)) /\ po_flux_up out' tau false false = Ok (PVal (PT B)) /\ twithin (PI * e) A B) /\
    (exists A A0 B B0, po_flux_down out tau false false = Ok (PTup [PT A; PT A0]) /\ po_flux_down out' tau false false = Ok (PTup [PT B; PT B0]) /\ twithin (PI * e + p_I0 q * depth_dist p q) A B).
  Proof.
    intros HB. destruct (modes_exist p lg la jk out Hla Hlg Hp) as (U & HU). apply (call_change0 U HU). rewrite <- (ss_streams p q SS), <- (ss_bottom p q SS).
    exact (bounded_modes p (call_valid p lg la jk out Hp) out M U HB HU).
  Qed.
End Calls.

Lemma abs_prod a b c d x y : Rabs (a - c) <= x -> Rabs (b - d) <= y -> Rabs (a * b - c * d) <= x * Rabs b + Rabs c * y.
Proof.
  intros H1 H2. replace (a * b - c * d) with ((a - c) * b + c * (b - d)) by ring. eapply Rle_trans; [apply Rabs_triang|]. rewrite !Rabs_mult.
  apply Rplus_le_compat; [apply Rmult_le_compat_r; [apply Rabs_pos|exact H1]|apply Rmult_le_compat_l; [apply Rabs_pos|exact H2]].
Qed.
Lemma layers_sum p : valid p -> rsum (nlayers p) (fun l => bot_of p l - top_of p l) = bottom p.
Proof.
  intros V. rewrite (bottom_eq p). pose proof (v_ne p V) as Hn.
  assert (K : forall n, (1 <= n)%nat -> rsum n (fun l => bot_of p l - top_of p l) = bot_of p (n - 1)).
  { induction n as [|n IH]; [lia|]. intros _. rewrite rsum_S. replace (S n - 1)%nat with n by lia. destruct n as [|n]; [cbn [rsum]; unfold top_of; lra|]. rewrite IH by lia. replace (S n - 1)%nat with n by lia.
    unfold top_of, bot_of. ring. }
  apply K; exact Hn.
Qed.
Definition n2 (p : py_in) : R := rsum (ncoeffs p) (fun k => 2 * INR k + 1).
Lemma n2_nonneg p : 0 <= n2 p. Proof. apply rsum_nonneg. intros k _. pose proof (pos_INR k). lra. Qed.
Lemma phase_abs p : valid p -> forall l k, (l < nlayers p)%nat -> (k < ncoeffs p)%nat -> Rabs (phase p l k) <= 1.
Proof.
  intros V l k Hl Hk. unfold phase. destruct (Nat.eqb_spec k 0); [rewrite Rabs_R1; lra|].
  assert (k < ncol (p_Leg p))%nat. { pose proof (v_leg p V) as H. unfold NLegZ in H. unfold ncoeffs in Hk. destruct (p_NLeg p); lia. }
  pose proof (v_g p V l k Hl ltac:(lia)). apply Rabs_le. lra.
Qed.
Lemma source_bounded p : valid p -> exists K, 0 <= K /\ forall l t, (l < nlayers p)%nat -> 0 <= t <= bottom p -> Rabs (source p l t) <= K.
Proof.
  intros V. set (c := fun l => rsum (ncol (p_s p)) (fun j => Rabs (at2 (p_s p) l j) * bottom p ^ j)). destruct (fin_upper (nlayers p) c) as (K & HK & Hc).
  exists K. split; [exact HK|]. intros l t Hl Ht. unfold source. destruct (Nat.ltb l (nrow (p_s p))); [|rewrite Rabs_R0; exact HK].
  eapply Rle_trans; [|apply (Hc l Hl)]. eapply Rle_trans; [|apply Rle_abs]. eapply Rle_trans; [apply rsum_abs|]. apply rsum_le. intros j _. rewrite Rabs_mult. apply Rmult_le_compat_l; [apply Rabs_pos|].
  rewrite <- RPow_abs, (Rabs_pos_eq t) by lra. apply pow_incr. lra.
Qed.

Section Near.
  Variables (p q : py_in) (vn vp vn' vp' : nat -> R) (d : R).
  Hypothesis Vp : valid p.
  Hypothesis Vq : valid q.
  Hypothesis SS : same_setting p q.
  Hypothesis NB : nearby d p q vn vp vn' vp'.
  Lemma d_nonneg : 0 <= d. Proof. eapply Rle_trans; [apply Rabs_pos|apply (nb_n _ _ _ _ _ _ _ NB 0%nat), half_pos; exact Vq]. Qed.
  Lemma nb_peak l : (l < nlayers q)%nat -> peak_dist p q l <= 2 * d.
  Proof.
    intros Hl. unfold peak_dist. eapply Rle_trans; [apply (abs_prod _ _ _ _ d d); [apply NB; exact Hl|apply NB; exact Hl]|]. pose proof d_nonneg.
    pose proof (fwd_range p Vp l). pose proof (albedo_range q Vq l Hl). rewrite !Rabs_pos_eq by lra. nra.
  Qed.
  Lemma nb_scattering l k : (l < nlayers q)%nat -> (k < ncoeffs q)%nat -> Rabs (scattering p l k - scattering q l k) <= 4 * d.
  Proof.
    intros Hl Hk. unfold scattering. pose proof d_nonneg.
    assert (H1 : Rabs (phase p l k - fwd p l) <= 2).
    { pose proof (phase_abs p Vp l k ltac:(rewrite (ss_nlayers p q SS); exact Hl) ltac:(rewrite (ss_ncoeffs p q SS); exact Hk)) as A. apply Rabs_le_between in A. pose proof (fwd_range p Vp l). apply Rabs_le. lra. }
    eapply Rle_trans; [apply (abs_prod _ _ _ _ d (2 * d)); [apply NB; exact Hl|]|].
    - pose proof (nb_phase _ _ _ _ _ _ _ NB l k Hl Hk) as A1. pose proof (nb_fwd _ _ _ _ _ _ _ NB l Hl) as A2. apply Rabs_le_between in A1. apply Rabs_le_between in A2. apply Rabs_le. lra.
    - pose proof (albedo_range q Vq l Hl). rewrite (Rabs_pos_eq (albedo q l)) by lra. pose proof (Rabs_pos (phase p l k - fwd p l)). nra.
  Qed.
  Lemma nb_sdist l : (l < nlayers q)%nat -> scattering_dist p q l <= 4 * d * n2 q.
  Proof.
    intros Hl. unfold scattering_dist, n2. rewrite <- rsum_scal. apply rsum_le. intros k Hk. pose proof (pos_INR k). pose proof (nb_scattering l k Hl Hk). nra.
  Qed.
  Lemma nb_size l : (l < nlayers q)%nat -> scattering_size q l <= 2 * n2 q.
  Proof.
    intros Hl. unfold scattering_size, n2. rewrite <- rsum_scal. apply rsum_le. intros k Hk. pose proof (pos_INR k). 
    assert (H1 : Rabs (scattering q l k) <= 2); [|nra].
    pose proof (phase_abs q Vq l k Hl Hk) as A. apply Rabs_le_between in A. pose proof (fwd_range q Vq l). pose proof (albedo_range q Vq l Hl).
    unfold scattering. rewrite Rabs_mult, (Rabs_pos_eq (albedo q l)) by lra. assert (Rabs (phase q l k - fwd q l) <= 2) by (apply Rabs_le; lra). pose proof (Rabs_pos (phase q l k - fwd q l)). nra.
  Qed.
  Lemma nb_depth : depth_dist p q <= 2 * d * bottom q.
  Proof.
    unfold depth_dist. rewrite <- (layers_sum q Vq), <- rsum_scal. apply rsum_le. intros l Hl. apply Rmult_le_compat_r; [pose proof (v_inc q Vq l Hl); lra|]. apply nb_peak; exact Hl.
  Qed.
  Lemma nb_emission l t S0 : (l < nlayers q)%nat -> top_of q l <= t <= bot_of q l -> Rabs (source p l t) <= S0 -> Rabs ((1 - albedo p l) * source p l t - (1 - albedo q l) * source q l t) <= d * (1 + S0).
  Proof.
    intros Hl Ht HS. eapply Rle_trans; [apply (abs_prod _ _ _ _ d d); [|apply NB; auto]|].
    - replace (1 - albedo p l - (1 - albedo q l)) with (- (albedo p l - albedo q l)) by ring. rewrite Rabs_Ropp. apply NB; exact Hl.
    - pose proof d_nonneg. pose proof (albedo_range q Vq l Hl). rewrite (Rabs_pos_eq (1 - _)) by lra. pose proof (Rabs_pos (source p l t)). nra.
  Qed.
End Near.

(** For every wanted accuracy there is a distance of the optical properties which guarantees it. *)
Theorem call_continuous p lg la jk out : linalg_ok la -> leggauss_ok (half p) (lg (half p)) -> pydisort p lg la jk = Ok out ->
  forall w vn vp rho, double_gauss (half p) (po_mu out) w -> boundary_data p vn vp rho -> scattering_kept p -> (forall i, (i < half p)%nat -> reflectance p (po_mu out) w (rho 0%nat) i < 1) ->
  forall eps, 0 < eps -> exists d, 0 < d /\
  forall q la' jk' out' vn' vp', linalg_ok la' -> pydisort q lg la' jk' = Ok out' -> boundary_data q vn' vp' rho -> same_setting p q -> nearby d p q vn vp vn' vp' ->
  scattering_kept q -> phase_nonneg q (po_mu out) -> passive_surface q (po_mu out) w (rho 0%nat) -> forall tau, depths_ok p tau ->
  (exists A B, po_u0 out tau false false false = Ok (PVal (PT A)) /\ po_u0 out' tau false false false = Ok (PVal (PT B)) /\ twithin eps A B) /\
  (exists A B, po_flux_up out tau false false = Ok (PVal (PT A)) /\ po_flux_up out' tau false false = Ok (PVal (PT B)) /\ twithin eps A B) /\
  (exists A A0 B B0, po_flux_down out tau false false = Ok (PTup [PT A; PT A0]) /\ po_flux_down out' tau false false = Ok (PTup [PT B; PT B0]) /\ twithin eps A B).
Proof.
  intros Hla Hlg Hp w vn vp rho Hw BD Kp Hr eps Heps. pose proof (call_valid p lg la jk out Hp) as Vp. destruct (modes_exist p lg la jk out Hla Hlg Hp) as (U & HU).
  pose proof (half_pos p Vp) as Hh. pose proof (streams_eq p Vp) as Est. pose proof (v_I0 p Vp) as HI. pose proof PI_RGT_0 as HPI.
  assert (Hbot : 0 < bottom p). { rewrite (bottom_eq p). apply (v_tau p Vp). pose proof (v_ne p Vp). lia. }
  pose proof (bd_bvp p lg la jk out Hla Hlg Hp w vn vp rho Hw BD U 0%nat HU (seen_0 p Vp)) as B0.
  destruct (family_bounded 0 (bottom p) (streams p) (U 0%nat) ltac:(lia) ltac:(lra) (bvp_cont _ _ _ _ _ _ _ _ B0)) as (M & HM0 & HM).
  destruct (pos_lower (nlayers p) (fun l => 1 - albedo p l)) as (ka & Hka & Hal); [intros l Hl; pose proof (albedo_range p Vp l Hl); lra|].
  destruct (pos_lower (half p) (fun i => 1 - reflectance p (po_mu out) w (rho 0%nat) i)) as (kr & Hkr & Hrl); [intros i Hi; pose proof (Hr i Hi); lra|].
  destruct (fin_upper (half p) (fun i => reflects p (rho 0%nat) (nth i (po_mu out) 0) (p_mu0 p))) as (Rm & HRm & HRl).
  destruct (source_bounded p Vp) as (S0 & HS0 & HSl).
  set (n := n2 p). pose proof (n2_nonneg p) as Hn. fold n in Hn. set (T := bottom p) in *.
  set (Bm := if Rlt_dec 0 (p_I0 p) then p_I0 p / (4 * PI) * (4 * n + 2 * n * (2 * T / p_mu0 p)) else 0).
  assert (HBm : 0 <= Bm).
  { unfold Bm. destruct (Rlt_dec 0 (p_I0 p)) as [H|H]; [|lra]. pose proof (v_mu0 p Vp H). apply Rmult_le_pos; [apply Rlt_le, Rdiv_lt_0_compat; lra|]. assert (0 < 2 * T / p_mu0 p) by (apply Rdiv_lt_0_compat; lra). nra. }
  set (C1 := (2 + 4 * n) * M + Bm + (1 + S0)). assert (HC1 : 0 < C1) by (unfold C1; nra).
  set (C2 := 1 + p_I0 p / PI * Rm * (2 * T)). assert (HC2 : 0 < C2). { unfold C2. assert (0 <= p_I0 p / PI) by (apply Rmult_le_pos; [lra|apply Rlt_le, Rinv_0_lt_compat; lra]). assert (0 <= p_I0 p / PI * Rm) by (apply Rmult_le_pos; lra). nra. }
  set (C3 := 1 + p_I0 p * (2 * T)). assert (HC3 : 0 < C3) by (unfold C3; nra).
  set (e := eps / 8). assert (He : 0 < e) by (unfold e; lra).
  set (d := Rmin (ka / 2) (Rmin (ka / 2 * e / C1) (Rmin (kr * e / C2) (Rmin (eps / 2 / C3) e)))).
  assert (D1 : d <= ka / 2) by apply Rmin_l.
  assert (D2 : d <= ka / 2 * e / C1) by (eapply Rle_trans; [apply Rmin_r|apply Rmin_l]).
  assert (D3 : d <= kr * e / C2) by (eapply Rle_trans; [apply Rmin_r|eapply Rle_trans; [apply Rmin_r|apply Rmin_l]]).
  assert (D4 : d <= eps / 2 / C3) by (eapply Rle_trans; [apply Rmin_r|eapply Rle_trans; [apply Rmin_r|eapply Rle_trans; [apply Rmin_r|apply Rmin_l]]]).
  assert (D5 : d <= e) by (eapply Rle_trans; [apply Rmin_r|eapply Rle_trans; [apply Rmin_r|eapply Rle_trans; [apply Rmin_r|apply Rmin_r]]]).
  assert (D0 : 0 < d). { unfold d. repeat apply Rmin_pos; try lra; apply Rdiv_lt_0_compat; try lra; apply Rmult_lt_0_compat; lra. }
  clearbody d. exists d. split; [exact D0|].
  assert (D2' : d * C1 <= ka / 2 * e) by (apply (Rmult_le_reg_r (/ C1)); [apply Rinv_0_lt_compat; lra|]; replace (d * C1 * / C1) with d by (field; lra); exact D2).
  assert (D3' : d * C2 <= kr * e) by (apply (Rmult_le_reg_r (/ C2)); [apply Rinv_0_lt_compat; lra|]; replace (d * C2 * / C2) with d by (field; lra); exact D3).
  assert (D4' : d * C3 <= eps / 2) by (apply (Rmult_le_reg_r (/ C3)); [apply Rinv_0_lt_compat; lra|]; replace (d * C3 * / C3) with d by (field; lra); exact D4).
  intros q la' jk' out' vn' vp' Hla' Hq BD' SS NB Kq Hph Hsurf tau Ht. pose proof (call_valid q lg la' jk' out' Hq) as Vq.
  assert (Enl : nlayers p = nlayers q) by apply (ss_nlayers p q SS). assert (Eh : half p = half q) by apply (ss_half p q SS). assert (Eb : T = bottom q) by apply (ss_bottom p q SS).
  assert (En : n2 q = n) by (unfold n, n2; rewrite (ss_ncoeffs p q SS); reflexivity).
  pose proof (nb_depth p q vn vp vn' vp' d Vp Vq NB) as ND. rewrite <- Eb in ND. pose proof (ddist_nonneg p q Vq) as ND0.
  assert (CB : changes_by e M p q (po_mu out) w vn vp vn' vp' (rho 0%nat)).
  { constructor.
    - intros l t Hl Htl. pose proof (Hal l ltac:(rewrite Enl; exact Hl)) as A1. pose proof (nb_albedo _ _ _ _ _ _ _ NB l Hl) as A2. apply Rabs_le_between in A2.
      apply Rle_trans with (ka / 2 * e); [|apply Rmult_le_compat_r; lra]. apply Rle_trans with (2 := D2'). unfold C1. replace (d * ((2 + 4 * n) * M + Bm + (1 + S0))) with (d * ((2 + 4 * n) * M) + d * Bm + d * (1 + S0)) by ring.
      pose proof (nb_peak p q vn vp vn' vp' d Vp Vq NB l Hl) as P1. pose proof (nb_sdist p q vn vp vn' vp' d Vp Vq SS NB l Hl) as P2. pose proof (nb_size q Vq l Hl) as P3. rewrite En in P2, P3.
      pose proof (sdist_nonneg p q l) as P4. pose proof (size_nonneg q l) as P5.
      apply Rplus_le_compat; [apply Rplus_le_compat|].
      + replace (d * ((2 + 4 * n) * M)) with ((2 * d + 4 * d * n) * M) by ring. apply Rmult_le_compat_r; lra.
      + unfold Bm. rewrite <- (ss_I0 p q SS), <- (ss_mu0 p q SS). destruct (Rlt_dec 0 (p_I0 p)) as [H|H].
        2: { replace (p_I0 p) with 0 by lra. unfold Rdiv. rewrite !Rmult_0_l. lra. }
        pose proof (v_mu0 p Vp H) as Hm. replace (d * (p_I0 p / (4 * PI) * (4 * n + 2 * n * (2 * T / p_mu0 p)))) with (p_I0 p / (4 * PI) * (4 * d * n + 2 * n * (2 * d * T / p_mu0 p))) by (field; lra).
        apply Rmult_le_compat_l; [apply Rlt_le, Rdiv_lt_0_compat; lra|]. apply Rplus_le_compat; [exact P2|]. assert (Hi : 0 < / p_mu0 p) by (apply Rinv_0_lt_compat; lra).
        apply Rmult_le_compat; [exact P5| |exact P3|]; unfold Rdiv; [apply Rmult_le_pos; lra|apply Rmult_le_compat_r; lra].
      + apply (nb_emission p q vn vp vn' vp' d Vq NB l t S0 Hl Htl). apply HSl; [rewrite Enl; exact Hl|]. fold T. rewrite Eb.
        destruct (layer_in q Vq l Hl) as (X0 & X1). lra.
    - intros i Hi. eapply Rle_trans; [apply (nb_n _ _ _ _ _ _ _ NB i Hi)|]. exact D5.
    - intros i Hi. rewrite <- Eh in Hi. assert (ER : reflectance q (po_mu out) w (rho 0%nat) i = reflectance p (po_mu out) w (rho 0%nat) i) by (unfold reflectance; rewrite (ss_BDRF _ _ SS), Eh; reflexivity).
      rewrite ER. pose proof (Hrl i Hi) as R1. apply Rle_trans with (kr * e); [|apply Rmult_le_compat_r; lra]. apply Rle_trans with (2 := D3'). unfold C2. rewrite Rmult_plus_distr_l.
      apply Rplus_le_compat; [rewrite Rmult_1_r; apply (nb_p _ _ _ _ _ _ _ NB i); rewrite <- Eh; exact Hi|].
      assert (R2 : Rabs (reflects q (rho 0%nat) (nth i (po_mu out) 0) (p_mu0 q)) <= Rm). { rewrite <- (ss_mu0 _ _ SS). unfold reflects in *. rewrite <- (ss_BDRF _ _ SS). apply (HRl i Hi). }
      rewrite <- (ss_I0 _ _ SS). assert (Hi0 : 0 <= p_I0 p / PI) by (apply Rmult_le_pos; [lra|apply Rlt_le, Rinv_0_lt_compat; lra]).
      replace (d * (p_I0 p / PI * Rm * (2 * T))) with (p_I0 p / PI * Rm * (2 * d * T)) by ring. apply Rmult_le_compat; [apply Rmult_le_pos; [lra|apply Rabs_pos]|lra| |exact ND]. apply Rmult_le_compat_l; lra. }
  destruct (call_change0 p q lg la la' jk jk' out out' Hla Hla' Hlg Hp Hq w vn vp vn' vp' rho Hw BD BD' SS Kp Kq Hph Hsurf e M CB U HU) with (tau := tau) as ((A & B & E1 & E2 & W1) & (A' & B' & E3 & E4 & W2) & (A1 & A2 & B1 & B2 & E5 & E6 & W3)).
  { rewrite <- (ss_streams p q SS), <- (ss_bottom p q SS). exact HM. }
  { exact Ht. }
  assert (HP4 : PI <= 4) by apply PI_4. assert (Hw8 : PI * e <= eps / 2) by (unfold e; nra).
  assert (Hd3 : p_I0 q * depth_dist p q <= eps / 2). { rewrite <- (ss_I0 _ _ SS). unfold C3 in D4'. nra. }
  assert (TW : forall x A B, x <= eps -> twithin x A B -> twithin eps A B) by (intros x X Y Hx [X1 X2]; split; [exact X1|]; intros idx Hidx; eapply Rle_trans; [apply X2; exact Hidx|exact Hx]).
  split; [exists A, B|split; [exists A', B'|exists A1, A2, B1, B2]].
  - split; [exact E1|]. split; [exact E2|]. apply (TW e); [unfold e; lra|exact W1].
  - split; [exact E3|]. split; [exact E4|]. apply (TW (PI * e)); [lra|exact W2].
  - split; [exact E5|]. split; [exact E6|]. apply (TW (PI * e + p_I0 q * depth_dist p q)); [lra|exact W3].
Qed.

(** The mean intensity of a call is bounded over all depths. *)
Lemma u0_bounded_ex p lg la jk out w vn vp rho : linalg_ok la -> leggauss_ok (half p) (lg (half p)) -> pydisort p lg la jk = Ok out ->
  double_gauss (half p) (po_mu out) w -> boundary_data p vn vp rho -> exists M, 0 <= M /\ u0_bounded p out M.
Proof.
  intros Hla Hlg Hp Hw BD. pose proof (call_valid p lg la jk out Hp) as Vp. destruct (modes_exist p lg la jk out Hla Hlg Hp) as (U & HU).
  pose proof (half_pos p Vp) as Hh. pose proof (streams_eq p Vp) as Est.
  assert (Hbot : 0 < bottom p). { rewrite (bottom_eq p). apply (v_tau p Vp). pose proof (v_ne p Vp). lia. }
  pose proof (bd_bvp p lg la jk out Hla Hlg Hp w vn vp rho Hw BD U 0%nat HU (seen_0 p Vp)) as B0.
  destruct (family_bounded 0 (bottom p) (streams p) (U 0%nat) ltac:(lia) ltac:(lra) (bvp_cont _ _ _ _ _ _ _ _ B0)) as (M & HM0 & HM).
  exists M. split; [exact HM0|]. intros tau A Ht EA idx Hi. destruct (proj1 HU tau Ht) as (A' & EA' & SA & HA). rewrite EA in EA'. injection EA' as <-.
  rewrite HA by exact Hi. unfold tsqueeze. cbn [elt]. rewrite SA in Hi. apply inb_unsq, inb_2 in Hi as (a & b & -> & Ha & Hb). cbn [nth]. apply HM; [exact Ha|]. apply Ht, nth_In. exact Hb.
Qed.
