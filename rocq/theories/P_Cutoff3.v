(** The reported mean intensity against the solution that keeps all scattering. *)
From Coq Require Import Classical String Reals Lra Lia List Bool Arith ZArith.
From Coquelicot Require Import Coquelicot.
From Verif Require Import Base Tensor Spec M_LinAlg Spec_RTE Calc M_Subroutines M_GenPart M_MathscrV M_Coeffs M_Assemble M_Pydisort
  Spec_Sol Spec_Valid Spec_Calls Spec_Unique Spec_Phys Spec_Mono Spec_Depend P_Special P_Addition P_Quad P_Sub P_Solve P_Energy P_Pydisort P_Pydisort2 P_Pydisort3 P_Pydisort4 P_Pydisort5 P_Pydisort6 P_Pydisort8 P_Teq P_NT3 P_Unique2 P_Refine P_Max P_Max2 P_Max3 P_Max4 P_Sub3 P_Mono P_Full2 P_Depend P_Depend2 P_Ints4 P_Exist Examples3 Examples5 Examples6 Examples18 Spec_Cutoff P_Cutoff P_Cutoff2.
Import ListNotations.
Local Open Scope R_scope.

Section Kept.
  Variable q : py_in.
  Hypothesis Vq : valid q.
  Hypothesis Fq : forall l, (l < nlayers q)%nat -> fwd q l < 1.
  Variables (mu : list R) (w vn vp : nat -> R) (rho : R -> R -> R) (J M : R).
  Hypothesis Hdg : double_gauss (half q) mu w.
  Hypothesis HJ0 : 0 <= J.
  Hypothesis HJ : forall l, (l < nlayers q)%nat -> 2 * zcut q * (M + p_I0 q / (4 * PI)) <= (1 - albedo q l) * J.
  Variables (F G : nat -> R -> R).
  Hypothesis BF : keeps_all q mu w vn vp rho F.
  Hypothesis BG : bvp q mu w vn vp rho 0 G.
  Hypothesis FM : forall i t, (i < streams q)%nat -> 0 <= t <= bottom q -> Rabs (F i t) <= M.
  Hypothesis Hph : phase_nonneg q mu.
  Hypothesis Hsurf : passive_surface q mu w rho.

  Lemma full_rte l k x V : (l < nlayers q)%nat -> rte q mu w (wphase_s q l) 0 l k x V = rfull mu w q l k x V.
  Proof.
    intros Hl. rewrite rte_kern. unfold rfull. rewrite (kern_full q Vq l _ _ Hl (Fq l Hl)).
    rewrite (rsum_ext _ (fun j => wnode (half q) w j * kern q (wphase_s q l) l (nth k mu 0) (nth j mu 0) * V j) (fun j => wnode (half q) w j * skernel q l (nth k mu 0) (nth j mu 0) * V j)); [reflexivity|].
    intros j _. rewrite (kern_full q Vq l _ _ Hl (Fq l Hl)). reflexivity.
  Qed.
  Lemma kept_diff1 s : s = 1 \/ s = -1 -> forall i t, (i < streams q)%nat -> 0 <= t <= bottom q -> s * (F i t - G i t) <= J.
  Proof.
    intros Hs i t Hi Ht. destruct BF as [A1 A2 A3 A4]. destruct BG as [B1 B2 B3 B4]. rewrite (streams_eq q Vq) in Hi, B1, B2, A1, A2.
    assert (SA : forall x y, Rabs x <= y -> s * x <= y /\ - (s * x) <= y). { intros x y H. apply Rabs_le_between in H. destruct Hs as [-> | ->]; lra. }
    enough (0 <= J - s * F i t + s * G i t) by lra. assert (HN : (half q <= 2 * half q)%nat) by lia.
    refine (field_nonneg q Vq mu w Hdg (fun i t => J - s * F i t + s * G i t)
      (fun i j => if Nat.ltb 0 (length (p_BDRF q)) then 2 * (rho (nth i mu 0) (nth j mu 0) * nth j mu 0 * w j) else 0) Hph _ _ _ _ _ _ i t Hi Ht).
    - intros k Hk. apply (cont_on_ext _ _ (fun x => (J + (- s) * F k x) + s * G k x)); [intros; ring|]. apply cont_on_plus; [|apply cont_on_scal, B2; exact Hk]. apply cont_on_plus.
      + apply cont_on_const.
      + apply cont_on_scal, A2. exact Hk.
    - intros l k x Hl Hk Hx. destruct (cutoff_ex (albedo_s q l) (wphase_s q l) (ncoeffs q) 0) as (wg' & Hc').
      set (nc := rsum (2 * half q) (fun j => wnode (half q) w j * D_spec (albedo_s q l) wg' (ncoeffs q) 0 (nth k mu 0) (nth j mu 0))).
      set (dl := rte q mu w wg' 0 l k x (fun j => F j x) - rte q mu w (wphase_s q l) 0 l k x (fun j => F j x)).
      exists wg', (scl q l * J * (1 - nc) - s * dl). split; [exact Hc'|]. pose proof (scl_pos q Vq l Hl) as Hsc. split.
      + pose proof (D_row_le q Vq mu w Hdg l wg' k Hl Hc') as Hnc. fold nc in Hnc.
        assert (Hxb : 0 <= x <= bottom q) by (apply (layer_at_range q Vq x l); split; [exact Hl|left; lra]).
        assert (HS : forall j, (j < 2 * half q)%nat -> Rabs (F j x) <= M) by (intros; apply FM; [rewrite (streams_eq q Vq); auto|auto]).
        pose proof (cut_effect q Vq mu w M Hdg q wg' l k x (fun j => F j x) Vq eq_refl eq_refl eq_refl Hl (Fq l Hl) ltac:(lra) Hc' Hk HS) as C1. rewrite <- full_rte in C1 by exact Hl. fold dl in C1.
        pose proof (proj1 (SA _ _ C1)) as Hd. pose proof (HJ l Hl) as HJl.
        assert (E : scl q l * (1 - albedo_s q l) = 1 - albedo q l) by (unfold albedo_s, scl in *; field; lra).
        assert (0 <= (scl q l * J) * (albedo_s q l - nc)) by (apply Rmult_le_pos; [apply Rmult_le_pos; lra|lra]).
        replace (scl q l * J * (1 - nc) - s * dl) with (scl q l * (1 - albedo_s q l) * J - s * dl + scl q l * J * (albedo_s q l - nc)) by ring.
        rewrite E. lra.
      + pose proof (B1 l k wg' x Hl Hk Hx Hc') as DG. pose proof (A1 l k x Hl Hk Hx) as DF.
        refine (der_eq _ _ _ _ _ (der_plus _ _ _ _ _ (der_minus _ _ _ _ _ (is_derive_const J x) (der_scal _ s _ _ DF)) (der_scal _ s _ _ DG))). unfold dl. change zero with 0.
        set (rp := rte q mu w (wphase_s q l) 0 l k x (fun j => F j x)). unfold rte. cbn [Nat.eqb]. rewrite (streams_eq q Vq).
        set (Dq := D_spec (albedo_s q l) wg' (ncoeffs q) 0 (nth k mu 0)) in *.
        rewrite (rsum_ext _ (fun j => wnode (half q) w j * Dq (nth j mu 0) * (J - s * F j x + s * G j x))
          (fun j => (J * (wnode (half q) w j * Dq (nth j mu 0)) - s * (wnode (half q) w j * Dq (nth j mu 0) * F j x)) - (- s) * (wnode (half q) w j * Dq (nth j mu 0) * G j x))) by (intros; ring).
        rewrite !rsum_minus, !rsum_scal. fold nc. unfold Rdiv. ring.
    - intros k Hk. rewrite (B3 k Hk), (A3 k Hk). cbn [Nat.eqb]. lra.
    - intros k Hk. rewrite (B4 k Hk), (A4 k Hk). cbn [Nat.eqb].
      pose proof (ps_albedo _ _ _ _ Hsurf k Hk) as Pa. unfold reflectance in Pa.
      destruct (Nat.ltb 0 (length (p_BDRF q))).
      + rewrite (rsum_ext _ (fun j => 2 * (rho (nth k mu 0) (nth j mu 0) * nth j mu 0 * w j) * (J - s * F (half q + j)%nat (bottom q) + s * G (half q + j)%nat (bottom q)))
          (fun j => (2 * J * (rho (nth k mu 0) (nth j mu 0) * nth j mu 0 * w j) - 2 * s * (rho (nth k mu 0) (nth j mu 0) * nth j mu 0 * w j * F (half q + j)%nat (bottom q))) - (- 2) * s * (rho (nth k mu 0) (nth j mu 0) * nth j mu 0 * w j * G (half q + j)%nat (bottom q)))) by (intros; ring).
        rewrite !rsum_minus, !rsum_scal.
        set (SF := rsum (half q) (fun j => rho (nth k mu 0) (nth j mu 0) * nth j mu 0 * w j * F (half q + j)%nat (bottom q))) in *. set (SG := rsum (half q) (fun j => rho (nth k mu 0) (nth j mu 0) * nth j mu 0 * w j * G (half q + j)%nat (bottom q))) in *.
        set (S1 := rsum (half q) (fun i0 => rho (nth k mu 0) (nth i0 mu 0) * nth i0 mu 0 * w i0)) in *.
        assert (0 <= (1 - 2 * S1) * J) by (apply Rmult_le_pos; lra). lra.
      + rewrite rsum_0 by (intros; ring). lra.
    - intros k j Hk Hj. cbv beta. destruct (Nat.ltb 0 (length (p_BDRF q))); [|apply Rle_refl]. destruct Hdg as (_ & H2 & _). destruct (H2 j Hj) as (P1 & _ & P3). pose proof (ps_nonneg _ _ _ _ Hsurf k j Hk Hj) as P4.
      apply Rmult_le_pos; [lra|]. apply Rmult_le_pos; [apply Rmult_le_pos; lra|lra].
    - intros k Hk. pose proof (ps_albedo _ _ _ _ Hsurf k Hk) as Pa. unfold reflectance in Pa. destruct (Nat.ltb 0 (length (p_BDRF q))); [rewrite rsum_scal; exact Pa|]. rewrite rsum_0 by reflexivity. lra.
  Qed.
  Theorem kept_diff i t : (i < streams q)%nat -> 0 <= t <= bottom q -> Rabs (F i t - G i t) <= J.
  Proof.
    intros Hi Ht. pose proof (kept_diff1 1 (or_introl eq_refl) i t Hi Ht). pose proof (kept_diff1 (-1) (or_intror eq_refl) i t Hi Ht). apply Rabs_le. lra.
  Qed.
End Kept.

Theorem kept_reported : forall p lg la jk out, linalg_ok la -> leggauss_ok (half p) (lg (half p)) -> pydisort p lg la jk = Ok out ->
  forall w vn vp rho, double_gauss (half p) (po_mu out) w -> boundary_data p vn vp rho -> (forall l, (l < nlayers p)%nat -> fwd p l < 1) ->
  phase_nonneg p (po_mu out) -> passive_surface p (po_mu out) w (rho 0%nat) ->
  forall V M J, keeps_all p (po_mu out) w vn vp (rho 0%nat) V -> (forall i t, (i < streams p)%nat -> 0 <= t <= bottom p -> Rabs (V i t) <= M) ->
  0 <= J -> (forall l, (l < nlayers p)%nat -> 2 * (INR (ncoeffs p) / 100000000) * (M + p_I0 p / (4 * PI)) <= (1 - albedo p l) * J) ->
  forall t, 0 <= t <= bottom p -> exists A, po_u0 out [t] false false false = Ok (PVal (PT A)) /\ shp A = [streams p] /\
    forall i, (i < streams p)%nat -> Rabs (V i t - elt A [i]) <= J.
Proof.
  intros p lg la jk out Hla Hlg Hp w vn vp rho Hw BD Fp Hph Hs V M J KA HM HJ0 HJ t Ht. pose proof (call_valid p lg la jk out Hp) as Vp.
  destruct (modes_exist p lg la jk out Hla Hlg Hp) as (U & HU). pose proof (bd_bvp p lg la jk out Hla Hlg Hp w vn vp rho Hw BD U 0%nat HU (seen_0 p Vp)) as B.
  destruct (proj1 HU [t]) as (A & EA & SA). { intros s [<-|[]]. exact Ht. }
  exists A. split; [exact EA|]. pose proof (streams_eq p Vp) as Es. pose proof (half_pos p Vp) as Hh. split.
  - destruct SA as (X & _). rewrite X. unfold tsqueeze. cbn [shp length]. unfold sq_shape. cbn [filter]. destruct (Nat.eqb_spec (streams p) 1); [lia|]. reflexivity.
  - intros i Hi. pose proof (one_depth p Vp A _ i Hi SA) as E. cbn [nth] in E. rewrite E.
    exact (kept_diff p Vp Fp (po_mu out) w vn vp (rho 0%nat) J M Hw HJ0 HJ V (U 0%nat) KA B HM Hph Hs i t Hi Ht).
Qed.

Lemma fluxes_near : forall p lg la jk out, linalg_ok la -> leggauss_ok (half p) (lg (half p)) -> pydisort p lg la jk = Ok out ->
  forall w, double_gauss (half p) (po_mu out) w -> forall V J U, modes_of p out U ->
  (forall i t, (i < streams p)%nat -> 0 <= t <= bottom p -> Rabs (V i t - U 0%nat i t) <= J) ->
  forall tau, depths_ok p tau ->
  (exists A, po_flux_up out tau false false = Ok (PVal (PT A)) /\ twithin (PI * J) A (tsqueeze (mkT [length tau] (fun idx =>
     2 * PI * rsum (half p) (fun i => w i * nth i (po_mu out) 0 * V i (nth (nth 0 idx 0%nat) tau 0)))))) /\
  (exists A B, po_flux_down out tau false false = Ok (PTup [PT A; PT B]) /\ twithin (PI * J) A (tsqueeze (mkT [length tau] (fun idx => let t := nth (nth 0 idx 0%nat) tau 0 in
     2 * PI * rsum (half p) (fun i => w i * nth i (po_mu out) 0 * V (half p + i)%nat t) + p_mu0 p * p_I0 p * exp (- sdepth p t / p_mu0 p) - direct p t)))).
Proof.
  intros p lg la jk out Hla Hlg Hp w Hw V J U HU D tau Ht. pose proof (call_valid p lg la jk out Hp) as Vp. pose proof PI_RGT_0 as HPI.
  pose proof (streams_eq p Vp) as Es. pose proof (half_pos p Vp) as Hh.
  destruct (call_fluxes p lg la jk out Hla Hlg Hp U HU) as (w' & Hw' & R1 & R2). pose proof (dg_weights _ _ _ _ Hw Hw') as Ew.
  assert (Hin : forall k, (k < length tau)%nat -> 0 <= nth k tau 0 <= bottom p) by (intros k Hk; apply Ht, nth_In; exact Hk).
  assert (Hmu : forall k, (k < half p)%nat -> 0 < nth k (po_mu out) 0 < 1 /\ nth (half p + k) (po_mu out) 0 = - nth k (po_mu out) 0 /\ 0 < w k) by (destruct Hw as (_ & H2 & _); exact H2).
  assert (HS : forall f g, (forall i, (i < half p)%nat -> Rabs (g i - f i) <= J) ->
    Rabs (2 * PI * rsum (half p) (fun i => w' i * nth i (po_mu out) 0 * f i) - 2 * PI * rsum (half p) (fun i => w i * nth i (po_mu out) 0 * g i)) <= PI * J).
  { intros f g Hfg. rewrite <- Rmult_minus_distr_l, <- rsum_minus, Rabs_mult, (Rabs_pos_eq (2 * PI)) by lra.
    apply Rle_trans with (2 * PI * (1 / 2 * J)); [|lra]. apply Rmult_le_compat_l; [lra|].
    rewrite <- (dg_first (half p) (po_mu out) w Hh Hw), Rmult_comm, <- rsum_scal. eapply Rle_trans; [apply rsum_abs|]. apply rsum_le. intros i Hi. destruct (Hmu i Hi) as (P1 & _ & P3).
    rewrite <- (Ew i Hi). replace (w i * nth i (po_mu out) 0 * f i - w i * nth i (po_mu out) 0 * g i) with (- (w i * nth i (po_mu out) 0) * (g i - f i)) by ring.
    rewrite Rabs_mult, Rabs_Ropp, (Rabs_pos_eq (_ * _)) by (apply Rmult_le_pos; lra). rewrite (Rmult_comm J). apply Rmult_le_compat_l; [apply Rmult_le_pos; lra|auto]. }
  assert (SQ : forall s f, squeezed (tsqueeze (mkT s f)) s f) by (intros s f; split; [reflexivity|intros; reflexivity]).
  split.
  - destruct (R1 tau Ht) as (A & EA & SA). exists A. split; [exact EA|]. refine (squeezed_within _ _ _ _ _ _ SA (SQ _ _) _). intros idx Hi. apply inb_1 in Hi as (b & -> & Hb). cbn [nth].
    apply HS. intros i Hi. apply D; [lia|apply Hin; exact Hb].
  - destruct (R2 tau Ht) as (A & C & EA & SA & _). exists A, C. split; [exact EA|]. refine (squeezed_within _ _ _ _ _ _ SA (SQ _ _) _). intros idx Hi. apply inb_1 in Hi as (b & -> & Hb). cbn [nth]. cbv zeta.
    set (t := nth b tau 0). pose proof (HS (fun i => U 0%nat (half p + i)%nat t) (fun i => V (half p + i)%nat t)) as H. cbv beta in H.
    match goal with |- Rabs ?x <= _ => match type of H with _ -> Rabs ?y <= _ => replace x with y by ring end end. apply H. intros i Hi. apply D; [lia|apply Hin; exact Hb].
Qed.

Theorem kept_fluxes : forall p lg la jk out, linalg_ok la -> leggauss_ok (half p) (lg (half p)) -> pydisort p lg la jk = Ok out ->
  forall w vn vp rho, double_gauss (half p) (po_mu out) w -> boundary_data p vn vp rho -> (forall l, (l < nlayers p)%nat -> fwd p l < 1) ->
  phase_nonneg p (po_mu out) -> passive_surface p (po_mu out) w (rho 0%nat) ->
  forall V M J, keeps_all p (po_mu out) w vn vp (rho 0%nat) V -> (forall i t, (i < streams p)%nat -> 0 <= t <= bottom p -> Rabs (V i t) <= M) ->
  0 <= J -> (forall l, (l < nlayers p)%nat -> 2 * (INR (ncoeffs p) / 100000000) * (M + p_I0 p / (4 * PI)) <= (1 - albedo p l) * J) ->
  forall tau, depths_ok p tau ->
  (exists A, po_flux_up out tau false false = Ok (PVal (PT A)) /\ twithin (PI * J) A (tsqueeze (mkT [length tau] (fun idx =>
     2 * PI * rsum (half p) (fun i => w i * nth i (po_mu out) 0 * V i (nth (nth 0 idx 0%nat) tau 0)))))) /\
  (exists A B, po_flux_down out tau false false = Ok (PTup [PT A; PT B]) /\ twithin (PI * J) A (tsqueeze (mkT [length tau] (fun idx => let t := nth (nth 0 idx 0%nat) tau 0 in
     2 * PI * rsum (half p) (fun i => w i * nth i (po_mu out) 0 * V (half p + i)%nat t) + p_mu0 p * p_I0 p * exp (- sdepth p t / p_mu0 p) - direct p t)))).
Proof.
  intros p lg la jk out Hla Hlg Hp w vn vp rho Hw BD Fp Hph Hs V M J KA HM HJ0 HJ tau Ht. pose proof (call_valid p lg la jk out Hp) as Vp.
  destruct (modes_exist p lg la jk out Hla Hlg Hp) as (U & HU). pose proof (bd_bvp p lg la jk out Hla Hlg Hp w vn vp rho Hw BD U 0%nat HU (seen_0 p Vp)) as B.
  refine (fluxes_near p lg la jk out Hla Hlg Hp w Hw V J U HU _ tau Ht). intros i t Hi Hti. exact (kept_diff p Vp Fp (po_mu out) w vn vp (rho 0%nat) J M Hw HJ0 HJ V (U 0%nat) KA B HM Hph Hs i t Hi Hti).
Qed.

(** The solution for one layer with isotropic scattering and two streams. *)
Section Two.
  Variables (T a : R).
  Hypothesis HT : 0 < T.
  Hypothesis Ha : 0 <= a < 1.
  Let p := p_wk T a.
  Let g := sqrt (1 - a).
  Let k := 2 * g.
  Let D := (1 + g) ^ 2 - (1 - g) ^ 2 * exp (- (2 * k * T)).
  Definition two_streams (i : nat) (t : R) : R :=
    match i with
    | 0%nat => a / D * (exp (- k * t + 0) - exp (k * t + - (2 * k * T)))
    | _ => (1 + g) ^ 2 / D * exp (- k * t + 0) - (1 - g) ^ 2 / D * exp (k * t + - (2 * k * T))
    end.
  Lemma g2 : 0 < g <= 1 /\ a = 1 - g * g.
  Proof.
    assert (E : g * g = 1 - a) by (unfold g; apply sqrt_sqrt; lra). assert (0 < g) by (unfold g; apply sqrt_lt_R0; lra). split; [|lra]. split; [assumption|]. nra.
  Qed.
  Lemma D_pos : 0 < D.
  Proof.
    destruct g2 as (Hg & _). assert (E : exp (- (2 * k * T)) <= 1). { rewrite <- exp_0. apply exp_mono. assert (0 < k * T) by (apply Rmult_lt_0_compat; unfold k; lra). lra. }
    pose proof (exp_pos (- (2 * k * T))). unfold D. assert (0 <= (1 - g) ^ 2) by nra. assert ((1 - g) ^ 2 * exp (- (2 * k * T)) <= (1 - g) ^ 2 * 1) by (apply Rmult_le_compat_l; lra). nra.
  Qed.
  Lemma two_keeps lg la jk out w : leggauss_ok (half p) (lg (half p)) -> pydisort p lg la jk = Ok out -> double_gauss (half p) (po_mu out) w ->
    keeps_all p (po_mu out) w (fun _ => 1) (fun _ => 0) (fun _ _ => 0) two_streams.
  Proof.
    intros Hlg Hp HD. destruct (dg_one _ _ HD) as (Em & Ew). destruct g2 as (Hg & Eg). pose proof D_pos as HDp.
    assert (DE : forall t, is_derive (fun s => exp (- k * s + 0)) t (- k * exp (- k * t + 0))) by (intros; apply dexp).
    assert (DF : forall t, is_derive (fun s => exp (k * s + - (2 * k * T))) t (k * exp (k * t + - (2 * k * T)))) by (intros; apply dexp).
    assert (D0 : forall t, is_derive (two_streams 0) t (2 * two_streams 0 t - a * (two_streams 0 t + two_streams 1 t))).
    { intros t. refine (der_eq _ _ _ _ _ (der_scal _ (a / D) t _ (der_minus _ _ _ _ _ (DE t) (DF t)))). unfold two_streams, k. rewrite Eg. field. lra. }
    assert (D1 : forall t, is_derive (two_streams 1) t (- 2 * two_streams 1 t + a * (two_streams 0 t + two_streams 1 t))).
    { intros t. refine (der_eq _ _ _ _ _ (der_minus _ _ _ _ _ (der_scal _ ((1 + g) ^ 2 / D) t _ (DE t)) (der_scal _ ((1 - g) ^ 2 / D) t _ (DF t)))). unfold two_streams, k. rewrite Eg. field. lra. }
    constructor.
    - intros l i t Hl Hi Ht. change (nlayers p) with 1%nat in Hl. change (streams p) with 2%nat in Hi. rewrite Em.
      assert (X : rte p [1/2; -1/2] w (wphase_s p l) 0 l i t (fun j => two_streams j t) = two_streams i t - a / 2 * (two_streams 0 t + two_streams 1 t)).
      { unfold rte. cbn [Nat.eqb]. destruct (wk_scl T a l Hl) as (E1 & E2 & _ & E4). fold p in E1, E2, E4. rewrite E1, E2, E4. change (source p l t) with (source (p_wk T a) l t). rewrite wk_source. unfold X_spec. change (p_I0 p) with 0. change (streams p) with 2%nat. change (ncoeffs p) with 2%nat. cbn [rsum].
        rewrite !(wk_D a) by (intros [|j] Hj; [lia|]; unfold p; rewrite wk_wphase by exact Hl; reflexivity). unfold p. rewrite !wk_wphase by exact Hl. cbn [Nat.eqb].
        unfold wnode. change (half (p_wk T a)) with 1%nat. cbn [Nat.ltb Nat.leb Nat.sub Nat.eqb]. rewrite Ew. field. apply PI_neq0. }
      rewrite X. destruct i as [|[|i]]; [| |lia].
      + refine (der_eq _ _ _ _ _ (D0 t)). cbn [nth]. field.
      + refine (der_eq _ _ _ _ _ (D1 t)). cbn [nth]. field.
    - intros i Hi. change (streams p) with 2%nat in Hi. destruct i as [|[|i]]; [| |lia]; apply cont_on_derive; intros y _; eexists; [apply D0|apply D1].
    - intros i Hi. change (half p) with 1%nat in *. replace (1 + i)%nat with 1%nat by lia. unfold two_streams. rewrite !Rmult_0_r, !Rplus_0_l, exp_0. unfold D in *. field. lra.
    - intros i Hi. change (half p) with 1%nat in Hi. replace i with 0%nat by lia. change (bottom p) with T. cbn [length p_BDRF p p_wk Nat.ltb Nat.leb]. unfold two_streams. replace (k * T + - (2 * k * T)) with (- k * T + 0) by ring. ring.
  Qed.
  Lemma two_bounded i t : (i < 2)%nat -> 0 <= t <= T -> Rabs (two_streams i t) <= 4 / D + 4 / D.
  Proof.
    intros Hi Ht. destruct g2 as (Hg & _). pose proof D_pos as HDp. assert (Hk : 0 < k) by (unfold k; lra).
    assert (E1 : 0 < exp (- k * t + 0) <= 1). { split; [apply exp_pos|]. rewrite <- exp_0. apply exp_mono. nra. }
    assert (E2 : 0 < exp (k * t + - (2 * k * T)) <= 1). { split; [apply exp_pos|]. rewrite <- exp_0. apply exp_mono. nra. }
    assert (Hi0 : 0 < / D) by (apply Rinv_0_lt_compat; exact HDp).
    assert (Y : forall c d x y, 0 <= c <= 4 -> 0 <= d <= 4 -> 0 < x <= 1 -> 0 < y <= 1 -> Rabs (c / D * x - d / D * y) <= 4 / D + 4 / D).
    { intros c d x y Hc Hd Hx Hy. assert (X : forall c x, 0 <= c <= 4 -> 0 < x <= 1 -> 0 <= c / D * x <= 4 / D).
      { intros c' x' Hc' Hx'. unfold Rdiv. split; [apply Rmult_le_pos; [apply Rmult_le_pos|]; lra|]. apply Rle_trans with (c' * / D * 1); [apply Rmult_le_compat_l; [apply Rmult_le_pos|]; lra|]. rewrite Rmult_1_r. apply Rmult_le_compat_r; lra. }
      pose proof (X c x Hc Hx). pose proof (X d y Hd Hy). apply Rabs_le. lra. }
    destruct i as [|i]; unfold two_streams.
    - rewrite Rmult_minus_distr_l. apply Y; lra.
    - apply Y; try assumption; nra.
  Qed.
  Lemma two_bound : exists M, 0 <= M /\ forall i t, (i < streams p)%nat -> 0 <= t <= bottom p -> Rabs (two_streams i t) <= M.
  Proof.
    exists (4 / D + 4 / D). split; [|intros i t Hi Ht; apply two_bounded; assumption]. eapply Rle_trans; [apply Rabs_pos|apply (two_bounded 0%nat 0); [lia|lra]].
  Qed.
  Lemma two_up : 0 < a -> 0 < two_streams 0 0.
  Proof.
    intros Hp. destruct g2 as (Hg & _). pose proof D_pos as HDp. unfold two_streams. apply Rmult_lt_0_compat; [apply Rdiv_lt_0_compat; assumption|]. apply Rlt_Rminus, exp_increasing.
    assert (0 < k * T) by (apply Rmult_lt_0_compat; unfold k; lra). lra.
  Qed.
End Two.
