(** The maximum principle for the equation that keeps all scattering: the solution is unique, and what is reported
    differs from it by an amount bounded by what is reported. *)
From Coq Require Import Classical String Reals Lra Lia List Bool Arith ZArith.
From Coquelicot Require Import Coquelicot.
From Verif Require Import Base Tensor Spec M_LinAlg Spec_RTE Calc M_Subroutines M_GenPart M_MathscrV M_Coeffs M_Assemble M_Pydisort
  Spec_Sol Spec_Valid Spec_Calls Spec_Unique Spec_Phys Spec_Mono Spec_Depend P_Special P_Addition P_Quad P_Sub P_Solve P_Energy P_Pydisort P_Pydisort2 P_Pydisort3 P_Pydisort4 P_Pydisort5 P_Pydisort6 P_Pydisort8 P_Teq P_NT3 P_Unique2 P_Refine P_Max P_Max2 P_Max3 P_Max4 P_Sub3 P_Mono P_Full2 P_Depend P_Depend2 P_Ints4 P_Exist Examples3 Examples5 Examples6 Examples18 Spec_Cutoff P_Cutoff P_Cutoff2 P_Cutoff3.
Import ListNotations.
Local Open Scope R_scope.

Section FullField.
  Variables (p : py_in) (V : valid p) (mu : list R) (w : nat -> R).
  Hypothesis Hdg : double_gauss (half p) mu w.
  Let N := half p.
  Lemma D_row_full l i : (l < nlayers p)%nat ->
    rsum (2 * N) (fun j => wnode N w j * D_spec (albedo_s p l) (wphase_s p l) (ncoeffs p) 0 (nth i mu 0) (nth j mu 0)) = albedo_s p l.
  Proof.
    intros Hl. transitivity (albedo_s p l * wphase_s p l 0%nat); [|apply (albedo_norm p); assumption]. destruct Hdg as (H1 & H2 & _ & H4). pose proof (half_pos p V) as HN.
    rewrite (rsum_ext _ _ (fun j => wnode N w j * D_spec (albedo_s p l) (wphase_s p l) (ncoeffs p) 0 (nth j mu 0) (nth i mu 0))) by (intros; rewrite D_spec_sym; reflexivity).
    apply (D_sum N mu w HN H1); auto; [intros k Hk; apply (H2 k Hk)|apply (nc_range p V)].
  Qed.
  Variables (F : nat -> R -> R) (Rm : nat -> nat -> R).
  Hypothesis Hph : phase_nonneg p mu.
  Hypothesis Fc : forall i, (i < 2 * N)%nat -> cont_on 0 (bottom p) (F i).
  Hypothesis Fd : forall l i t, (l < nlayers p)%nat -> (i < 2 * N)%nat -> top_of p l < t < bot_of p l -> exists Q, 0 <= Q /\
    is_derive (F i) t ((scl p l * (F i t - rsum (2 * N) (fun j => wnode N w j * D_spec (albedo_s p l) (wphase_s p l) (ncoeffs p) 0 (nth i mu 0) (nth j mu 0) * F j t)) - Q) / nth i mu 0).
  Hypothesis Ftop : forall i, (i < N)%nat -> 0 <= F (N + i)%nat 0.
  Hypothesis Fbot : forall i, (i < N)%nat -> rsum N (fun j => Rm i j * F (N + j)%nat (bottom p)) <= F i (bottom p).
  Hypothesis R0 : forall i j, (i < N)%nat -> (j < N)%nat -> 0 <= Rm i j.
  Hypothesis R1 : forall i, (i < N)%nat -> rsum N (Rm i) <= 1.
  Theorem full_nonneg i t : (i < 2 * N)%nat -> 0 <= t <= bottom p -> 0 <= F i t.
  Proof.
      intros Hi Ht. pose proof (half_pos p V) as HN. fold N in HN.
      destruct (family_min 0 (bottom p) (2 * N) F ltac:(lia) ltac:(lra) Fc) as (i0 & t0 & Hi0 & Ht0 & Hmin).
      destruct (Rle_lt_dec 0 (F i0 t0)) as [Hle|Hlt]; [apply Rle_trans with (1:=Hle); auto|exfalso].
      set (M := - F i0 t0). assert (HM : 0 < M) by (unfold M; lra).
      assert (Hge : forall j x, (j < 2 * N)%nat -> 0 <= x <= bottom p -> - M <= F j x) by (intros; unfold M; rewrite Ropp_involutive; auto).
      refine (Rlt_irrefl (- M) _). replace (- M) with (F i0 t0) at 2 by (unfold M; ring).
      refine (all_above p V mu w Hdg F M (albedo_s p) HM _ Fc Hge _ _ _ i0 t0 Hi0 Ht0).
      - intros l Hl. apply (albedo_s_range p V l Hl).
      - intros l j x Hl Hj Hx. destruct (Fd l j x Hl Hj Hx) as (Q & HQ & HD). eexists. split; [exact HD|].
        pose proof (scl_pos p V l Hl) as Hs. destruct (layer_in p V l Hl) as (B0 & B1).
        assert (Hnu : nth j mu 0 <> 0).
        { destruct Hdg as (_ & H2 & _). destruct (Nat.lt_ge_cases j N) as [Hj'|Hj']; [destruct (H2 j Hj'); lra|].
          destruct (H2 (j - N)%nat ltac:(unfold N in *; lia)) as (P1 & P2 & _). replace (half p + (j - N))%nat with j in P2 by (unfold N in *; lia). lra. }
        replace (nth j mu 0 * ((scl p l * (F j x - rsum (2 * N) (fun j0 => wnode N w j0 * D_spec (albedo_s p l) (wphase_s p l) (ncoeffs p) 0 (nth j mu 0) (nth j0 mu 0) * F j0 x)) - Q) / nth j mu 0))
          with (scl p l * (F j x - rsum (2 * N) (fun j0 => wnode N w j0 * D_spec (albedo_s p l) (wphase_s p l) (ncoeffs p) 0 (nth j mu 0) (nth j0 mu 0) * F j0 x)) - Q) by (field; exact Hnu).
        assert (HS : - (albedo_s p l * M) <= rsum (2 * N) (fun j0 => wnode N w j0 * D_spec (albedo_s p l) (wphase_s p l) (ncoeffs p) 0 (nth j mu 0) (nth j0 mu 0) * F j0 x)).
        { apply Rle_trans with (rsum (2 * N) (fun j0 => wnode N w j0 * D_spec (albedo_s p l) (wphase_s p l) (ncoeffs p) 0 (nth j mu 0) (nth j0 mu 0) * (- M))).
          - rewrite rsum_scal_r. pose proof (D_row_full l j Hl). nra.
          - apply rsum_le. intros k Hk. apply Rmult_le_compat_l; [|apply Hge; auto; lra].
            apply Rmult_le_pos; [apply Rlt_le, (wnode_pos p mu w Hdg); auto|]. rewrite D_spec_mode. pose proof (albedo_s_range p V l Hl). apply Rmult_le_pos; [lra|]. apply Hph; auto; rewrite (streams_eq p V); auto. }
        nra.
      - intros j Hj. pose proof (Ftop j Hj). fold N. lra.
      - intros j Hj E. apply NNPP. intros Hno.
        assert (Hgt : forall k, (k < N)%nat -> - M < F (N + k)%nat (bottom p)).
        { intros k Hk. destruct (Rle_lt_dec (F (N + k)%nat (bottom p)) (- M)) as [L|]; [|assumption]. exfalso. apply Hno. exists k. split; [exact Hk|].
          apply Rle_antisym; [exact L|apply Hge; [lia|lra]]. }
        pose proof (Fbot j Hj) as HB. rewrite E in HB.
        assert (HS : rsum N (fun k => Rm j k * (F (N + k)%nat (bottom p) + M)) <= - M + M * rsum N (Rm j)).
        { rewrite <- rsum_scal. rewrite (rsum_ext N _ (fun k => Rm j k * F (N + k)%nat (bottom p) + M * Rm j k)) by (intros; ring). rewrite rsum_plus. lra. }
        pose proof (R1 j Hj) as HR1.
        assert (HS0 : rsum N (fun k => Rm j k * (F (N + k)%nat (bottom p) + M)) <= 0) by nra.
        assert (Hz : forall k, (k < N)%nat -> Rm j k * (F (N + k)%nat (bottom p) + M) = 0).
        { apply rsum_zero_nonneg.
          - intros k Hk. apply Rmult_le_pos; [apply R0; auto|]. pose proof (Hgt k Hk). lra.
          - apply Rle_antisym; [exact HS0|]. apply rsum_nonneg. intros k Hk. apply Rmult_le_pos; [apply R0; auto|]. pose proof (Hgt k Hk). lra. }
        assert (HR : rsum N (Rm j) = 0).
        { apply rsum_0. intros k Hk. pose proof (Hgt k Hk). destruct (Rmult_integral _ _ (Hz k Hk)); [assumption|lra]. }
        assert (HF0 : rsum N (fun k => Rm j k * F (N + k)%nat (bottom p)) = 0).
        { apply rsum_0. intros k Hk. pose proof (Hgt k Hk). destruct (Rmult_integral _ _ (Hz k Hk)) as [Z|Z]; [rewrite Z; ring|lra]. }
        lra.
    Qed.
End FullField.

Section Near.
  Variable q : py_in.
  Hypothesis Vq : valid q.
  Variables (mu : list R) (w vn vp : nat -> R) (rho : R -> R -> R) (J : R).
  Hypothesis Hdg : double_gauss (half q) mu w.
  Hypothesis HJ0 : 0 <= J.
  Variables (F G : nat -> R -> R).
  Hypothesis BF : keeps_all q mu w vn vp rho F.
  (** [G] meets the boundary conditions, and the equation up to a defect that absorption of [J] makes up for. *)
  Hypothesis Gd : forall l i t, (l < nlayers q)%nat -> (i < 2 * half q)%nat -> top_of q l < t < bot_of q l -> exists dl,
    Rabs dl <= (1 - albedo q l) * J /\ is_derive (G i) t ((rte q mu w (wphase_s q l) 0 l i t (fun j => G j t) + dl) / nth i mu 0).
  Hypothesis Gc : forall i, (i < 2 * half q)%nat -> cont_on 0 (bottom q) (G i).
  Hypothesis Gt : forall i, (i < half q)%nat -> G (half q + i)%nat 0 = vn i.
  Hypothesis Gb : forall i, (i < half q)%nat -> G i (bottom q) = vp i +
    (if Nat.ltb 0 (length (p_BDRF q)) then
       2 * rsum (half q) (fun j => rho (nth i mu 0) (nth j mu 0) * nth j mu 0 * w j * G (half q + j)%nat (bottom q))
       + p_mu0 q * p_I0 q / PI * rho (nth i mu 0) (p_mu0 q) * exp (- depth_s q (nlayers q - 1) (bottom q) / p_mu0 q)
     else 0).
  Hypothesis Hph : phase_nonneg q mu.
  Hypothesis Hsurf : passive_surface q mu w rho.

  Lemma full_diff1 s : s = 1 \/ s = -1 -> forall i t, (i < 2 * half q)%nat -> 0 <= t <= bottom q -> s * (F i t - G i t) <= J.
  Proof.
    intros Hs i t Hi Ht. destruct BF as [A1 A2 A3 A4]. rewrite (streams_eq q Vq) in A1, A2.
    assert (SA : forall x y, Rabs x <= y -> s * x <= y /\ - (s * x) <= y). { intros x y H. apply Rabs_le_between in H. destruct Hs as [-> | ->]; lra. }
    enough (0 <= J - s * F i t + s * G i t) by lra.
    refine (full_nonneg q Vq mu w Hdg (fun i t => J - s * F i t + s * G i t)
      (fun i j => if Nat.ltb 0 (length (p_BDRF q)) then 2 * (rho (nth i mu 0) (nth j mu 0) * nth j mu 0 * w j) else 0) Hph _ _ _ _ _ _ i t Hi Ht).
    - intros k Hk. apply (cont_on_ext _ _ (fun x => (J + (- s) * F k x) + s * G k x)); [intros; ring|]. apply cont_on_plus; [|apply cont_on_scal, Gc; exact Hk]. apply cont_on_plus.
      + apply cont_on_const.
      + apply cont_on_scal, A2. exact Hk.
    - intros l k x Hl Hk Hx. destruct (Gd l k x Hl Hk Hx) as (dl & Hdl & DG). pose proof (A1 l k x Hl Hk Hx) as DF. pose proof (scl_pos q Vq l Hl) as Hsc.
      exists (scl q l * J * (1 - albedo_s q l) - s * dl). split.
      + pose proof (proj1 (SA _ _ Hdl)). assert (E : scl q l * (1 - albedo_s q l) = 1 - albedo q l) by (unfold albedo_s, scl in *; field; lra).
        replace (scl q l * J * (1 - albedo_s q l)) with (scl q l * (1 - albedo_s q l) * J) by ring. rewrite E. lra.
      + refine (der_eq _ _ _ _ _ (der_plus _ _ _ _ _ (der_minus _ _ _ _ _ (is_derive_const J x) (der_scal _ s _ _ DF)) (der_scal _ s _ _ DG))). change zero with 0.
        unfold rte. cbn [Nat.eqb]. rewrite (streams_eq q Vq).
        pose proof (D_row_full q Vq mu w Hdg l k Hl) as Enc.
        set (Dq := D_spec (albedo_s q l) (wphase_s q l) (ncoeffs q) 0 (nth k mu 0)) in *.
        rewrite (rsum_ext _ (fun j => wnode (half q) w j * Dq (nth j mu 0) * (J - s * F j x + s * G j x))
          (fun j => (J * (wnode (half q) w j * Dq (nth j mu 0)) - s * (wnode (half q) w j * Dq (nth j mu 0) * F j x)) - (- s) * (wnode (half q) w j * Dq (nth j mu 0) * G j x))) by (intros; ring).
        rewrite !rsum_minus, !rsum_scal, Enc. unfold Rdiv. ring.
    - intros k Hk. rewrite (Gt k Hk), (A3 k Hk). lra.
    - intros k Hk. rewrite (Gb k Hk), (A4 k Hk).
      pose proof (ps_albedo _ _ _ _ Hsurf k Hk) as Pa. unfold reflectance in Pa.
      destruct (Nat.ltb 0 (length (p_BDRF q))).
      + rewrite (rsum_ext _ (fun j => 2 * (rho (nth k mu 0) (nth j mu 0) * nth j mu 0 * w j) * (J - s * F (half q + j)%nat (bottom q) + s * G (half q + j)%nat (bottom q)))
          (fun j => (2 * J * (rho (nth k mu 0) (nth j mu 0) * nth j mu 0 * w j) - 2 * s * (rho (nth k mu 0) (nth j mu 0) * nth j mu 0 * w j * F (half q + j)%nat (bottom q))) - (- 2) * s * (rho (nth k mu 0) (nth j mu 0) * nth j mu 0 * w j * G (half q + j)%nat (bottom q)))) by (intros; ring).
        rewrite !rsum_minus, !rsum_scal.
        set (SF := rsum (half q) (fun j => rho (nth k mu 0) (nth j mu 0) * nth j mu 0 * w j * F (half q + j)%nat (bottom q))) in *. set (SG := rsum (half q) (fun j => rho (nth k mu 0) (nth j mu 0) * nth j mu 0 * w j * G (half q + j)%nat (bottom q))) in *.
        set (S1 := rsum (half q) (fun i0 => rho (nth k mu 0) (nth i0 mu 0) * nth i0 mu 0 * w i0)) in *.
        assert (0 <= (1 - 2 * S1) * J) by (apply Rmult_le_pos; lra). lra.
      + rewrite rsum_0 by (intros; ring). lra.
    - intros k j Hk Hj. cbv beta. destruct (Nat.ltb 0 (length (p_BDRF q))); [|apply Rle_refl]. destruct Hdg as (_ & H2 & _). destruct (H2 j Hj) as (P1 & _ & P3). pose proof (ps_nonneg _ _ _ _ Hsurf k j Hk Hj) as P4.
      apply Rmult_le_pos; [lra|]. apply Rmult_le_pos; [apply Rmult_le_pos; lra|lra].
    - intros k Hk. pose proof (ps_albedo _ _ _ _ Hsurf k Hk) as Pa. unfold reflectance in Pa. destruct (Nat.ltb 0 (length (p_BDRF q))); [rewrite rsum_scal; exact Pa|]. rewrite rsum_0 by reflexivity. lra.
  Qed.
  Lemma full_diff i t : (i < 2 * half q)%nat -> 0 <= t <= bottom q -> Rabs (F i t - G i t) <= J.
  Proof.
    intros Hi Ht. pose proof (full_diff1 1 (or_introl eq_refl) i t Hi Ht). pose proof (full_diff1 (-1) (or_intror eq_refl) i t Hi Ht). apply Rabs_le. lra.
  Qed.
End Near.

(** There is at most one solution that keeps all scattering. *)
Theorem kept_unique : forall p mu w vn vp rho V W, valid p -> double_gauss (half p) mu w -> phase_nonneg p mu -> passive_surface p mu w rho ->
  keeps_all p mu w vn vp rho V -> keeps_all p mu w vn vp rho W -> forall i t, (i < streams p)%nat -> 0 <= t <= bottom p -> V i t = W i t.
Proof.
  intros p mu w vn vp rho V W Vp Hdg Hph Hs KV [B1 B2 B3 B4] i t Hi Ht. rewrite (streams_eq p Vp) in Hi, B1, B2.
  enough (H : Rabs (V i t - W i t) <= 0). { pose proof (Rabs_pos (V i t - W i t)). destruct (Req_dec (V i t) (W i t)) as [E|E]; [exact E|]. pose proof (Rabs_pos_lt (V i t - W i t) ltac:(lra)). lra. }
  refine (full_diff p Vp mu w vn vp rho 0 Hdg (Rle_refl 0) V W KV _ B2 B3 B4 Hph Hs i t Hi Ht).
  intros l k x Hl Hk Hx. exists 0. split; [rewrite Rabs_R0; lra|]. rewrite Rplus_0_r. apply B1; assumption.
Qed.

(** What is reported differs from the solution that keeps all scattering by an amount bounded by what is reported. *)
Section Reported.
  Variables (p : py_in) (lg : nat -> list R * list R) (la : linalg) (jk : junk) (out : py_out).
  Hypothesis Hla : linalg_ok la.
  Hypothesis Hlg : leggauss_ok (half p) (lg (half p)).
  Hypothesis Hp : pydisort p lg la jk = Ok out.
  Variables (w vn vp : nat -> R) (rho : nat -> R -> R -> R).
  Hypothesis Hw : double_gauss (half p) (po_mu out) w.
  Hypothesis BD : boundary_data p vn vp rho.
  Hypothesis Fp : forall l, (l < nlayers p)%nat -> fwd p l < 1.
  Hypothesis Hph : phase_nonneg p (po_mu out).
  Hypothesis Hs : passive_surface p (po_mu out) w (rho 0%nat).
  Variables (M J : R).
  Hypothesis HM : forall t, 0 <= t <= bottom p -> exists A, po_u0 out [t] false false false = Ok (PVal (PT A)) /\ forall i, (i < streams p)%nat -> Rabs (elt A [i]) <= M.
  Hypothesis HJ0 : 0 <= J.
  Hypothesis HJ : forall l, (l < nlayers p)%nat -> 2 * (INR (ncoeffs p) / 100000000) * (M + p_I0 p / (4 * PI)) <= (1 - albedo p l) * J.
  Variable V : nat -> R -> R.
  Hypothesis KA : keeps_all p (po_mu out) w vn vp (rho 0%nat) V.

  Theorem reported_near U : modes_of p out U -> forall i t, (i < streams p)%nat -> 0 <= t <= bottom p -> Rabs (V i t - U 0%nat i t) <= J.
  Proof.
    intros HU i t Hi Ht. pose proof (call_valid p lg la jk out Hp) as Vp. pose proof (streams_eq p Vp) as Es.
    pose proof (bd_bvp p lg la jk out Hla Hlg Hp w vn vp rho Hw BD U 0%nat HU (seen_0 p Vp)) as [B1 B2 B3 B4]. rewrite Es in Hi, B1, B2.
    assert (UM : forall i t, (i < 2 * half p)%nat -> 0 <= t <= bottom p -> Rabs (U 0%nat i t) <= M).
    { intros k x Hk Hx. destruct (HM x Hx) as (A & EA & HA). destruct (proj1 HU [x]) as (A' & EA' & SA). { intros s [<-|[]]. exact Hx. }
      rewrite EA in EA'. injection EA' as <-. pose proof (one_depth p Vp A _ k ltac:(rewrite Es; exact Hk) SA) as E. cbn [nth] in E. rewrite <- E. apply HA. rewrite Es. exact Hk. }
    refine (full_diff p Vp (po_mu out) w vn vp (rho 0%nat) J Hw HJ0 V (U 0%nat) KA _ B2 B3 _ Hph Hs i t Hi Ht).
    - intros l k x Hl Hk Hx. destruct (cutoff_ex (albedo_s p l) (wphase_s p l) (ncoeffs p) 0) as (wg & Hc).
      exists (rte p (po_mu out) w wg 0 l k x (fun j => U 0%nat j x) - rte p (po_mu out) w (wphase_s p l) 0 l k x (fun j => U 0%nat j x)). split.
      + assert (Hxb : 0 <= x <= bottom p) by (apply (layer_at_range p Vp x l); split; [exact Hl|left; lra]).
        pose proof (cut_effect p Vp (po_mu out) w M Hw p wg l k x (fun j => U 0%nat j x) Vp eq_refl eq_refl eq_refl Hl (Fp l Hl) ltac:(lra) Hc Hk (fun j Hj => UM j x Hj Hxb)) as C1.
        rewrite <- (full_rte p Vp Fp) in C1 by exact Hl. eapply Rle_trans; [exact C1|]. exact (HJ l Hl).
      + refine (der_eq _ _ _ _ _ (B1 l k wg x Hl Hk Hx Hc)). f_equal. ring.
    - intros k Hk. exact (B4 k Hk).
  Qed.
  Theorem near_reported : forall t, 0 <= t <= bottom p -> exists A, po_u0 out [t] false false false = Ok (PVal (PT A)) /\ shp A = [streams p] /\
    forall i, (i < streams p)%nat -> Rabs (V i t - elt A [i]) <= J.
  Proof.
    intros t Ht. pose proof (call_valid p lg la jk out Hp) as Vp. destruct (modes_exist p lg la jk out Hla Hlg Hp) as (U & HU). pose proof (reported_near U HU) as D.
    destruct (proj1 HU [t]) as (A & EA & SA). { intros s [<-|[]]. exact Ht. }
    exists A. split; [exact EA|]. pose proof (streams_eq p Vp) as Es. pose proof (half_pos p Vp) as Hh. split.
    - destruct SA as (X & _). rewrite X. unfold tsqueeze. cbn [shp length]. unfold sq_shape. cbn [filter]. destruct (Nat.eqb_spec (streams p) 1); [lia|]. reflexivity.
    - intros i Hi. pose proof (one_depth p Vp A _ i Hi SA) as E. cbn [nth] in E. rewrite E. apply D; assumption.
  Qed.
End Reported.

(** If no layer scatters weakly, what is reported is the solution that keeps all scattering. *)
Theorem kept_exact : forall p lg la jk out, linalg_ok la -> leggauss_ok (half p) (lg (half p)) -> pydisort p lg la jk = Ok out ->
  forall w vn vp rho, double_gauss (half p) (po_mu out) w -> boundary_data p vn vp rho -> Spec_Depend.scattering_kept p ->
  exists V, keeps_all p (po_mu out) w vn vp (rho 0%nat) V /\ reports_u0 p out V.
Proof.
  intros p lg la jk out Hla Hlg Hp w vn vp rho Hw BD Hk. pose proof (call_valid p lg la jk out Hp) as Vp.
  destruct (modes_exist p lg la jk out Hla Hlg Hp) as (U & HU). pose proof (bd_bvp p lg la jk out Hla Hlg Hp w vn vp rho Hw BD U 0%nat HU (seen_0 p Vp)) as [B1 B2 B3 B4].
  exists (U 0%nat). split; [|exact (proj1 HU)]. split.
  - intros l i t Hl Hi Ht. destruct (cutoff_ex (albedo_s p l) (wphase_s p l) (ncoeffs p) 0) as (wg & Hc). pose proof (B1 l i wg t Hl Hi Ht Hc) as D.
    refine (der_eq _ _ _ _ _ D). f_equal.
    assert (HZ : albedo_s p l = 0 \/ forall k, wg k = wphase_s p l k).
    { destruct (Hk l Hl) as [_ [E|E]]; [left; unfold albedo_s, Rdiv; rewrite E; ring|right]. apply (proj2 Hc). intros Hn.
      pose proof (Hn 0%nat ltac:(pose proof (nc_range p Vp); lia)) as H0. replace (albedo_s p l / 2 * wphase_s p l 0%nat) with (albedo_s p l / 2) in H0 by (rewrite <- (albedo_norm p l) at 1; [field|exact Hl]).
      apply Rabs_le_between in H0. lra. }
    destruct HZ as [Z|Z].
    + unfold rte, D_spec, X_spec. rewrite Z. f_equal. f_equal. f_equal; [f_equal; apply rsum_ext; intros j _; f_equal; f_equal; unfold Rdiv; ring|f_equal; unfold Rdiv; ring].
    + unfold rte. f_equal. f_equal. f_equal; [f_equal; apply rsum_ext; intros j _; rewrite (D_spec_lt _ wg (wphase_s p l)) by auto; reflexivity|rewrite (X_spec_lt _ _ wg (wphase_s p l)) by auto; reflexivity].
  - exact B2.
  - exact B3.
  - exact B4.
Qed.
