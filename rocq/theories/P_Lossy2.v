(** Calls on atmospheres that lose: when they succeed, that the answer is the only one, and which
    atmospheres lose. *)
From Coq Require Import Classical String Reals Lra Lia List Bool Arith ZArith.
From Coquelicot Require Import Coquelicot.
From Verif Require Import Base Tensor Spec M_LinAlg Spec_RTE Calc M_Subroutines M_GenPart M_MathscrV M_Coeffs M_Assemble M_Pydisort
  P_Quad P_Sub P_Special P_GenPart P_GenPart2 P_GenPart3 P_GenPart4 P_Tensor P_MathscrV P_Coeffs P_Coeffs2 P_Coeffs3 P_Assemble P_Solve P_LinA
  Spec_Sol Spec_Valid Spec_Calls Spec_Unique Spec_Phys Spec_Solved Spec_Rates Spec_Lossy P_Valid P_Pydisort P_Pydisort2 P_Pydisort3 P_Pydisort4 P_Pydisort5 P_NT3 P_Absorb P_Unique P_Unique2 P_Unique3
  P_Pydisort6 P_Pydisort8 P_Sub3 P_Refine P_Max P_Max2 P_Max4 P_Spec1 P_Spec2 P_Spec3 P_Spec4 P_Spec5 P_Spec6 P_Spec7 Examples Examples2 Examples3 Examples5 Examples6 P_Rates P_Rates2 P_Lossy.
Import ListNotations.
Local Open Scope R_scope.

Theorem lossy_ok p rho lg la jk : lossy_input p rho -> no_resonance p -> leggauss_ok (half p) (lg (half p)) -> linalg_ok la -> linalg_complete la -> linalg_total la ->
  exists out, pydisort p lg la jk = Ok out.
Proof.
  intros ([V H1 H2 H3 H4 H5 H6] & H7) H8 Hlg Hla Hlc Hlt. apply (core_ok p lg la jk rho); auto.
  - intros mu w HD. apply lossy_core; auto.
  - intros HN x Hx. pose proof (mu_arr_gauss p lg Hlg) as HD. destruct (GL_lengths lg (half p) 0 1 Hlg) as [L1 _].
    destruct (In_nth _ x 0 Hx) as (i & Hi & <-). rewrite L1 in Hi.
    specialize (H6 HN _ _ i HD Hi). rewrite (mu_arr_node p lg) in H6 by lia. unfold node in H6. rewrite (proj2 (Nat.ltb_lt i (half p))) in H6 by exact Hi. exact H6.
Qed.
Lemma ok_free p lg la jk out : leggauss_ok (half p) (lg (half p)) -> linalg_ok la -> linalg_unique la -> pydisort p lg la jk = Ok out -> no_resonance p.
Proof.
  intros Hlg Hla Hlu H HI mu w m l HD Hm Hl Hr. destruct (modes_exist p lg la jk out Hla Hlg H) as (U & HU). destruct (call_fluxes p lg la jk out Hla Hlg H U HU) as (w1 & Hw & _).
  assert (V : valid p) by apply (pydisort_parts _ _ _ _ _ H).
  apply (call_no_resonance p lg la jk out Hla Hlu Hlg H HI w1 m l Hw Hm Hl). exact (resonant_order p mu w _ w1 m l V HD Hw Hr).
Qed.
Theorem lossy_iff p rho lg la jk : lossy_input p rho -> leggauss_ok (half p) (lg (half p)) -> linalg_ok la -> linalg_unique la -> linalg_complete la -> linalg_total la ->
  (exists out, pydisort p lg la jk = Ok out) <-> no_resonance p.
Proof.
  intros WP Hlg Hla Hlu Hlc Hlt. split.
  - intros (out & H). exact (ok_free p lg la jk out Hlg Hla Hlu H).
  - intros HR. exact (lossy_ok p rho lg la jk WP HR Hlg Hla Hlc Hlt).
Qed.

Theorem lossy_unique p mu w rho vn vp m A B : valid p -> double_gauss (half p) mu w -> lossy p mu w rho -> (m < nmodes p)%nat ->
  bvp p mu w vn vp (rho m) m A -> bvp p mu w vn vp (rho m) m B -> forall i t, (i < streams p)%nat -> 0 <= t <= bottom p -> A i t = B i t.
Proof.
  intros V HD HL Hm HA HB i t Hi Ht. apply Rminus_diag_uniq. rewrite (streams_eq p V) in Hi.
  exact (proj2 (lossy_core p mu w rho V HD HL) m _ Hm (bvp_free p V mu w rho vn vp m A B HA HB) i t Hi Ht).
Qed.
Theorem lossy_only p lg la jk out : linalg_ok la -> leggauss_ok (half p) (lg (half p)) -> pydisort p lg la jk = Ok out ->
  forall U, modes_of p out U -> forall w, double_gauss (half p) (po_mu out) w ->
  (nonneg (p_bneg p) \/ some_source p) -> (nonneg (p_bpos p) \/ some_source p) ->
  forall vn vp, bc_values (p_bneg p) (half p) vn -> bc_values (p_bpos p) (half p) vp ->
  forall rho, (forall m, (m < length (p_BDRF p))%nat -> mode_is (nth m (p_BDRF p) (MScal 0)) (rho m)) ->
  lossy p (po_mu out) w rho ->
  forall m, seen p m ->
  bvp p (po_mu out) w vn vp (rho m) m (U m) /\
  forall F, bvp p (po_mu out) w vn vp (rho m) m F -> forall i t, (i < streams p)%nat -> 0 <= t <= bottom p -> F i t = U m i t.
Proof.
  intros Hla Hlg Hok U HU w Hw Hn Hp vn vp Hvn Hvp rho Hrho HL m Hm.
  pose proof (call_bvp p lg la jk out Hla Hlg Hok U w vn vp rho HU Hw Hn Hp Hvn Hvp Hrho m Hm) as B. split; [exact B|].
  intros F HF i t Hi Ht. assert (Va : valid p) by apply (pydisort_parts _ _ _ _ _ Hok).
  exact (lossy_unique p (po_mu out) w rho vn vp m F (U m) Va Hw HL (proj1 Hm) HF B i t Hi Ht).
Qed.
Theorem lossy_same p lg la la' jk jk' out out' rho : linalg_ok la -> linalg_ok la' -> leggauss_ok (half p) (lg (half p)) ->
  pydisort p lg la jk = Ok out -> pydisort p lg la' jk' = Ok out' -> lossy_input p rho -> same_values out out'.
Proof.
  intros Hla Hla' Hlg H H' (HW & HL). apply (core_same p lg la la' jk jk' out out' rho); auto.
  - intros mu w HD. apply lossy_core; auto. exact (wf_valid p rho HW).
  - exact (wf_rho p rho HW).
Qed.

(** Surfaces: what a reciprocal surface reflects into any direction bounds the gain. *)
Lemma schur_gain n (q : vec) (Rm : mat) x : (forall i, (i < n)%nat -> 0 <= q i) -> (forall i j, (i < n)%nat -> (j < n)%nat -> q i * Rm i j = q j * Rm j i) ->
  (forall i, (i < n)%nat -> rsum n (fun j => Rabs (Rm i j)) <= 1) -> rsum n (fun i => q i * rsum n (fun j => Rm i j * x j) ^ 2) <= rsum n (fun i => q i * x i ^ 2).
Proof.
  intros Hq Hs Hr.
  assert (CS : forall i, (i < n)%nat -> rsum n (fun j => Rm i j * x j) ^ 2 <= rsum n (fun j => Rabs (Rm i j) * x j ^ 2)).
  { intros i Hi. set (t := rsum n (fun j => Rm i j * x j)).
    assert (P : 0 <= rsum n (fun j => Rabs (Rm i j) * x j ^ 2 - 2 * t * (Rm i j * x j) + t ^ 2 * Rabs (Rm i j))).
    { apply rsum_nonneg. intros j Hj. unfold Rabs. destruct (Rcase_abs (Rm i j)).
      - replace (- Rm i j * x j ^ 2 - 2 * t * (Rm i j * x j) + t ^ 2 * - Rm i j) with (- Rm i j * (x j + t) ^ 2) by ring. apply Rmult_le_pos; [lra|apply pow2_ge_0].
      - replace (Rm i j * x j ^ 2 - 2 * t * (Rm i j * x j) + t ^ 2 * Rm i j) with (Rm i j * (x j - t) ^ 2) by ring. apply Rmult_le_pos; [lra|apply pow2_ge_0]. }
    rewrite rsum_plus, rsum_minus, !rsum_scal in P. fold t in P. specialize (Hr i Hi). pose proof (pow2_ge_0 t). nra. }
  apply Rle_trans with (rsum n (fun i => rsum n (fun j => q j * Rabs (Rm j i) * x j ^ 2))).
  - apply rsum_le. intros i Hi. eapply Rle_trans; [apply Rmult_le_compat_l; [apply Hq; auto|apply CS; auto]|]. rewrite <- rsum_scal. apply Req_le, rsum_ext. intros j Hj.
    rewrite <- Rmult_assoc. f_equal. rewrite <- (Rabs_right (q i)), <- (Rabs_right (q j)) by (apply Rle_ge, Hq; auto). rewrite <- !Rabs_mult. f_equal. apply Hs; auto.
  - rewrite rsum_swap. apply rsum_le. intros j Hj. rewrite (rsum_ext n _ (fun i => (q j * x j ^ 2) * Rabs (Rm j i))) by (intros; ring). rewrite rsum_scal.
    specialize (Hr j Hj). assert (0 <= q j * x j ^ 2) by (apply Rmult_le_pos; [apply Hq; auto|apply pow2_ge_0]). nra.
Qed.
Lemma refl_Rmat p mu w rho m x i : reflected p mu w rho m x i = rsum (half p) (fun j => Rmat p mu w rho m i j * x j).
Proof.
  unfold reflected, Rmat. destruct (Nat.ltb m (length (p_BDRF p))); [|symmetry; apply rsum_0; intros; ring]. rewrite <- rsum_scal. apply rsum_ext. intros. ring.
Qed.
Lemma recip_gain p mu w rho : double_gauss (half p) mu w -> reciprocal p mu rho ->
  (forall m i, (m < nmodes p)%nat -> (i < half p)%nat -> rsum (half p) (fun j => Rabs (Rmat p mu w rho m i j)) <= 1) -> no_gain p mu w rho.
Proof.
  intros (_ & HM & _) Hr Hb m x Hm.
  rewrite (rsum_ext (half p) (fun i => w i * nth i mu 0 * reflected p mu w rho m x i ^ 2) (fun i => w i * nth i mu 0 * rsum (half p) (fun j => Rmat p mu w rho m i j * x j) ^ 2)) by (intros; rewrite refl_Rmat; reflexivity).
  apply (schur_gain (half p) (fun i => w i * nth i mu 0)).
  - intros i Hi. destruct (HM i Hi) as (A & _ & B). apply Rmult_le_pos; lra.
  - intros i j Hi Hj. unfold Rmat. destruct (Nat.ltb_spec m (length (p_BDRF p))); [|ring]. rewrite (Hr m i j) by auto. ring.
  - intros i Hi. apply Hb; auto.
Qed.
Theorem phys_lossy p mu w rho : valid p -> double_gauss (half p) mu w -> physical p mu w rho -> reciprocal p mu rho -> lossy p mu w rho.
Proof.
  intros V HD HP HR. split.
  - intros m l s _ Hl _ Hs. exact (phys_loses p V mu w rho HD HP m l s Hl Hs).
  - apply recip_gain; auto. intros m i _ Hi. exact (phys_surface p mu w rho HD HP m i Hi).
Qed.
(** A Lambertian surface. *)
Theorem lambert_gain p mu w rho c : valid p -> double_gauss (half p) mu w -> (length (p_BDRF p) <= 1)%nat -> 0 <= c <= 1 -> (forall x y, rho 0%nat x y = c) -> no_gain p mu w rho.
Proof.
  intros V HD HL Hc Hr. apply recip_gain; auto.
  - intros m i j Hm Hi Hj. assert (m = 0%nat) as -> by lia. rewrite !Hr. reflexivity.
  - intros m i Hm Hi. unfold Rmat. destruct (Nat.ltb_spec m (length (p_BDRF p))) as [H|H].
    2:{ rewrite rsum_0; [lra|]. intros; apply Rabs_R0. }
    assert (m = 0%nat) as -> by lia. cbn [Nat.eqb]. pose proof (dg_first (half p) mu w (half_pos p V) HD) as E. destruct HD as (_ & HM & _).
    rewrite (rsum_ext (half p) _ (fun j => 2 * c * (w j * nth j mu 0))).
    + rewrite rsum_scal, E. lra.
    + intros j Hj. destruct (HM j Hj) as (A & _ & B). rewrite Hr, Rabs_right; [ring|]. apply Rle_ge. repeat apply Rmult_le_pos; lra.
Qed.

(** Two streams. *)
Section Two.
  Variables (p : py_in) (V : valid p).
  Hypothesis HQ : p_NQuad p = 2%Z.
  Lemma two_half : half p = 1%nat.
  Proof. unfold half. rewrite HQ. reflexivity. Qed.
  Lemma two_nc : (1 <= ncoeffs p <= 2)%nat /\ (nmodes p <= ncoeffs p)%nat.
  Proof.
    pose proof (v_leg p V) as A. pose proof (v_nfou p V) as B. pose proof (v_nlq p V) as C. unfold ncoeffs, nmodes, NLegZ, NFourierZ in *. rewrite HQ in *.
    destruct (p_only_flux p); lia.
  Qed.
  Let g l := if Nat.eqb (ncoeffs p) 1 then 0 else phase_s p l 1.
  Lemma two_ag l : (l < nlayers p)%nat -> albedo_s p l * g l < 1.
  Proof.
    intros Hl. pose proof (albedo_s_range p V l Hl) as HA. unfold g. destruct (Nat.eqb_spec (ncoeffs p) 1) as [E|E]; [lra|]. pose proof two_nc as (Hn & _).
    assert (Hc : (2 <= ncol (p_Leg p))%nat) by (pose proof (v_leg p V); unfold ncoeffs, NLegZ in *; lia).
    pose proof (v_g p V l 1%nat Hl ltac:(lia)) as Hg. pose proof (scl_pos p V l Hl) as Hs. pose proof (fwd_range p V l) as Hf. pose proof (albedo_range p V l Hl) as Ho.
    unfold albedo_s, phase_s, phase. cbn [Nat.eqb]. set (o := albedo p l) in *. set (f := fwd p l) in *. set (q := at2 (p_Leg p) l 1%nat) in *. 
    destruct (Req_dec f 1) as [->|Hne]; [unfold Rdiv; rewrite !Rminus_diag_eq by reflexivity; rewrite !Rmult_0_l; lra|].
    replace ((1 - f) * o / scl p l * ((q - f) / (1 - f))) with (o * (q - f) / scl p l) by (field; lra).
    apply Rmult_lt_reg_r with (scl p l); [lra|]. unfold Rdiv. rewrite Rmult_assoc, Rinv_l by lra. unfold scl. fold o f. nra.
  Qed.
  (** The two coefficients of the scattering matrix. *)
  Definition kk (m l : nat) : R * R := if Nat.eqb m 0 then (albedo_s p l / 2 * (1 + 3/4 * g l), albedo_s p l / 2 * (1 - 3/4 * g l)) else (9/16 * (albedo_s p l * g l), 9/16 * (albedo_s p l * g l)).
  Lemma kk_spec m l x y : (m < nmodes p)%nat -> (l < nlayers p)%nat -> x ^ 2 = 1/4 -> y ^ 2 = 1/4 ->
    D_spec (albedo_s p l) (wphase_s p l) (ncoeffs p) m x y = if Rlt_dec 0 (x * y) then fst (kk m l) else snd (kk m l).
  Proof.
    intros Hm Hl Hx Hy. pose proof two_nc as (Hn & Hmn). pose proof (albedo_norm p l Hl) as EN. unfold wphase_s in EN. cbn [INR] in EN.
    assert (Exy : x * y = 1/4 \/ x * y = - (1/4)).
    { assert ((x * y) ^ 2 = 1/16) by (rewrite Rpow_mult_distr, Hx, Hy; field). assert ((x * y - 1/4) * (x * y + 1/4) = 0) by nra. apply Rmult_integral in H0 as [H0|H0]; [left|right]; lra. }
    unfold kk, g. destruct m as [|[|m]]; [| |lia]; cbn [Nat.eqb fst snd].
    - unfold D_spec. destruct (Nat.eqb_spec (ncoeffs p) 1) as [E|E].
      + rewrite E. cbn [rsum Nat.leb]. unfold wphase_s. cbn [INR]. rewrite poch_0, !lpmv_00.
        match goal with |- ?e = _ => replace e with (albedo_s p l * ((2 * 0 + 1) * phase_s p l 0) / 2) by field end. rewrite EN. destruct (Rlt_dec 0 (x * y)); field.
      + replace (ncoeffs p) with 2%nat by lia. cbn [rsum Nat.leb]. unfold wphase_s. rewrite !poch_0, !lpmv_00, !lpmv_01. cbn [INR].
        match goal with |- ?e = _ => replace e with (albedo_s p l * ((2 * 0 + 1) * phase_s p l 0) / 2 + 3/2 * (albedo_s p l * phase_s p l 1) * (x * y)) by field end. rewrite EN.
        destruct (Rlt_dec 0 (x * y)); destruct Exy as [Exy|Exy]; rewrite Exy in *; try lra; field.
    - assert (E : ncoeffs p = 2%nat) by lia. rewrite E. cbn [Nat.eqb]. unfold D_spec. cbn [rsum Nat.leb]. unfold wphase_s. rewrite poch_11, !lpmv_11, Hx, Hy. cbn [INR].
      assert (Es : sqrt (1 - 1/4) * sqrt (1 - 1/4) = 3/4) by (rewrite sqrt_sqrt by lra; lra). set (s := sqrt (1 - 1/4)) in *.
      transitivity (3 / 4 * (albedo_s p l * phase_s p l 1) * (s * s)); [field|]. rewrite Es. destruct (Rlt_dec 0 (x * y)); field.
  Qed.
  Lemma kk_rate m l : rate2 p m l = (1 - (fst (kk m l) + snd (kk m l))) * (1 - (fst (kk m l) - snd (kk m l))).
  Proof. unfold rate2, kk. fold (g l). cbv zeta. destruct (Nat.eqb m 0); cbn [fst snd]; field. Qed.
  Lemma kk_minus m l : (l < nlayers p)%nat -> 0 < 1 - (fst (kk m l) - snd (kk m l)).
  Proof. intros Hl. pose proof (two_ag l Hl) as H. unfold kk. destruct (Nat.eqb m 0); cbn [fst snd]; lra. Qed.
  Lemma two_loss mu w m l s x : double_gauss (half p) mu w -> (m < nmodes p)%nat -> (l < nlayers p)%nat ->
    net_loss p mu w m l s x = x 0%nat ^ 2 * (1 - (fst (kk m l) + s * snd (kk m l))).
  Proof.
    intros HD Hm Hl. rewrite two_half in HD. destruct (dg_one mu w HD) as (-> & Ew). unfold net_loss. cbv zeta. rewrite two_half. cbn [rsum nth]. rewrite Ew.
    rewrite !(kk_spec m l) by (auto; field). destruct (Rlt_dec 0 (1/2 * (1/2))); [|lra]. destruct (Rlt_dec 0 (1/2 * - (1/2))); [lra|]. ring.
  Qed.
  Lemma two_loses mu w m l s : double_gauss (half p) mu w -> (m < nmodes p)%nat -> (l < nlayers p)%nat -> s = 1 \/ s = -1 -> 0 < rate2 p m l -> loses p mu w m l s.
  Proof.
    intros HD Hm Hl Hs Hr x (i & Hi & Hx). rewrite two_half in Hi. destruct i; [|lia]. rewrite two_loss by auto. pose proof (kk_minus m l Hl) as K. rewrite kk_rate in Hr.
    assert (0 < 1 - (fst (kk m l) + snd (kk m l))) by (apply Rmult_lt_reg_r with (1 - (fst (kk m l) - snd (kk m l))); lra).
    apply Rmult_lt_0_compat; [rewrite <- Rsqr_pow2; apply Rlt_0_sqr; exact Hx|]. destruct Hs as [-> | ->]; lra.
  Qed.
  Lemma two_over m l : (m < nmodes p)%nat -> (l < nlayers p)%nat -> ~ negligible (albedo_s p l) (wphase_s p l) (ncoeffs p) m -> rate2 p m l <= 0 -> overscatters p m l.
  Proof.
    intros Hm Hl Hn Hr. split; [exact Hn|]. intros mu w HD. pose proof (kk_minus m l Hl) as K. rewrite kk_rate in Hr. exists 1. split; [auto|]. split.
    - intros x (i & Hi & Hx). rewrite two_half in Hi. destruct i; [|lia]. rewrite two_loss by auto. apply Rmult_lt_0_compat; [rewrite <- Rsqr_pow2; apply Rlt_0_sqr; exact Hx|]. lra.
    - exists (fun _ => 1). split; [exists 0%nat; split; [rewrite two_half; lia|lra]|]. rewrite two_loss by auto.
      destruct (Rle_lt_dec (1 - (fst (kk m l) + snd (kk m l))) 0) as [H|H]; [lra|]. exfalso. assert (0 < (1 - (fst (kk m l) + snd (kk m l))) * (1 - (fst (kk m l) - snd (kk m l)))) by (apply Rmult_lt_0_compat; lra). lra.
  Qed.
  Lemma two_resonant mu w m l : double_gauss (half p) mu w -> (m < nmodes p)%nat -> (l < nlayers p)%nat -> 0 < p_mu0 p -> ~ negligible (albedo_s p l) (wphase_s p l) (ncoeffs p) m ->
    resonant p mu w m l <-> 4 * rate2 p m l = / p_mu0 p ^ 2.
  Proof.
    intros HD Hm Hl Hmu Hn. rewrite two_half in HD. destruct (dg_one mu w HD) as (-> & Ew). rewrite kk_rate. set (c := / p_mu0 p).
    assert (Ec : / p_mu0 p ^ 2 = c ^ 2) by (unfold c; rewrite pow_inv; reflexivity). rewrite Ec.
    assert (Hc : 0 < c) by (apply Rinv_0_lt_compat; exact Hmu).
    assert (EQ : forall v : vec, (forall i, (i < streams p)%nat -> nth i [1/2; -1/2] 0 * (- / p_mu0 p * v i) =
        v i - rsum (streams p) (fun j => wnode (half p) w j * D_spec (albedo_s p l) (wphase_s p l) (ncoeffs p) m (nth i [1/2; -1/2] 0) (nth j [1/2; -1/2] 0) * v j)) <->
      (1/2 * (- c * v 0%nat) = v 0%nat - (fst (kk m l) * v 0%nat + snd (kk m l) * v 1%nat) /\ 1/2 * (c * v 1%nat) = v 1%nat - (snd (kk m l) * v 0%nat + fst (kk m l) * v 1%nat))).
    { intros v. unfold streams. rewrite HQ. change (Z.to_nat 2) with 2%nat. rewrite two_half.
      assert (E0 : forall x y, rsum 2 (fun j => wnode 1 w j * D_spec (albedo_s p l) (wphase_s p l) (ncoeffs p) m x (nth j [1/2; -1/2] 0) * y j) =
          D_spec (albedo_s p l) (wphase_s p l) (ncoeffs p) m x (1/2) * y 0%nat + D_spec (albedo_s p l) (wphase_s p l) (ncoeffs p) m x (-1/2) * y 1%nat).
      { intros x y. cbn [rsum nth]. unfold wnode. cbn [Nat.ltb Nat.leb Nat.sub]. rewrite Ew. ring. }
      split.
      - intros H. pose proof (H 0%nat ltac:(lia)) as H0. pose proof (H 1%nat ltac:(lia)) as H1. rewrite E0 in H0, H1. cbn [nth] in H0, H1. fold c in H0, H1.
        rewrite !(kk_spec m l) in H0 by (auto; field). rewrite !(kk_spec m l) in H1 by (auto; field).
        destruct (Rlt_dec 0 (1/2 * (1/2))); [|lra]. destruct (Rlt_dec 0 (1/2 * (-1/2))); [lra|]. destruct (Rlt_dec 0 (-1/2 * (1/2))); [lra|]. destruct (Rlt_dec 0 (-1/2 * (-1/2))); [|lra].
        split; lra.
      - intros (H0 & H1) i Hi. rewrite E0. fold c. destruct i as [|[|i]]; [| |lia]; cbn [nth]; rewrite !(kk_spec m l) by (auto; field).
        + destruct (Rlt_dec 0 (1/2 * (1/2))); [|lra]. destruct (Rlt_dec 0 (1/2 * (-1/2))); lra.
        + destruct (Rlt_dec 0 (-1/2 * (1/2))); [lra|]. destruct (Rlt_dec 0 (-1/2 * (-1/2))); lra. }
    set (a := fst (kk m l)) in *. set (b := snd (kk m l)) in *. pose proof (kk_minus m l Hl) as K. fold a b in K. split.
    - intros (_ & v & (i & Hi & Hv) & H). apply EQ in H as (H0 & H1).
      set (s := v 0%nat + v 1%nat). set (d := v 0%nat - v 1%nat).
      assert (A1 : - c / 2 * d = s * (1 - (a + b))) by (unfold s, d; lra). assert (A2 : - c / 2 * s = d * (1 - (a - b))) by (unfold s, d; lra).
      assert (Z : s * (4 * ((1 - (a + b)) * (1 - (a - b))) - c ^ 2) = 0).
      { replace (s * (4 * ((1 - (a + b)) * (1 - (a - b))) - c ^ 2)) with (4 * (s * (1 - (a + b))) * (1 - (a - b)) - c ^ 2 * s) by ring. rewrite <- A1.
        replace (4 * (- c / 2 * d) * (1 - (a - b)) - c ^ 2 * s) with (- 2 * c * (d * (1 - (a - b))) - c ^ 2 * s) by field. rewrite <- A2. field. }
      apply Rmult_integral in Z as [Z|Z]; [|lra]. exfalso. rewrite Z in A2. assert (Hd : d = 0) by nra. apply Hv. unfold streams in Hi. rewrite HQ in Hi. change (Z.to_nat 2) with 2%nat in Hi. unfold s, d in *.
      destruct i as [|[|i]]; [lra|lra|lia].
    - intros E. split; [exact Hn|]. set (d := - c / 2). set (s := 1 - (a - b)).
      exists (fun i => if Nat.eqb i 0 then (s + d) / 2 else (s - d) / 2). split.
      + destruct (Req_dec (s + d) 0) as [Z|Z].
        * exists 1%nat. unfold streams. rewrite HQ. split; [cbn; lia|]. cbn [Nat.eqb]. unfold s in *. unfold d in *. lra.
        * exists 0%nat. unfold streams. rewrite HQ. split; [cbn; lia|]. cbn [Nat.eqb]. lra.
      + apply EQ. cbn [Nat.eqb]. assert (Q : s * (1 - (a + b)) = c ^ 2 / 4) by (unfold s; lra). assert (Ed : - c / 2 * d = c ^ 2 / 4) by (unfold d; field).
        assert (P : d * s = - c / 2 * s) by (unfold d; ring). unfold s in *. split; nra.
  Qed.
End Two.
Lemma two_gain p mu w rho : valid p -> p_NQuad p = 2%Z -> double_gauss (half p) mu w ->
  (forall m, (m < nmodes p)%nat -> (m < length (p_BDRF p))%nat -> Rabs (rho m (1/2) (1/2)) <= if Nat.eqb m 0 then 1 else 2) -> no_gain p mu w rho.
Proof.
  intros V HQ HD Hr. pose proof (two_half p HQ) as E. apply recip_gain; auto.
  - intros m i j Hm Hi Hj. rewrite E in *. assert (i = 0%nat) as -> by lia. assert (j = 0%nat) as -> by lia. reflexivity.
  - intros m i Hm Hi. rewrite E in *. destruct (dg_one mu w HD) as (-> & Ew). assert (i = 0%nat) as -> by lia. cbn [rsum]. unfold Rmat. cbn [nth]. rewrite Ew.
    destruct (Nat.ltb_spec m (length (p_BDRF p))) as [H|H]; [|rewrite Rabs_R0; lra]. specialize (Hr m Hm H). revert Hr. destruct (Nat.eqb m 0); intros Hr.
    + replace (2 * (rho m (1/2) (1/2) * (1/2) * 1)) with (rho m (1/2) (1/2)) by field. lra.
    + replace (1 * (rho m (1/2) (1/2) * (1/2) * 1)) with (rho m (1/2) (1/2) * (1/2)) by field. rewrite Rabs_mult, (Rabs_right (1/2)) by lra. lra.
Qed.

Theorem two_iff p rho lg la jk : well_formed p rho -> p_NQuad p = 2%Z ->
  (forall m, (m < nmodes p)%nat -> (m < length (p_BDRF p))%nat -> Rabs (rho m (1/2) (1/2)) <= if Nat.eqb m 0 then 1 else 2) ->
  leggauss_ok (half p) (lg (half p)) -> linalg_ok la -> linalg_unique la -> linalg_complete la -> linalg_total la ->
  (exists out, pydisort p lg la jk = Ok out) <->
  forall m l, (m < nmodes p)%nat -> (l < nlayers p)%nat -> ~ negligible (albedo_s p l) (wphase_s p l) (ncoeffs p) m -> 0 < rate2 p m l /\ (0 < p_I0 p -> 4 * rate2 p m l <> / p_mu0 p ^ 2).
Proof.
  intros WF HQ Hs Hlg Hla Hlu Hlc Hlt. pose proof (wf_valid p rho WF) as V. pose proof (mu_arr_gauss p lg Hlg) as HG. split.
  - intros (out & H) m l Hm Hl Hn. split.
    + destruct (Rlt_le_dec 0 (rate2 p m l)) as [|Hle]; [assumption|]. exfalso. exact (no_answer p lg la jk m l Hlg Hla Hlt Hm Hl (two_over p V HQ m l Hm Hl Hn Hle) out H).
    + intros HI E. apply (ok_free p lg la jk out Hlg Hla Hlu H HI _ _ m l HG Hm Hl). apply (two_resonant p V HQ _ _ m l HG Hm Hl); auto. apply (v_mu0 p V HI).
  - intros HC. apply (lossy_ok p rho lg la jk); auto.
    + split; [exact WF|]. intros mu w HD. split; [|apply two_gain; auto]. intros m l s Hm Hl Hn Hss. apply (two_loses p V HQ mu w m l s HD Hm Hl Hss). apply HC; auto.
    + intros HI mu w m l HD Hm Hl Hr. destruct (HC m l Hm Hl (proj1 Hr)) as (_ & Hne). apply (Hne HI). apply (two_resonant p V HQ mu w m l HD Hm Hl); auto; [apply (v_mu0 p V HI)|apply Hr].
Qed.
