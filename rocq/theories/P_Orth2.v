(** With at least twice as many streams as phase coefficients every accepted layer loses. *)
From Coq Require Import Classical String Reals Lra Lia List Bool Arith ZArith.
From Coquelicot Require Import Coquelicot.
From Verif Require Import Base Tensor Spec M_LinAlg Spec_RTE Calc M_Subroutines M_GenPart M_MathscrV M_Coeffs M_Assemble M_Pydisort
  Spec_Sol Spec_Valid Spec_Calls Spec_Unique Spec_Phys Spec_Solved Spec_Rates Spec_Lossy P_Special P_Addition P_Gauss P_Solve P_Energy P_Pydisort P_Pydisort2 P_Max2 P_Spec2 P_Spec3 P_Spec4 P_Sym P_Lossy P_Lossy2 P_Orth.
Import ListNotations.
Local Open Scope R_scope.

Lemma poch_term_pos m k : 0 < poch_term m k.
Proof. unfold poch_term. apply Rdiv_lt_0_compat; apply INR_fact_lt_0. Qed.
(** The values of the associated Legendre functions at the nodes are orthogonal. *)
Lemma lp_orth n mu w m j k : double_gauss n mu w -> (m <= k)%nat -> (j < n)%nat -> (k < n)%nat ->
  rsum (2 * n) (fun i => wnode n w i * (lpmv m j (nth i mu 0) * lpmv m k (nth i mu 0))) = if Nat.eqb j k then 2 / ((2 * INR k + 1) * poch_term m k) else 0.
Proof.
  intros HD Hm Hj Hk. pose proof (pos_INR k) as HK. pose proof HD as (_ & HM & _).
  rewrite (rsum_ext (2 * n) _ (fun i => wnode n w i * ff m j k (nth i mu 0))).
  - rewrite (dg_exact n mu w (ff m j k) HD); [|apply (pol_mono (S (j + k))); [lia|apply ff_pol]]. fold (JJ m j k). destruct (Nat.eqb_spec j k) as [->|H]; [|apply JJ_ne; exact H].
    pose proof (JJ_eq m k Hm) as E. pose proof (poch_term_pos m k) as P. apply (Rmult_eq_reg_l (poch_term m k)); [rewrite E; field; lra|lra].
  - intros i Hi. f_equal. apply lpmv_prod. destruct (Nat.lt_ge_cases i n) as [H|H]; [destruct (HM i H) as (A & _); lra|].
    destruct (HM (i - n)%nat ltac:(lia)) as (A & B & _). replace (n + (i - n))%nat with i in B by lia. rewrite B. lra.
Qed.

(** Bessel's inequality, and strict positivity of a form whose eigenvalues are below 1. *)
Section Bessel.
  Variables (n M : nat) (W : vec) (u : nat -> vec) (c th : vec).
  Hypothesis HW : forall i, (i < n)%nat -> 0 < W i.
  Hypothesis Hc : forall k, (k < M)%nat -> 0 < c k.
  Hypothesis Ho : forall j k, (j < M)%nat -> (k < M)%nat -> rsum n (fun i => W i * (u j i * u k i)) = if Nat.eqb j k then / c k else 0.
  Variable X : vec.
  Let b (k : nat) : R := rsum n (fun i => W i * (u k i * X i)).
  Lemma bessel : rsum M (fun k => c k * (b k * b k)) <= rsum n (fun i => W i * (X i * X i)).
  Proof.
    set (Y := fun i => rsum M (fun k => c k * b k * u k i)).
    assert (H0 : 0 <= rsum n (fun i => W i * ((X i - Y i) * (X i - Y i)))).
    { apply rsum_nonneg. intros i Hi. specialize (HW i Hi). apply Rmult_le_pos; [lra|apply Rle_0_sqr]. }
    assert (E1 : rsum n (fun i => W i * (X i * Y i)) = rsum M (fun k => c k * (b k * b k))).
    { rewrite (rsum_ext n _ (fun i => rsum M (fun k => c k * b k * (W i * (u k i * X i))))).
      - rewrite rsum_swap. apply rsum_ext. intros k Hk. rewrite rsum_scal. fold (b k). ring.
      - intros i Hi. unfold Y. rewrite <- !rsum_scal. apply rsum_ext. intros k Hk. ring. }
    assert (E2 : rsum n (fun i => W i * (Y i * Y i)) = rsum M (fun k => c k * (b k * b k))).
    { rewrite (rsum_ext n _ (fun i => rsum M (fun j => c j * b j * rsum M (fun k => c k * b k * (W i * (u j i * u k i)))))).
      - rewrite rsum_swap. apply rsum_ext. intros j Hj. rewrite rsum_scal, rsum_swap.
        rewrite (rsum_ext M _ (fun k => delta j k * b k)); [rewrite rsum_delta_l by exact Hj; ring|]. intros k Hk. rewrite rsum_scal, Ho by auto. unfold delta. specialize (Hc k Hk). destruct (Nat.eqb j k); [field; lra|ring].
      - intros i Hi. transitivity (W i * Y i * Y i); [ring|]. unfold Y at 2. rewrite <- rsum_scal. apply rsum_ext. intros j Hj. transitivity (c j * b j * (W i * u j i * Y i)); [ring|]. f_equal. unfold Y. rewrite <- rsum_scal. apply rsum_ext. intros k Hk. ring. }
    rewrite (rsum_ext n _ (fun i => W i * (X i * X i) - 2 * (W i * (X i * Y i)) + W i * (Y i * Y i))) in H0 by (intros; ring). rewrite rsum_plus, rsum_minus, rsum_scal in H0. lra.
  Qed.
  Hypothesis Hth : forall k, (k < M)%nat -> th k < 1.
  Lemma bessel_pos : nonzero n X -> 0 < rsum n (fun i => W i * (X i * X i)) - rsum M (fun k => th k * c k * (b k * b k)).
  Proof.
    intros (i & Hi & Hx). pose proof bessel as B.
    assert (P : forall i, (i < n)%nat -> 0 <= W i * (X i * X i)) by (intros q Hq; specialize (HW q Hq); apply Rmult_le_pos; [lra|nra]).
    assert (HS : 0 < rsum n (fun i => W i * (X i * X i))).
    { destruct (Rle_lt_dec (rsum n (fun i => W i * (X i * X i))) 0) as [H0|]; [|assumption]. exfalso.
      assert (Z : W i * (X i * X i) = 0) by (apply (rsum_zero_nonneg n (fun i => W i * (X i * X i)) P); [apply Rle_antisym; [exact H0|apply rsum_nonneg; exact P]|exact Hi]).
      specialize (HW i Hi). apply Rmult_integral in Z as [Z|Z]; [lra|]. apply Rmult_integral in Z. tauto. }
    assert (Q : forall k, (k < M)%nat -> 0 <= (1 - th k) * c k * (b k * b k)).
    { intros k Hk. specialize (Hc k Hk). specialize (Hth k Hk). apply Rmult_le_pos; [apply Rmult_le_pos; lra|nra]. }
    assert (E : rsum M (fun k => th k * c k * (b k * b k)) = rsum M (fun k => c k * (b k * b k)) - rsum M (fun k => (1 - th k) * c k * (b k * b k))) by (rewrite <- rsum_minus; apply rsum_ext; intros; ring).
    pose proof (rsum_nonneg M _ Q) as HQ.
    destruct (Rle_lt_dec (rsum M (fun k => (1 - th k) * c k * (b k * b k))) 0) as [H0|H0]; [|lra].
    (* all components vanish *)
    assert (Z : forall k, (k < M)%nat -> b k * b k = 0).
    { intros k Hk. assert (Z : (1 - th k) * c k * (b k * b k) = 0) by (apply (rsum_zero_nonneg M (fun k => (1 - th k) * c k * (b k * b k)) Q); [lra|exact Hk]).
      specialize (Hc k Hk). specialize (Hth k Hk). apply Rmult_integral in Z as [Z|Z]; [|exact Z]. assert (0 < (1 - th k) * c k) by (apply Rmult_lt_0_compat; lra). lra. }
    rewrite (rsum_0 M (fun k => th k * c k * (b k * b k))) by (intros k Hk; rewrite (Z k Hk); ring). lra.
  Qed.
End Bessel.

(** What a layer scatters in one Legendre component. *)
Lemma ag_lt p l k : valid p -> (l < nlayers p)%nat -> (k < ncoeffs p)%nat -> albedo_s p l * phase_s p l k < 1.
Proof.
  intros V Hl Hk. pose proof (albedo_s_range p V l Hl) as HA.
  destruct k as [|k]; [pose proof (albedo_norm p l Hl) as E; unfold wphase_s in E; cbn [INR] in E; lra|].
  assert (Hc : (S k < ncol (p_Leg p))%nat) by (pose proof (v_leg p V); unfold ncoeffs, NLegZ in *; lia).
  pose proof (v_g p V l (S k) Hl ltac:(lia)) as Hg. pose proof (scl_pos p V l Hl) as Hs. pose proof (fwd_range p V l) as Hf. pose proof (albedo_range p V l Hl) as Ho.
  unfold albedo_s, phase_s, phase. cbn [Nat.eqb]. set (o := albedo p l) in *. set (f := fwd p l) in *. set (q := at2 (p_Leg p) l (S k)) in *.
  destruct (Req_dec f 1) as [->|Hne]; [unfold Rdiv; rewrite !Rminus_diag_eq by reflexivity; rewrite !Rmult_0_l; lra|].
  replace ((1 - f) * o / scl p l * ((q - f) / (1 - f))) with (o * (q - f) / scl p l) by (field; lra).
  apply Rmult_lt_reg_r with (scl p l); [lra|]. unfold Rdiv. rewrite Rmult_assoc, Rinv_l by lra. unfold scl. fold o f. nra.
Qed.

Section Enough.
  Variables (p : py_in) (V : valid p) (mu : list R) (w : nat -> R).
  Hypothesis HD : double_gauss (half p) mu w.
  Hypothesis Hn : (ncoeffs p <= half p)%nat.
  Let N := half p.
  Variables (m l : nat).
  Hypothesis Hl : (l < nlayers p)%nat.
  Hypothesis Hm : (m < nmodes p)%nat.
  Lemma loss_pos F : nonzero (2 * N) F -> 0 < loss p mu w m l (wphase_s p l) F.
  Proof.
    intros HF. set (M := (ncoeffs p - m)%nat).
    pose proof (bessel_pos (2 * N) M (wnode N w) (fun k i => lpmv m (m + k) (nth i mu 0)) (fun k => (2 * INR (m + k) + 1) * poch_term m (m + k) / 2) (fun k => albedo_s p l * phase_s p l (m + k))) as B.
    assert (HW : forall i, (i < 2 * N)%nat -> 0 < wnode N w i).
    { intros i Hi. destruct HD as (_ & HM & _). unfold wnode. destruct (Nat.ltb_spec i N) as [H|H]; [apply (HM i H)|apply (HM (i - N)%nat); unfold N in *; lia]. }
    assert (Hc : forall k, (k < M)%nat -> 0 < (2 * INR (m + k) + 1) * poch_term m (m + k) / 2).
    { intros k Hk. pose proof (poch_term_pos m (m + k)). pose proof (pos_INR (m + k)). apply Rmult_lt_0_compat; [apply Rmult_lt_0_compat|]; lra. }
    refine (Rlt_le_trans _ _ _ (B HW Hc _ F _ HF) _).
    - intros j k Hj Hk. rewrite (lp_orth N mu w m (m + j) (m + k) HD) by (unfold M, N in *; lia).
      replace (Nat.eqb (m + j) (m + k)) with (Nat.eqb j k) by (destruct (Nat.eqb_spec j k), (Nat.eqb_spec (m + j) (m + k)); auto; lia).
      destruct (Nat.eqb j k); [|reflexivity]. pose proof (poch_term_pos m (m + k)). pose proof (pos_INR (m + k)). field. lra.
    - intros k Hk. apply (ag_lt p); auto. unfold M in Hk. lia.
    - apply Req_le. unfold loss. fold N.
      rewrite (rsum_ext (2 * N) (fun i => wnode N w i * (F i * (F i - _))) (fun i => wnode N w i * (F i * F i) - wnode N w i * F i * rsum (2 * N) (fun j => wnode N w j * D_spec (albedo_s p l) (wphase_s p l) (ncoeffs p) m (nth i mu 0) (nth j mu 0) * F j))) by (intros; ring).
      rewrite rsum_minus. f_equal.
      (* the scattered part, component by component *)
      assert (E : forall x y, D_spec (albedo_s p l) (wphase_s p l) (ncoeffs p) m x y = rsum M (fun k => albedo_s p l * phase_s p l (m + k) * ((2 * INR (m + k) + 1) * poch_term m (m + k) / 2) * (lpmv m (m + k) x * lpmv m (m + k) y))).
      { intros x y. unfold D_spec. destruct (Nat.le_gt_cases m (ncoeffs p)) as [Hmn|Hmn].
        - replace (ncoeffs p) with (m + M)%nat by (unfold M; lia). rewrite rsum_split. rewrite rsum_0 by (intros i Hi; rewrite (proj2 (Nat.leb_gt m i)) by lia; reflexivity).
          rewrite Rplus_0_l, <- rsum_scal. apply rsum_ext. intros k Hk. rewrite (proj2 (Nat.leb_le m (m + k))) by lia. unfold wphase_s. field.
        - replace M with 0%nat by (unfold M; lia). cbn [rsum]. rewrite rsum_0; [ring|]. intros i Hi. rewrite (proj2 (Nat.leb_gt m i)) by lia. reflexivity. }
      symmetry.
      rewrite (rsum_ext (2 * N) _ (fun i => rsum M (fun k => albedo_s p l * phase_s p l (m + k) * ((2 * INR (m + k) + 1) * poch_term m (m + k) / 2) * rsum (2 * N) (fun j => wnode N w j * (lpmv m (m + k) (nth j mu 0) * F j)) * (wnode N w i * (lpmv m (m + k) (nth i mu 0) * F i))))).
      + rewrite rsum_swap. apply rsum_ext. intros k Hk. rewrite rsum_scal. ring.
      + intros i Hi. rewrite (rsum_ext (2 * N) _ (fun j => rsum M (fun k => albedo_s p l * phase_s p l (m + k) * ((2 * INR (m + k) + 1) * poch_term m (m + k) / 2) * lpmv m (m + k) (nth i mu 0) * (wnode N w j * (lpmv m (m + k) (nth j mu 0) * F j))))).
        * rewrite rsum_swap, <- rsum_scal. apply rsum_ext. intros k Hk. rewrite rsum_scal. ring.
        * intros j Hj. rewrite E. transitivity (wnode N w j * F j * rsum M (fun k => albedo_s p l * phase_s p l (m + k) * ((2 * INR (m + k) + 1) * poch_term m (m + k) / 2) * (lpmv m (m + k) (nth i mu 0) * lpmv m (m + k) (nth j mu 0)))); [ring|].
          rewrite <- rsum_scal. apply rsum_ext. intros k Hk. ring.
  Qed.
  Theorem enough_loses s : s = 1 \/ s = -1 -> loses p mu w m l s.
  Proof.
    intros Hs x (i0 & Hi0 & Hx). fold N in Hi0.
    set (F := fun i => if Nat.ltb i N then x i else s * x (i - N)%nat).
    assert (F1 : forall i, (i < N)%nat -> F i = x i) by (intros i Hi; unfold F; rewrite (proj2 (Nat.ltb_lt i N)) by auto; reflexivity).
    assert (F2 : forall i, F (N + i)%nat = s * x i) by (intros i; unfold F; rewrite (proj2 (Nat.ltb_ge (N + i) N)) by lia; do 2 f_equal; lia).
    assert (HF : nonzero (2 * N) F) by (exists i0; split; [lia|rewrite F1 by auto; exact Hx]).
    pose proof (loss_pos F HF) as HP. rewrite (loss_split p mu w HD m Hm l (wphase_s p l) F) in HP. fold N in HP.
    assert (Pe : forall q y z, (forall i, (i < N)%nat -> y i = z i) -> part p mu w m l (wphase_s p l) q y = part p mu w m l (wphase_s p l) q z).
    { intros q y z Hyz. unfold part. fold N. apply rsum_ext. intros i Hi. rewrite Hyz by auto. do 3 f_equal. apply rsum_ext. intros j Hj. rewrite Hyz by auto. reflexivity. }
    assert (Ps : forall q y a, part p mu w m l (wphase_s p l) q (fun i => a * y i) = a * a * part p mu w m l (wphase_s p l) q y).
    { intros q y a. unfold part. fold N. rewrite <- rsum_scal. apply rsum_ext. intros i Hi.
      rewrite (rsum_ext N (fun j => w j * (_ * (a * y j))) (fun j => a * (w j * ((D_spec (albedo_s p l) (wphase_s p l) (ncoeffs p) m (nth i mu 0) (nth j mu 0) + q * D_spec (albedo_s p l) (wphase_s p l) (ncoeffs p) m (nth i mu 0) (- nth j mu 0)) * y j)))) by (intros; ring).
      rewrite rsum_scal. ring. }
    rewrite (Pe 1 _ (fun i => (1 + s) * x i)) in HP by (intros i Hi; rewrite F1, F2 by auto; ring).
    rewrite (Pe (-1) _ (fun i => (1 - s) * x i)) in HP by (intros i Hi; rewrite F1, F2 by auto; ring).
    rewrite !Ps in HP. change (net_loss p mu w m l s x) with (part p mu w m l (wphase_s p l) s x). destruct Hs as [-> | ->]; lra.
  Qed.
End Enough.

Theorem enough_iff p rho lg la jk : well_formed p rho -> (2 * ncoeffs p <= streams p)%nat -> (forall mu w, double_gauss (half p) mu w -> no_gain p mu w rho) ->
  leggauss_ok (half p) (lg (half p)) -> linalg_ok la -> linalg_unique la -> linalg_complete la -> linalg_total la ->
  (exists out, pydisort p lg la jk = Ok out) <-> no_resonance p.
Proof.
  intros WF Hn Hg Hlg H1 H2 H3 H4. apply (lossy_iff p rho); auto. pose proof (wf_valid p rho WF) as V. split; [exact WF|]. intros mu w HD. split; [|auto].
  intros m l s Hm Hl _ Hs. apply enough_loses; auto. rewrite (streams_eq p V) in Hn. lia.
Qed.
