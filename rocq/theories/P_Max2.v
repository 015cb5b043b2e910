(** Fields with non-negative sources are not negative; comparison of boundary-value problems. *)
From Coq Require Import Classical String Reals Lra Lia List Bool Arith ZArith.
From Coquelicot Require Import Coquelicot.
From Verif Require Import Base Tensor Spec M_LinAlg Spec_RTE Calc M_Subroutines M_GenPart M_MathscrV M_Coeffs M_Assemble M_Pydisort
  Spec_Sol Spec_Valid Spec_Calls Spec_Unique Spec_Phys P_Special P_Solve P_Energy P_Pydisort P_Pydisort2 P_Pydisort3 P_Pydisort4 P_Pydisort5 P_NT3 P_Unique2 P_Refine P_Max.
Import ListNotations.
Local Open Scope R_scope.

Lemma D_spec_sym om wg n m x y : D_spec om wg n m x y = D_spec om wg n m y x.
Proof. unfold D_spec. f_equal. apply rsum_ext. intros e _. destruct (Nat.leb m e); ring. Qed.
Lemma D_spec_mode p m l x y : D_spec (albedo_s p l) (wphase_s p l) (ncoeffs p) m x y = albedo_s p l / 2 * phase_mode p m l x y.
Proof. reflexivity. Qed.
Lemma D_spec_0 om wg n m x y : (forall k, wg k = 0) -> D_spec om wg n m x y = 0.
Proof. intros H. unfold D_spec. rewrite rsum_0; [ring|]. intros e _. destruct (Nat.leb m e); [rewrite H; ring|reflexivity]. Qed.
Lemma X_spec_0m c om wg n mu0 x : X_spec c om wg n 0 mu0 x = 2 * c * D_spec om wg n 0 x (- mu0).
Proof. unfold X_spec, D_spec. cbn [Nat.eqb]. field. Qed.

Section Kernel.
  Variables (p : py_in) (V : valid p) (mu : list R) (w : nat -> R).
  Hypothesis Hdg : double_gauss (half p) mu w.
  Let N := half p.

  Lemma albedo_norm l : (l < nlayers p)%nat -> albedo_s p l * wphase_s p l 0%nat = albedo_s p l.
  Proof.
    intros Hl. unfold wphase_s, phase_s, phase. cbn [Nat.eqb]. simpl INR. destruct (Req_dec (fwd p l) 1) as [E|E].
    - unfold albedo_s. rewrite E. unfold Rdiv. ring.
    - field. lra.
  Qed.
  Lemma cut_cases l m wg : is_cutoff (albedo_s p l) (wphase_s p l) (ncoeffs p) m wg -> (forall k, wg k = 0) \/ (forall k, wg k = wphase_s p l k).
  Proof. intros [A B]. destruct (classic (negligible (albedo_s p l) (wphase_s p l) (ncoeffs p) m)); auto. Qed.
  Lemma D_nonneg l wg x y : (l < nlayers p)%nat -> is_cutoff (albedo_s p l) (wphase_s p l) (ncoeffs p) 0 wg -> 0 <= phase_mode p 0 l x y ->
    0 <= D_spec (albedo_s p l) wg (ncoeffs p) 0 x y.
  Proof.
    intros Hl Hc Hp. destruct (cut_cases l 0 wg Hc) as [E|E].
    - rewrite D_spec_0 by exact E. lra.
    - rewrite (D_spec_lt _ wg (wphase_s p l)) by auto. rewrite D_spec_mode. pose proof (albedo_s_range p V l Hl). apply Rmult_le_pos; [lra|exact Hp].
  Qed.
  Lemma nc_range : (1 <= ncoeffs p <= 2 * N)%nat.
  Proof.
    pose proof (v_leg p V). pose proof (v_nlq p V). pose proof (streams_eq p V). unfold ncoeffs, streams, N, NLegZ in *. destruct (p_NLeg p); lia.
  Qed.
  Lemma D_row_sum l wg i : (l < nlayers p)%nat -> is_cutoff (albedo_s p l) (wphase_s p l) (ncoeffs p) 0 wg ->
    rsum (2 * N) (fun j => wnode N w j * D_spec (albedo_s p l) wg (ncoeffs p) 0 (nth i mu 0) (nth j mu 0)) = albedo_s p l * wg 0%nat.
  Proof.
    intros Hl Hc. destruct Hdg as (H1 & H2 & _ & H4). pose proof (half_pos p V) as HN.
    rewrite (rsum_ext _ _ (fun j => wnode N w j * D_spec (albedo_s p l) wg (ncoeffs p) 0 (nth j mu 0) (nth i mu 0))) by (intros; rewrite D_spec_sym; reflexivity).
    apply (D_sum N mu w HN H1); auto; [intros k Hk; apply (H2 k Hk)|apply nc_range].
  Qed.
  Lemma D_row_le l wg i : (l < nlayers p)%nat -> is_cutoff (albedo_s p l) (wphase_s p l) (ncoeffs p) 0 wg ->
    rsum (2 * N) (fun j => wnode N w j * D_spec (albedo_s p l) wg (ncoeffs p) 0 (nth i mu 0) (nth j mu 0)) <= albedo_s p l.
  Proof.
    intros Hl Hc. rewrite D_row_sum by auto. pose proof (albedo_s_range p V l Hl). destruct (cut_cases l 0 wg Hc) as [E|E]; rewrite E; [nra|]. rewrite albedo_norm by auto. lra.
  Qed.
  Lemma wnode_pos j : (j < 2 * N)%nat -> 0 < wnode N w j.
  Proof. intros Hj. destruct Hdg as (_ & H2 & _). unfold wnode. destruct (Nat.ltb_spec j N); apply H2; unfold N in *; lia. Qed.

  Section Field.
    Variables (F : nat -> R -> R) (Rm : nat -> nat -> R).
    Hypothesis Hph : phase_nonneg p mu.
    Hypothesis Fc : forall i, (i < 2 * N)%nat -> cont_on 0 (bottom p) (F i).
    Hypothesis Fd : forall l i t, (l < nlayers p)%nat -> (i < 2 * N)%nat -> top_of p l < t < bot_of p l ->
      exists wg Q, is_cutoff (albedo_s p l) (wphase_s p l) (ncoeffs p) 0 wg /\ 0 <= Q /\
      is_derive (F i) t ((scl p l * (F i t - rsum (2 * N) (fun j => wnode N w j * D_spec (albedo_s p l) wg (ncoeffs p) 0 (nth i mu 0) (nth j mu 0) * F j t)) - Q) / nth i mu 0).
    Hypothesis Ftop : forall i, (i < N)%nat -> 0 <= F (N + i)%nat 0.
    Hypothesis Fbot : forall i, (i < N)%nat -> rsum N (fun j => Rm i j * F (N + j)%nat (bottom p)) <= F i (bottom p).
    Hypothesis R0 : forall i j, (i < N)%nat -> (j < N)%nat -> 0 <= Rm i j.
    Hypothesis R1 : forall i, (i < N)%nat -> rsum N (Rm i) <= 1.

    Theorem field_nonneg i t : (i < 2 * N)%nat -> 0 <= t <= bottom p -> 0 <= F i t.
    Proof.
      intros Hi Ht. pose proof (half_pos p V) as HN. fold N in HN.
      destruct (family_min 0 (bottom p) (2 * N) F ltac:(lia) ltac:(lra) Fc) as (i0 & t0 & Hi0 & Ht0 & Hmin).
      destruct (Rle_lt_dec 0 (F i0 t0)) as [Hle|Hlt]; [apply Rle_trans with (1:=Hle); auto|exfalso].
      set (M := - F i0 t0). assert (HM : 0 < M) by (unfold M; lra).
      assert (Hge : forall j x, (j < 2 * N)%nat -> 0 <= x <= bottom p -> - M <= F j x) by (intros; unfold M; rewrite Ropp_involutive; auto).
      refine (Rlt_irrefl (- M) _). replace (- M) with (F i0 t0) at 2 by (unfold M; ring).
      refine (all_above p V mu w Hdg F M (albedo_s p) HM _ Fc Hge _ _ _ i0 t0 Hi0 Ht0).
      - intros l Hl. apply (albedo_s_range p V l Hl).
      - intros l j x Hl Hj Hx. destruct (Fd l j x Hl Hj Hx) as (wg & Q & Hc & HQ & HD). eexists. split; [exact HD|].
        pose proof (scl_pos p V l Hl) as Hs. destruct (layer_in p V l Hl) as (B0 & B1).
        assert (Hnu : nth j mu 0 <> 0).
        { destruct Hdg as (_ & H2 & _). destruct (Nat.lt_ge_cases j N) as [Hj'|Hj']; [destruct (H2 j Hj'); lra|].
          destruct (H2 (j - N)%nat ltac:(unfold N in *; lia)) as (P1 & P2 & _). replace (half p + (j - N))%nat with j in P2 by (unfold N in *; lia). lra. }
        replace (nth j mu 0 * ((scl p l * (F j x - rsum (2 * N) (fun j0 => wnode N w j0 * D_spec (albedo_s p l) wg (ncoeffs p) 0 (nth j mu 0) (nth j0 mu 0) * F j0 x)) - Q) / nth j mu 0))
          with (scl p l * (F j x - rsum (2 * N) (fun j0 => wnode N w j0 * D_spec (albedo_s p l) wg (ncoeffs p) 0 (nth j mu 0) (nth j0 mu 0) * F j0 x)) - Q) by (field; exact Hnu).
        assert (HS : - (albedo_s p l * M) <= rsum (2 * N) (fun j0 => wnode N w j0 * D_spec (albedo_s p l) wg (ncoeffs p) 0 (nth j mu 0) (nth j0 mu 0) * F j0 x)).
        { apply Rle_trans with (rsum (2 * N) (fun j0 => wnode N w j0 * D_spec (albedo_s p l) wg (ncoeffs p) 0 (nth j mu 0) (nth j0 mu 0) * (- M))).
          - rewrite rsum_scal_r. pose proof (D_row_le l wg j Hl Hc). nra.
          - apply rsum_le. intros k Hk. apply Rmult_le_compat_l; [|apply Hge; auto; lra].
            apply Rmult_le_pos; [apply Rlt_le, wnode_pos; auto|]. apply D_nonneg; auto. apply Hph; auto; rewrite (streams_eq p V); auto. }
        nra.
      - intros j Hj. pose proof (Ftop j Hj). fold N. lra.
      - intros j Hj E. apply NNPP. intros Hno.
        assert (Hgt : forall k, (k < N)%nat -> - M < F (N + k)%nat (bottom p)).
        { intros k Hk. destruct (Rle_lt_dec (F (N + k)%nat (bottom p)) (- M)) as [L|]; [|assumption]. exfalso. apply Hno. exists k. split; [exact Hk|].
          apply Rle_antisym; [exact L|apply Hge; [lia|lra]]. }
        pose proof (Fbot j Hj) as HB. rewrite E in HB.
        assert (HS : rsum N (fun k => Rm j k * (F (N + k)%nat (bottom p) + M)) <= - M + M * rsum N (Rm j)).
        { rewrite <- rsum_scal. rewrite (rsum_ext N _ (fun k => Rm j k * F (N + k)%nat (bottom p) + M * Rm j k)) by (intros; ring). rewrite rsum_plus. lra. }
        pose proof (R1 j Hj) as HR1.
        assert (HS0 : rsum N (fun k => Rm j k * (F (N + k)%nat (bottom p) + M)) <= 0) by nra.
        assert (Hz : forall k, (k < N)%nat -> Rm j k * (F (N + k)%nat (bottom p) + M) = 0).
        { apply rsum_zero_nonneg.
          - intros k Hk. apply Rmult_le_pos; [apply R0; auto|]. pose proof (Hgt k Hk). lra.
          - apply Rle_antisym; [exact HS0|]. apply rsum_nonneg. intros k Hk. apply Rmult_le_pos; [apply R0; auto|]. pose proof (Hgt k Hk). lra. }
        assert (HR : rsum N (Rm j) = 0).
        { apply rsum_0. intros k Hk. pose proof (Hgt k Hk). destruct (Rmult_integral _ _ (Hz k Hk)); [assumption|lra]. }
        assert (HF0 : rsum N (fun k => Rm j k * F (N + k)%nat (bottom p)) = 0).
        { apply rsum_0. intros k Hk. pose proof (Hgt k Hk). destruct (Rmult_integral _ _ (Hz k Hk)) as [Z|Z]; [rewrite Z; ring|lra]. }
        lra.
    Qed.
  End Field.
End Kernel.
