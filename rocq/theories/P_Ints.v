(** The integers of the machine: where they suffice and what happens beyond. *)
From Coq Require Import String Reals Lra Lia List Bool Arith ZArith FunctionalExtensionality.
From Coquelicot Require Import Coquelicot.
From Verif Require Import Base Tensor Spec M_LinAlg Spec_RTE Calc M_Subroutines M_GenPart M_MathscrV M_Coeffs M_Assemble M_Pydisort M_Ints.
Import ListNotations.
Local Open Scope R_scope.

(** Two platforms that agree on the factorials in use give the same answers. *)
Section Transfer.
  Variables (IM IM' : IntModel).

  Lemma fac_rev_same Ns : (forall k, (k <= Ns - 1)%nat -> @np_fact IM k = @np_fact IM' k) -> @fac_rev IM Ns = @fac_rev IM' Ns.
  Proof. intros H. apply functional_extensionality. intros i. unfold fac_rev. apply H. lia. Qed.

  Lemma b_sigma_same Ns : @fac_rev IM Ns = @fac_rev IM' Ns -> @b_sigma IM Ns = @b_sigma IM' Ns.
  Proof.
    intros H. assert (Hw : @weighted_a IM Ns = @weighted_a IM' Ns) by (unfold weighted_a; rewrite H; reflexivity).
    assert (Hl : @lower_tri IM Ns = @lower_tri IM' Ns) by (unfold lower_tri; rewrite Hw; reflexivity).
    unfold b_sigma. rewrite Hl, H. reflexivity.
  Qed.
  Lemma mathscr_v_same nr nq NL tau sc l Ns s G K gm anti : @b_sigma IM Ns = @b_sigma IM' Ns ->
    @mathscr_v IM nr nq NL tau sc l Ns s G K gm anti = @mathscr_v IM' nr nq NL tau sc l Ns s G K gm anti.
  Proof.
    intros H. assert (Hr : @b_right IM Ns = @b_right IM' Ns) by (unfold b_right; rewrite H; reflexivity).
    unfold mathscr_v, v_branchN, mathscr_b. rewrite Hr. reflexivity.
  Qed.

  Section Stage.
    Variable g : sc_in.
    Hypothesis H : @b_sigma IM (sc_Ns g) = @b_sigma IM' (sc_Ns g).
    Lemma v_at_same : @v_at IM g = @v_at IM' g.
    Proof.
      repeat (apply functional_extensionality; intro). unfold v_at. apply mathscr_v_same; auto.
    Qed.
    Lemma rhs_iso_same : @rhs_iso IM g = @rhs_iso IM' g.
    Proof. unfold rhs_iso. rewrite v_at_same. reflexivity. Qed.
    Lemma solve_for_coeffs_same la clob jC jR : @solve_for_coeffs IM g la clob jC jR = @solve_for_coeffs IM' g la clob jC jR.
    Proof. unfold solve_for_coeffs, sc_step. rewrite rhs_iso_same. reflexivity. Qed.
  End Stage.

  Section Asm.
    Variable a : as_in.
    Hypothesis H : @b_sigma IM (a_Ns a) = @b_sigma IM' (a_Ns a).
    Lemma solve_all_same la jk : @solve_all IM a la jk = @solve_all IM' a la jk.
    Proof.
      unfold solve_all. destruct (gen_and_part_sols _ _ _ _ _ _ _); cbn [bind]; [|reflexivity].
      rewrite solve_for_coeffs_same; [reflexivity|exact H].
    Qed.
    Lemma iso_part_same sv : @iso_part IM a sv = @iso_part IM' a sv.
    Proof. repeat (apply functional_extensionality; intro). unfold iso_part. apply mathscr_v_same; auto. Qed.
    Lemma cl_u_same sv : @cl_u IM a sv = @cl_u IM' a sv.
    Proof. unfold cl_u, um_all. rewrite iso_part_same. reflexivity. Qed.
    Lemma cl_u0_same sv : @cl_u0 IM a sv = @cl_u0 IM' a sv.
    Proof. unfold cl_u0, u0_all. rewrite iso_part_same. reflexivity. Qed.
    Lemma cl_flux_up_same sv : @cl_flux_up IM a sv = @cl_flux_up IM' a sv.
    Proof. unfold cl_flux_up, flux_up_arr. rewrite iso_part_same. reflexivity. Qed.
    Lemma cl_flux_down_same sv : @cl_flux_down IM a sv = @cl_flux_down IM' a sv.
    Proof. unfold cl_flux_down, flux_down_arr. rewrite iso_part_same. reflexivity. Qed.
  End Asm.

  Theorem pydisort_same p lg la jk : (forall k, (k <= e_Ns p - 1)%nat -> @np_fact IM k = @np_fact IM' k) ->
    @pydisort IM p lg la jk = @pydisort IM' p lg la jk.
  Proof.
    intros H. pose proof (b_sigma_same _ (fac_rev_same _ H)) as Hs. unfold pydisort.
    destruct (validate p) as [u|]; cbn [bind]; [|reflexivity].
    destruct (check _ _); cbn [bind]; [|reflexivity].
    destruct (scaled_s p) as [ss|]; cbn [bind]; [|reflexivity].
    destruct (rescale p ss) as [r|]; cbn [bind]; [|reflexivity].
    rewrite (solve_all_same (assemble_args p lg r ss) Hs). destruct (solve_all _ _ _) as [sv|]; cbn [bind]; [|reflexivity].
    rewrite (cl_u_same (assemble_args p lg r ss) Hs), (cl_u0_same (assemble_args p lg r ss) Hs),
      (cl_flux_up_same (assemble_args p lg r ss) Hs), (cl_flux_down_same (assemble_args p lg r ss) Hs). reflexivity.
  Qed.
End Transfer.

(** Factorials that fit are exact. *)
Section Fit.
  Local Open Scope Z_scope.
  Lemma wrap_id b x : 1 <= b -> - 2 ^ (b - 1) <= x < 2 ^ (b - 1) -> wrap_int b x = x.
  Proof.
    intros Hb H. unfold wrap_int. assert (E : 2 ^ b = 2 * 2 ^ (b - 1)) by (rewrite <- Z.pow_succ_r by lia; f_equal; lia).
    rewrite Z.mod_small by lia. lia.
  Qed.
  Lemma wrap_range b x : 1 <= b -> - 2 ^ (b - 1) <= wrap_int b x < 2 ^ (b - 1).
  Proof.
    intros Hb. unfold wrap_int. assert (E : 2 ^ b = 2 * 2 ^ (b - 1)) by (rewrite <- Z.pow_succ_r by lia; f_equal; lia).
    assert (0 < 2 ^ b) by (apply Z.pow_pos_nonneg; lia). pose proof (Z.mod_pos_bound (x + 2 ^ (b - 1)) (2 ^ b)). lia.
  Qed.
  Lemma fact_mono_Z j k : (j <= k)%nat -> Z.of_nat (fact j) <= Z.of_nat (fact k).
  Proof. intros H. pose proof (fact_le j k H). lia. Qed.
  Lemma fac_fits b k : 1 <= b -> Z.of_nat (fact k) < 2 ^ (b - 1) -> fac_int b k = Z.of_nat (fact k).
  Proof.
    intros Hb. induction k as [|k IH]; intros H; [reflexivity|].
    cbn [fac_int]. rewrite IH by (pose proof (fact_mono_Z k (S k) ltac:(lia)); lia).
    rewrite wrap_id; auto.
    - rewrite <- Nat2Z.inj_mul, fact_simpl. f_equal. lia.
    - replace (Z.of_nat (fact k) * Z.of_nat (S k)) with (Z.of_nat (fact (S k))) by (rewrite fact_simpl; lia).
      pose proof (lt_O_fact (S k)). lia.
  Qed.
  (** One too large for the machine is wrong. *)
  Lemma fac_overflow b k : 1 <= b -> 2 ^ (b - 1) <= Z.of_nat (fact (S k)) -> fac_int b (S k) <> Z.of_nat (fact (S k)).
  Proof. intros Hb H E. cbn [fac_int] in E. pose proof (wrap_range b (fac_int b k * Z.of_nat (S k)) Hb). lia. Qed.

  (** Factorials as integers, to compute with. *)
  Fixpoint zf (k : nat) : Z := match k with O => 1 | S j => zf j * Z.of_nat k end.
  Lemma zf_fact k : Z.of_nat (fact k) = zf k.
  Proof. induction k as [|k IH]; [reflexivity|]. cbn [zf]. rewrite <- IH, fact_simpl. lia. Qed.
End Fit.

Theorem ints_suffice b p lg la jk : (1 <= b)%Z -> (Z.of_nat (fact (ncol (p_s p) - 1)) < 2 ^ (b - 1))%Z ->
  @pydisort (machine_ints b) p lg la jk = pydisort p lg la jk.
Proof.
  intros Hb H. apply pydisort_same. intros k Hk. unfold np_fact, machine_ints, exact_ints. rewrite INR_IZR_INZ. f_equal. apply fac_fits; auto.
  assert (e_Ns p <= ncol (p_s p))%nat by (unfold e_Ns; destruct (forall2b _ _ _); lia).
  pose proof (fact_mono_Z k (ncol (p_s p) - 1) ltac:(lia)). lia.
Qed.
Theorem ints_64 p lg la jk : (ncol (p_s p) <= 21)%nat -> @pydisort (machine_ints 64) p lg la jk = pydisort p lg la jk.
Proof.
  intros H. apply ints_suffice; [lia|]. pose proof (fact_mono_Z (ncol (p_s p) - 1) 20 ltac:(lia)) as HM.
  apply Z.le_lt_trans with (1 := HM). rewrite zf_fact. reflexivity.
Qed.
Theorem ints_32 p lg la jk : (ncol (p_s p) <= 13)%nat -> @pydisort (machine_ints 32) p lg la jk = pydisort p lg la jk.
Proof.
  intros H. apply ints_suffice; [lia|]. pose proof (fact_mono_Z (ncol (p_s p) - 1) 12 ltac:(lia)) as HM.
  apply Z.le_lt_trans with (1 := HM). rewrite zf_fact. reflexivity.
Qed.
