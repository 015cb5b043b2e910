(** From a successful call of pydisort to the modes of the returned intensity. *)
From Coq Require Import String Reals Lra Lia List Bool Arith ZArith.
From Coquelicot Require Import Coquelicot.
From Verif Require Import Base Tensor Spec M_LinAlg Spec_RTE Calc M_Subroutines M_GenPart M_MathscrV M_Coeffs M_Assemble M_Pydisort
  P_Sub P_GenPart3 P_Tensor P_Coeffs2 P_Coeffs3 P_Assemble P_Solve Spec_Sol P_Valid.
Import ListNotations.
Local Open Scope R_scope.

Section Scaled.
  Variable p : py_in.
  Hypothesis V : valid p.
  Let NL := nlayers p.

  Lemma albedo_range l : (l < NL)%nat -> 0 <= albedo p l < 1.
  Proof. intros Hl. apply (v_om p V). apply nth_In. rewrite (v_nom p V). exact Hl. Qed.
  Lemma fwd_range l : 0 <= fwd p l <= 1.
  Proof.
    unfold fwd. destruct (Nat.lt_ge_cases l (length (p_f p))).
    - apply (v_f p V), nth_In; auto.
    - rewrite nth_overflow by auto. lra.
  Qed.
  Lemma scl_pos l : (l < NL)%nat -> 0 < scl p l <= 1.
  Proof. intros Hl. pose proof (albedo_range l Hl). pose proof (fwd_range l). unfold scl. nra. Qed.

  Lemma delta_M_false : delta_M p = false -> forall l, fwd p l = 0.
  Proof.
    intros H l. unfold delta_M in H. pose proof (fwd_range l) as [H0 _].
    destruct H0 as [H0|H0]; auto. exfalso.
    assert (Hin : In (fwd p l) (p_f p)).
    { unfold fwd in *. destruct (Nat.lt_ge_cases l (length (p_f p))); [apply nth_In; auto|]. rewrite nth_overflow in H0 by auto. lra. }
    assert (existsb (fun f => Rltb 0 f) (p_f p) = true); [|congruence].
    apply existsb_exists. exists (fwd p l). split; auto. apply Rltb_iff; auto.
  Qed.

  Lemma scale_tau_eq l : scale_tau p l = scl p l.
  Proof.
    unfold scale_tau, scl. destruct (delta_M p) eqn:E; [reflexivity|]. rewrite (delta_M_false E). ring.
  Qed.
  Lemma scaled_tau0_eq l : (l <= NL)%nat -> scaled_tau0 p l = rsum l (fun r => scl p r * (bot_of p r - top_of p r)).
  Proof.
    intros Hl. unfold scaled_tau0. destruct (delta_M p) eqn:E; [reflexivity|].
    induction l; [reflexivity|]. cbn [rsum]. rewrite <- IHl by lia. unfold scl. rewrite (delta_M_false E).
    change (tau_top p (S l)) with (bot_of p l). change (tau_top p l) with (top_of p l). ring.
  Qed.
  Lemma depth_s_top l : (l <= NL)%nat -> scaled_tau0 p l = depth_s p l (top_of p l).
  Proof. intros Hl. rewrite scaled_tau0_eq by auto. unfold depth_s. ring. Qed.
  Lemma depth_s_bot l : (l < NL)%nat -> scaled_tau0 p (S l) = depth_s p l (bot_of p l).
  Proof. intros Hl. rewrite scaled_tau0_eq by (unfold NL in *; lia). reflexivity. Qed.

  Lemma scaled_omega_eq l : (l < NL)%nat -> scaled_omega p l = albedo_s p l.
  Proof.
    intros Hl. pose proof (scl_pos l Hl). unfold scaled_omega, albedo_s. destruct (delta_M p) eqn:E.
    - rewrite scale_tau_eq. unfold Rdiv. change (f_at p l) with (fwd p l). change (omega_at p l) with (albedo p l). ring.
    - unfold scl. rewrite (delta_M_false E). change (omega_at p l) with (albedo p l). field.
  Qed.
  Lemma albedo_s_range l : (l < NL)%nat -> 0 <= albedo_s p l < 1.
  Proof.
    intros Hl. pose proof (scl_pos l Hl). pose proof (albedo_range l Hl). pose proof (fwd_range l). unfold albedo_s. split.
    - apply Rmult_le_pos; [nra|]. left. apply Rinv_0_lt_compat. lra.
    - apply Rmult_lt_reg_r with (scl p l); [lra|]. unfold Rdiv. rewrite Rmult_assoc, Rinv_l by lra. unfold scl. nra.
  Qed.

  (** Phase function: only [albedo * coefficient] matters. *)
  Lemma leg0 l k : (l < NL)%nat -> albedo p l * Leg_all p l k = albedo p l * phase p l k.
  Proof.
    intros Hl. unfold Leg_all, phase. destruct (leg0_bad p) eqn:E.
    - destruct (Nat.eqb k 0); reflexivity.
    - destruct (Nat.eqb_spec k 0) as [->|]; [|reflexivity]. unfold leg0_bad in E. apply negb_false_iff in E.
      rewrite forallb_forall in E. specialize (E l ltac:(apply in_seq; unfold NL, nlayers, pNL in *; lia)). apply Reqb_iff in E.
      change (omega_at p l) with (albedo p l) in E. lra.
  Qed.
  Lemma wleg_eq l k : (l < NL)%nat -> albedo_s p l * weighted_scaled_Leg p l k = albedo_s p l * wphase_s p l k.
  Proof.
    intros Hl. unfold weighted_scaled_Leg, wphase_s, scaled_Leg, phase_s, albedo_s. pose proof (leg0 l k Hl) as H.
    destruct (delta_M p) eqn:E.
    - change (f_at p l) with (fwd p l). unfold Rdiv.
      replace ((1 - fwd p l) * albedo p l * / scl p l * ((Leg_all p l k - fwd p l) * / (1 - fwd p l) * (2 * INR k + 1)))
        with ((1 - fwd p l) * / scl p l * / (1 - fwd p l) * (2 * INR k + 1) * (albedo p l * Leg_all p l k - albedo p l * fwd p l)) by ring.
      rewrite H. ring.
    - rewrite (delta_M_false E). unfold Rdiv.
      replace ((1 - 0) * albedo p l * / scl p l * (Leg_all p l k * (2 * INR k + 1)))
        with (/ scl p l * (2 * INR k + 1) * (albedo p l * Leg_all p l k)) by ring.
      rewrite H. replace (/ (1 - 0)) with 1 by (rewrite Rminus_0_r; rewrite Rinv_1; reflexivity). ring.
  Qed.

  Lemma D_spec_om om wg wg' n m x y : (forall k, om * wg k = om * wg' k) -> D_spec om wg n m x y = D_spec om wg' n m x y.
  Proof.
    intros H. unfold D_spec. unfold Rdiv.
    rewrite <- !rsum_scal. apply rsum_ext. intros e He. destruct (Nat.leb m e); [|ring].
    replace (om * / 2 * (wg e * poch_term m e * lpmv m e x * lpmv m e y)) with (om * wg e * (/ 2 * poch_term m e * lpmv m e x * lpmv m e y)) by ring.
    rewrite H. ring.
  Qed.
  Lemma X_spec_om c om wg wg' n m mu0 x : (forall k, om * wg k = om * wg' k) -> X_spec c om wg n m mu0 x = X_spec c om wg' n m mu0 x.
  Proof.
    intros H. unfold X_spec. rewrite !Rmult_assoc. f_equal. f_equal. rewrite <- !rsum_scal. apply rsum_ext. intros e He. destruct (Nat.leb m e); [|ring].
    replace (om * (wg e * poch_term m e * lpmv m e x * lpmv m e (- mu0))) with (om * wg e * (poch_term m e * lpmv m e x * lpmv m e (- mu0))) by ring.
    rewrite H. ring.
  Qed.
  Lemma negl_om om wg wg' n m : (forall k, om * wg k = om * wg' k) -> negligible om wg n m <-> negligible om wg' n m.
  Proof.
    intros H. unfold negligible. split; intros A e He; specialize (A e He).
    - replace (om / 2 * wg' e) with (om / 2 * wg e); auto. unfold Rdiv. specialize (H e). nra.
    - replace (om / 2 * wg e) with (om / 2 * wg' e); auto. unfold Rdiv. specialize (H e). nra.
  Qed.
  (** Coefficients after the cut-off, transferred. *)
  Lemma cutoff_transfer om wg wg' n m c : (forall k, om * wg k = om * wg' k) -> is_cutoff om wg' n m c ->
    exists c', is_cutoff om wg n m c' /\ forall k, om * c' k = om * c k.
  Proof.
    intros H [H1 H2]. destruct (Classical_Prop.classic (negligible om wg' n m)) as [Hn|Hn].
    - exists (fun _ => 0). split; [split; [reflexivity|]|].
      + intros A. exfalso. apply A, (negl_om om wg wg'); auto.
      + intros k. rewrite (H1 Hn). ring.
    - exists wg. split; [split; [|reflexivity]|].
      + intros A. exfalso. apply Hn, (negl_om om wg wg'); auto.
      + intros k. rewrite (H2 Hn). apply H.
  Qed.

  (** Isotropic source. *)
  Lemma scaled_s_val ss : scaled_s p = Ok ss -> has_iso p = true ->
    forall l t, (l < NL)%nat -> scl p l * rsum (e_Ns p) (fun j => ss l j * depth_s p l t ^ j) = (1 - albedo p l) * source p l t.
  Proof.
    intros H Hiso l t Hl.
    assert (ENs : e_Ns p = ncol (p_s p)).
    { unfold has_iso, e_Ns in *. destruct (forall2b _ _ _); [discriminate|reflexivity]. }
    unfold scaled_s in H. rewrite Hiso in H. rewrite ENs.
    assert (Hrow : source p l t = rsum (ncol (p_s p)) (fun j => at2 (p_s p) l j * t ^ j)).
    { unfold source. rewrite (proj2 (Nat.ltb_lt l _)); [reflexivity|]. rewrite (v_ns p V); [exact Hl|]. apply has_iso_iff; auto. }
    rewrite Hrow.
    destruct (delta_M p) eqn:E.
    - pose proof (affine_ok (ncol (p_s p)) (map (s_row p) (seq 0 (pNL p))) (map (scale_tau p) (seq 0 (pNL p))) (map (translation p) (seq 0 (pNL p)))) as HA.
      rewrite !map_length, !seq_length in HA. rewrite HA in H.
      + cbn [bind] in H. injection H as <-.
        assert (Hl' : (l < pNL p)%nat) by exact Hl.
        rewrite nth_seq0_map by auto. rewrite !nth_seq0_map by auto.
        pose proof (affine_row_correct (ncol (p_s p)) (s_row p l) (scale_tau p l) (translation p l) t) as HR.
        rewrite scale_tau_eq in *. pose proof (scl_pos l Hl).
        assert (Ln : length (s_row p l) = ncol (p_s p)) by (unfold s_row; rewrite map_length, seq_length; reflexivity).
        specialize (HR ltac:(lra) Ln). rewrite !peval_rsum, affine_row_length, Ln in HR.
        rewrite (rsum_ext _ (fun j => at2 (p_s p) l j * t ^ j) (fun j => nth j (s_row p l) 0 * t ^ j)).
        2:{ intros j Hj. unfold s_row. rewrite nth_seq0_map by auto. reflexivity. }
        rewrite <- HR.
        replace (depth_s p l t) with (scl p l * t + translation p l).
        2:{ unfold translation. rewrite scaled_tau0_eq by (unfold NL in *; lia). rewrite scale_tau_eq. unfold depth_s. change (tau_top p l) with (top_of p l). ring. }
        rewrite <- !rsum_scal. apply rsum_ext. intros j Hj. change (omega_at p l) with (albedo p l). field. lra.
      + reflexivity.
      + reflexivity.
      + exact (v_ne p V).
      + intros i Hi. rewrite nth_seq0_map by auto. rewrite scale_tau_eq. pose proof (scl_pos i Hi). lra.
    - injection H as <-. rewrite <- !rsum_scal. apply rsum_ext. intros j Hj.
      assert (Es : scl p l = 1) by (unfold scl; rewrite (delta_M_false E); ring).
      assert (Ed : depth_s p l t = t).
      { unfold depth_s. rewrite Es. rewrite <- scaled_tau0_eq by (unfold NL in *; lia). unfold scaled_tau0. rewrite E. change (tau_top p l) with (top_of p l). ring. }
      rewrite Es, Ed. change (omega_at p l) with (albedo p l). ring.
  Qed.
End Scaled.
