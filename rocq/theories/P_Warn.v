(** Which warnings an answered call has issued. *)
From Coq Require Import Classical String Reals Lra Lia List Bool Arith ZArith.
From Coquelicot Require Import Coquelicot.
From Verif Require Import Base Tensor Spec M_LinAlg Spec_RTE M_Subroutines M_Assemble M_Pydisort M_Warn Spec_Sol Spec_Valid Spec_Calls P_Sub3 P_Valid P_Pydisort P_Pydisort2.
Import ListNotations.
Local Open Scope R_scope.

(** The interleaved steps make the same decision as the checks of [pydisort]. *)
Lemma steps_app a b : steps_result (a ++ b) = (let! _ := steps_result a in steps_result b).
Proof. induction a as [|[ok s|c w] a IH]; cbn; auto. destruct ok; auto. Qed.
Lemma steps_checks cs : steps_result (map to_step cs) = run_checks cs.
Proof. induction cs as [|[b s] cs IH]; cbn; auto. destruct b; auto. Qed.
Lemma checks_app a b : run_checks (a ++ b) = (let! _ := run_checks a in run_checks b).
Proof. induction a as [|[ok s] a IH]; cbn; auto. destruct ok; auto. Qed.
Theorem steps_agree p lg : p_tau p <> [] ->
  steps_result (steps p lg) = (let! _ := validate p in check (NT_angle_ok p lg) (EValue "Some quadrature angles come too close to `mu0`. Perturb `NQuad` or `mu0` to rectify this error.")).
Proof.
  intros Hne. unfold validate. destruct (p_tau p) eqn:Et; [contradiction|]. unfold steps. rewrite !steps_app, !steps_checks.
  change (run_checks (checks p)) with (run_checks (firstn 9 (checks p) ++ firstn 5 (skipn 9 (checks p)) ++ skipn 14 (checks p))). rewrite !checks_app.
  generalize (run_checks (firstn 9 (checks p))) (run_checks (firstn 5 (skipn 9 (checks p)))) (run_checks (skipn 14 (checks p))). intros [a|?] [b|?] [c|?]; reflexivity.
Qed.
Lemma warn_app a b : steps_result a = Ok tt -> steps_warnings (a ++ b) = steps_warnings a ++ steps_warnings b.
Proof.
  induction a as [|[ok s|c w] a IH]; cbn; auto; [destruct ok; [auto|discriminate]|]. intros H. rewrite IH by auto. apply app_assoc.
Qed.
Lemma warn_checks cs : steps_warnings (map to_step cs) = [].
Proof. induction cs as [|[b s] cs IH]; cbn; auto. destruct b; auto. Qed.
Lemma run_firstn n cs : run_checks cs = Ok tt -> run_checks (firstn n cs) = Ok tt /\ run_checks (skipn n cs) = Ok tt.
Proof.
  intros H. rewrite <- (firstn_skipn n cs) in H. rewrite checks_app in H. destruct (run_checks (firstn n cs)) as [[]|] eqn:E; [|discriminate]. cbn in H. auto.
Qed.
(** The warnings of a call that passes every check. *)
Lemma warnings_eq p lg ss : valid p -> NT_angle_ok p lg = true -> scaled_s p = Ok ss ->
  py_warnings p lg = (if leg0_bad p then [WLeg0] else []) ++ (if fourier_large p then [WFourier] else []) ++ (if albedo_large p then [WAlbedo] else []) ++ (if leg_large p then [WLeg] else []).
Proof.
  intros V HN Hs. apply validate_iff in V. unfold validate in V. unfold py_warnings. rewrite Hs. destruct (p_tau p); [discriminate|].
  destruct (run_firstn 9 _ V) as (A & B). destruct (run_firstn 5 _ B) as (C & D).
  unfold steps. rewrite warn_app by (rewrite steps_checks; exact A). rewrite warn_checks. cbn [app]. cbn [steps_warnings]. f_equal.
  rewrite warn_app by (rewrite steps_checks; exact C). rewrite warn_checks. cbn [app]. cbn [steps_warnings]. f_equal.
  rewrite warn_app by (rewrite steps_checks; exact D). rewrite warn_checks. cbn [app steps_warnings]. rewrite HN. rewrite app_nil_r. reflexivity.
Qed.

Section Conditions.
  Variable p : py_in.
  Hypothesis V : valid p.
  Lemma leg0_iff : leg0_bad p = true <-> exists l, (l < nlayers p)%nat /\ albedo p l <> 0 /\ at2 (p_Leg p) l 0%nat <> 1.
  Proof.
    unfold leg0_bad. rewrite negb_true_iff, <- not_true_iff_false.
    rewrite (forallb_seq p _ (fun l => omega_at p l * at2 (p_Leg p) l 0%nat = omega_at p l)) by (intros; apply Reqb_iff).
    change (pNL p) with (nlayers p). split.
    - intros H. apply not_all_ex_not in H as (l & H). apply imply_to_and in H as (Hl & H). exists l. split; [exact Hl|]. change (omega_at p l) with (albedo p l) in H. split; intros E; apply H; rewrite E; ring.
    - intros (l & Hl & H1 & H2) H. apply H2. apply (Rmult_eq_reg_l (albedo p l)); [|exact H1]. rewrite Rmult_1_r. exact (H l Hl).
  Qed.
  Lemma fourier_iff : fourier_large p = true <-> (64 < nmodes p)%nat.
  Proof.
    unfold fourier_large, e_NFourier, nmodes. destruct (p_only_flux p); cbn [negb]; rewrite ?andb_false_r, ?andb_true_r; [split; [discriminate|lia]|]. rewrite Z.ltb_lt. lia.
  Qed.
  Lemma existsb_seq f (P : nat -> Prop) a n : (forall i, (a <= i < a + n)%nat -> (f i = true <-> P i)) -> (existsb f (seq a n) = true <-> exists i, (a <= i < a + n)%nat /\ P i).
  Proof.
    intros H. rewrite existsb_exists. split.
    - intros (i & Hi & E). apply in_seq in Hi. exists i. split; [lia|apply H; auto].
    - intros (i & Hi & E). exists i. split; [apply in_seq; lia|apply H; auto].
  Qed.
  Lemma albedo_iff : albedo_large p = true <-> exists l, (l < nlayers p)%nat /\ 1 - 1 / 1000000 < albedo_s p l.
  Proof.
    unfold albedo_large. rewrite (existsb_seq _ (fun l => 1 - 1/1000000 < albedo_s p l)).
    - change (pNL p) with (nlayers p). split; intros (l & Hl & E); exists l; (split; [lia|exact E]).
    - intros l Hl. rewrite (scaled_omega_eq p V) by (unfold nlayers, pNL in *; lia). apply Rltb_iff.
  Qed.
  Lemma leg_iff : leg_large p = true <-> exists l k, (l < nlayers p)%nat /\ (1 <= k < ncoeffs p)%nat /\ (fwd p l = 1 \/ 95/100 < Rabs (phase_s p l k)).
  Proof.
    unfold leg_large. rewrite (existsb_seq _ (fun l => exists k, (1 <= k < 1 + (pNLeg p - 1))%nat /\ (fwd p l = 1 \/ 95/100 < Rabs (phase_s p l k)))).
    - change (pNL p) with (nlayers p). change (pNLeg p) with (ncoeffs p). split.
      + intros (l & Hl & k & Hk & E). exists l, k. split; [lia|]. split; [lia|exact E].
      + intros (l & k & Hl & Hk & E). exists l. split; [lia|]. exists k. split; [lia|exact E].
    - intros l Hl. apply existsb_seq. intros k Hk. destruct k as [|k]; [lia|].
      assert (Es : scaled_Leg p l (S k) = phase_s p l (S k)).
      { unfold scaled_Leg, phase_s. rewrite Leg_all_S. unfold phase. cbn [Nat.eqb]. change (f_at p l) with (fwd p l). destruct (delta_M p) eqn:E; [reflexivity|]. rewrite (delta_M_false p V E). field. }
      rewrite Es, !orb_true_iff, andb_true_iff, !Rltb_iff, Reqb_iff. change (f_at p l) with (fwd p l).
      assert (Ed : fwd p l = 1 -> delta_M p = true).
      { intros H. destruct (delta_M p) eqn:E; [reflexivity|]. rewrite (delta_M_false p V E) in H. lra. }
      split.
      + intros [[(_ & H)|H]|H]; [left; exact H| |]; right; unfold Rabs; destruct (Rcase_abs (phase_s p l (S k))); lra.
      + intros [H|H]; [left; left; auto|]. unfold Rabs in H; destruct (Rcase_abs (phase_s p l (S k))); [left; right; lra|right; lra].
  Qed.
End Conditions.
