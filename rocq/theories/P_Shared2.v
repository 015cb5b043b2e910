(** Histories of calls that share Leg_coeffs_all. *)
From Coq Require Import String Reals Lra Lia List Bool Arith ZArith FunctionalExtensionality.
From Verif Require Import Base Tensor Spec M_LinAlg M_Subroutines M_Assemble M_Pydisort M_Warn Spec_Valid P_Valid Spec_Warn P_Warn P_Warn2 Spec_Shared M_Shared P_Shared.
Import ListNotations.
Local Open Scope R_scope.

Lemma same_answer_refl x : same_answer x x.
Proof. destruct x; cbn; auto 6. Qed.

(** ** Rows of layers that do not scatter *)
Lemma bad_same p L : same_where_scattering p L (p_Leg p) -> leg0_bad (with_phase p L) = leg0_bad p.
Proof.
  intros (_ & _ & H). unfold leg0_bad. f_equal. change (pNL (with_phase p L)) with (pNL p). cbn [with_phase p_Leg].
  assert (X : forall l, In l (seq 0 (pNL p)) -> (l < pNL p)%nat) by (intros l Hl; apply in_seq in Hl; lia). revert X.
  induction (seq 0 (pNL p)) as [|l s IH]; intros X; [reflexivity|]. cbn [forallb]. rewrite IH by (intros; apply X; right; auto). f_equal.
  change (omega_at (with_phase p L) l) with (omega_at p l).
  destruct (Req_dec (omega_at p l) 0) as [E|E]; [rewrite E, !Rmult_0_l; reflexivity|]. rewrite (H l); auto. apply X. left; auto.
Qed.
Theorem unused_rows p L lg la jk : valid p -> valid (with_phase p L) -> same_where_scattering p L (p_Leg p) ->
  same_answer (pydisort (with_phase p L) lg la jk) (pydisort p lg la jk).
Proof.
  intros V V' H. pose proof (bad_same p L H) as Eb. apply one_call.
  - apply H.
  - intros l. destruct (Req_dec (omega_at p l) 0) as [E|E]; [left; exact E|right]. intros k.
    assert (Hl : (l < pNL p)%nat).
    { destruct (Nat.lt_ge_cases l (length (p_omega p))) as [A|A]; [|exfalso; apply E; apply nth_overflow; auto]. rewrite (v_nom _ V) in A. exact A. }
    pose proof (proj2 (proj2 H) l Hl E k) as A. unfold Leg_all. rewrite Eb. cbn [with_phase p_Leg]. destruct (leg0_bad p); [destruct (Nat.eqb k 0); auto|]; exact A.
  - rewrite (proj2 (validate_iff p) V). apply validate_iff. exact V'.
Qed.

(** ** The first column *)
Lemma ones_not_bad p L : p_Leg p = ones_first L -> leg0_bad p = false.
Proof.
  intros E. unfold leg0_bad. rewrite E. cbn [ones_first at2]. apply negb_false_iff, forallb_forall. intros l _. rewrite Rmult_1_r. unfold Reqb. destruct (Req_EM_T _ _); auto.
Qed.
Lemma ones_twice L : ones_first (ones_first L) = ones_first L.
Proof.
  unfold ones_first. cbn. f_equal. apply functional_extensionality; intros l. apply functional_extensionality; intros k. destruct (Nat.eqb k 0); reflexivity.
Qed.
Lemma ones_all p : Leg_all (with_phase p (ones_first (p_Leg p))) = at2 (ones_first (p_Leg p)).
Proof. unfold Leg_all. rewrite (ones_not_bad _ (p_Leg p)); reflexivity. Qed.
Lemma all_later p l k : Leg_all p l (S k) = at2 (p_Leg p) l (S k).
Proof. unfold Leg_all. destruct (leg0_bad p); reflexivity. Qed.
Lemma ones_checks p : checks (with_phase p (ones_first (p_Leg p))) = checks p.
Proof.
  unfold checks. rewrite ones_all.
  replace (fun l k => (Rltb (-1) (Leg_all p l (S k)) && Rltb (Leg_all p l (S k)) 1)%bool) with (fun l k => (Rltb (-1) (at2 (ones_first (p_Leg p)) l (S k)) && Rltb (at2 (ones_first (p_Leg p)) l (S k)) 1)%bool); [reflexivity|].
  apply functional_extensionality; intros l. apply functional_extensionality; intros k. rewrite all_later. reflexivity.
Qed.
Lemma ones_validate p : validate (with_phase p (ones_first (p_Leg p))) = validate p.
Proof. unfold validate. rewrite ones_checks. reflexivity. Qed.
Lemma ones_same p lg la jk : same_answer (pydisort (with_phase p (ones_first (p_Leg p))) lg la jk) (pydisort p lg la jk).
Proof.
  destruct (leg0_bad p) eqn:Eb.
  { change (with_phase p (ones_first (p_Leg p))) with (normalised p). rewrite normal_same by exact Eb. apply same_answer_refl. }
  destruct (validate p) as [[]|e] eqn:Ev.
  - apply one_call; [reflexivity| |rewrite ones_validate; reflexivity]. intros l. rewrite ones_all. unfold Leg_all. rewrite Eb.
    destruct (Req_dec (omega_at p l) 0) as [E|E]; [left; exact E|right].
    assert (Hl : (l < pNL p)%nat).
    { destruct (Nat.lt_ge_cases l (length (p_omega p))) as [A|A]; [|exfalso; apply E; apply nth_overflow; auto]. apply validate_iff in Ev. rewrite (v_nom _ Ev) in A. exact A. }
    unfold leg0_bad in Eb. apply negb_false_iff in Eb. rewrite forallb_forall in Eb. specialize (Eb l). cbn beta in Eb.
    assert (H1 : at2 (p_Leg p) l 0%nat = 1).
    { unfold Reqb in Eb. destruct (Req_EM_T _ _) as [A|A]; [nra|]. discriminate Eb. apply in_seq. lia. }
    intros k. cbn [ones_first at2]. destruct k; [rewrite H1|]; reflexivity.
  - unfold pydisort. rewrite ones_validate, Ev. reflexivity.
Qed.

(** ** Warnings and the array *)
Lemma ones_leg_large p : leg_large (with_phase p (ones_first (p_Leg p))) = leg_large p.
Proof.
  unfold leg_large. change (pNL (with_phase p (ones_first (p_Leg p)))) with (pNL p). change (pNLeg (with_phase p (ones_first (p_Leg p)))) with (pNLeg p).
  assert (X : forall (A : Type) (f g : A -> bool) s, (forall x, In x s -> f x = g x) -> existsb f s = existsb g s).
  { intros A f g s H. induction s; [reflexivity|]. cbn. rewrite H by (left; auto). rewrite IHs; auto. intros; apply H; right; auto. }
  apply X. intros l _. apply X. intros k Hk. apply in_seq in Hk. destruct k; [lia|].
  replace (scaled_Leg (with_phase p (ones_first (p_Leg p))) l (S k)) with (scaled_Leg p l (S k)); [reflexivity|].
  unfold scaled_Leg. rewrite ones_all, all_later. reflexivity.
Qed.
Definition not0 (w : warning) : bool := match w with WLeg0 => false | _ => true end.
Lemma steps_warn_filter a c b : (forall w, In w (steps_warnings b) -> w <> WLeg0) -> (forall w, In w (steps_warnings a) -> w <> WLeg0) ->
  steps_warnings (a ++ Warn false WLeg0 :: b) = filter not0 (steps_warnings (a ++ Warn c WLeg0 :: b)).
Proof.
  intros Hb. induction a as [|[ok s|d v] a IH]; intros Ha.
  - cbn. rewrite filter_app. replace (filter not0 (if c then [WLeg0] else [])) with (@nil warning) by (destruct c; reflexivity). cbn [app].
    symmetry. induction (steps_warnings b) as [|w l IHl]; [reflexivity|]. cbn. destruct w; try (rewrite IHl; [reflexivity|intros; apply Hb; right; auto]). exfalso. apply (Hb WLeg0); [left|]; auto.
  - cbn. destruct ok; [|reflexivity]. apply IH. exact Ha.
  - cbn [app steps_warnings]. rewrite filter_app. rewrite IH by (intros w Hw; apply Ha; cbn; apply in_or_app; right; auto). f_equal.
    destruct d; [|reflexivity]. cbn. destruct v; try reflexivity. exfalso. apply (Ha WLeg0); [left|]; auto.
Qed.
(** What is left to do after the check of the zeroth coefficient. *)
Definition later_steps (p : py_in) (lg : leggauss_t) : list step :=
  map to_step (firstn 5 (skipn 9 (checks p))) ++ [Warn (fourier_large p) WFourier] ++ map to_step (skipn 14 (checks p))
  ++ [Check (NT_angle_ok p lg) "Some quadrature angles come too close to `mu0`. Perturb `NQuad` or `mu0` to rectify this error."]
  ++ (match scaled_s p with Ok _ => [Warn (albedo_large p) WAlbedo; Warn (leg_large p) WLeg] | Err _ => [] end).
Lemma warnings_form p lg : p_tau p <> [] ->
  py_warnings p lg = steps_warnings (map to_step (firstn 9 (checks p)) ++ Warn (leg0_bad p) WLeg0 :: later_steps p lg).
Proof.
  intros H. unfold py_warnings, later_steps. destruct (p_tau p); [contradiction|]. destruct (scaled_s p); [reflexivity|]. reflexivity.
Qed.
Lemma later_ones p lg : later_steps (with_phase p (ones_first (p_Leg p))) lg = later_steps p lg.
Proof. unfold later_steps. rewrite ones_checks, ones_leg_large. reflexivity. Qed.
Lemma in_warnings w l : In w (steps_warnings l) -> exists c, In (Warn c w) l.
Proof.
  induction l as [|[ok s|c v] l IH]; cbn; [intros []| |].
  - destruct ok; [|intros []]. intros H. destruct (IH H) as (c & A). eauto.
  - rewrite in_app_iff. intros [H|H]; [destruct c; [destruct H as [->|[]]; eauto|destruct H]|]. destruct (IH H) as (c' & A). eauto.
Qed.
Lemma later_not0 p lg w : In w (steps_warnings (later_steps p lg)) -> w <> WLeg0.
Proof.
  intros H ->. apply in_warnings in H as (c & H). unfold later_steps in H. rewrite !in_app_iff in H. destruct H as [H|[H|[H|[H|H]]]].
  - apply in_map_iff in H as (? & H & _). discriminate.
  - destruct H as [H|[]]. discriminate.
  - apply in_map_iff in H as (? & H & _). discriminate.
  - destruct H as [H|[]]. discriminate.
  - destruct (scaled_s p); [destruct H as [H|[H|[]]]; discriminate|destruct H].
Qed.
Lemma first_not0 cs w : In w (steps_warnings (map to_step cs)) -> w <> WLeg0.
Proof. rewrite warn_checks. intros []. Qed.
Lemma ones_warnings p lg : py_warnings (with_phase p (ones_first (p_Leg p))) lg = filter not0 (py_warnings p lg).
Proof.
  destruct (p_tau p) eqn:Et; [unfold py_warnings; cbn [with_phase p_tau]; rewrite Et; reflexivity|].
  rewrite !warnings_form by (cbn [with_phase p_tau]; rewrite Et; discriminate).
  rewrite (ones_not_bad _ (p_Leg p)) by reflexivity. rewrite ones_checks, later_ones. apply steps_warn_filter; [apply later_not0|apply first_not0].
Qed.
Lemma warned_iff p lg : In WLeg0 (py_warnings p lg) <-> p_tau p <> [] /\ run_checks (firstn 9 (checks p)) = Ok tt /\ leg0_bad p = true.
Proof.
  destruct (p_tau p) eqn:Et. { unfold py_warnings. rewrite Et. split; [intros []|]. intros [[] _]. reflexivity. }
  rewrite warnings_form by (rewrite Et; discriminate). rewrite <- (steps_checks (firstn 9 (checks p))).
  assert (Hn : ~ In WLeg0 (steps_warnings (map to_step (firstn 9 (checks p))))) by (rewrite warn_checks; intros []).
  generalize dependent (map to_step (firstn 9 (checks p))). intros s. induction s as [|[ok m|c v] s IH]; intros Hn.
  - cbn. rewrite in_app_iff. destruct (leg0_bad p); cbn; split; intros H; try tauto.
    + split; [discriminate|auto].
    + destruct H as [[]|H]. destruct (later_not0 _ _ _ H eq_refl).
    + destruct H as (_ & _ & H). discriminate.
  - cbn. cbn in Hn. destruct ok; [apply IH, Hn|]. split; [intros []|intros (_ & H & _); discriminate].
  - cbn [app steps_warnings steps_result]. cbn [steps_warnings] in Hn. rewrite in_app_iff in *. rewrite IH by tauto. tauto.
Qed.
Lemma after_warned p lg : In WLeg0 (py_warnings p lg) -> leg_after p = ones_first (p_Leg p).
Proof.
  intros H. apply (warned_iff p lg) in H as (H1 & H2 & H3). unfold leg_after. destruct (p_tau p); [contradiction|]. rewrite H2, H3. reflexivity.
Qed.
Lemma after_silent p lg : ~ In WLeg0 (py_warnings p lg) -> leg_after p = p_Leg p.
Proof.
  intros H. rewrite (warned_iff p lg) in H. unfold leg_after. destruct (p_tau p); [reflexivity|]. destruct (run_checks (firstn 9 (checks p))) as [[]|]; [|reflexivity].
  destruct (leg0_bad p); [|reflexivity]. exfalso. apply H. repeat split; auto. discriminate.
Qed.
Lemma after_ones p : leg_after (with_phase p (ones_first (p_Leg p))) = ones_first (p_Leg p).
Proof.
  rewrite (after_silent _ (fun _ => ([],[]))); [reflexivity|]. rewrite ones_warnings, filter_In. intros [_ H]. discriminate.
Qed.

(** ** Histories *)
Section History.
  Variables (lg : leggauss_t) (la : linalg).

  (** Once the column has been overwritten, nothing changes any more. *)
  Lemma run_ones calls L : array_after (ones_first L) calls = ones_first L /\
    Forall2 (fun r c => same_answer (fst r) (pydisort (with_phase (fst c) L) lg la (snd c)) /\ snd r = filter not0 (py_warnings (with_phase (fst c) L) lg))
            (run_calls lg la (ones_first L) calls) calls.
  Proof.
    induction calls as [|[p jk] t IH]; cbn [run_calls array_after]; [split; constructor|].
    assert (E : leg_after (with_phase p (ones_first L)) = ones_first L) by exact (after_ones (with_phase p L)).
    rewrite E. split; [apply IH|]. constructor; [|apply IH]. split; [exact (ones_same (with_phase p L) lg la jk)|exact (ones_warnings (with_phase p L) lg)].
  Qed.

  Theorem calls_independent L calls :
    Forall2 (fun r c => same_answer (fst r) (pydisort (with_phase (fst c) L) lg la (snd c)) /\
                        filter not0 (snd r) = filter not0 (py_warnings (with_phase (fst c) L) lg))
            (run_calls lg la L calls) calls.
  Proof.
    induction calls as [|[p jk] t IH]; cbn [run_calls]; [constructor|]. constructor; [split; [apply same_answer_refl|reflexivity]|].
    destruct (in_dec (fun x y : warning => ltac:(decide equality)) WLeg0 (py_warnings (with_phase p L) lg)) as [H|H].
    - rewrite (after_warned _ lg H). change (ones_first (p_Leg (with_phase p L))) with (ones_first L). destruct (run_ones t L) as [_ F].
      clear IH H. induction F as [|r c l l' [A B] F IHF]; constructor; [split; [exact A|]|exact IHF]. rewrite B. clear - c. generalize (py_warnings (with_phase (fst c) L) lg). intros l. induction l as [|w l IHl]; cbn; auto. destruct w; cbn; rewrite ?IHl; auto.
    - rewrite (after_silent _ lg H). exact IH.
  Qed.

  Theorem array_history L calls :
    ((exists r, In r (run_calls lg la L calls) /\ In WLeg0 (snd r)) -> array_after L calls = ones_first L) /\
    ((forall r, In r (run_calls lg la L calls) -> ~ In WLeg0 (snd r)) -> array_after L calls = L).
  Proof.
    revert L. induction calls as [|[p jk] t IH]; intros L; cbn [run_calls array_after].
    { split; [intros (r & [] & _)|auto]. }
    destruct (in_dec (fun x y : warning => ltac:(decide equality)) WLeg0 (py_warnings (with_phase p L) lg)) as [H|H].
    - rewrite (after_warned _ lg H). change (ones_first (p_Leg (with_phase p L))) with (ones_first L). destruct (run_ones t L) as [E _]. split; [auto|]. intros HN. exfalso. apply (HN _ (or_introl eq_refl)). exact H.
    - rewrite (after_silent _ lg H). change (p_Leg (with_phase p L)) with L. destruct (IH L) as [A B]. split.
      + intros (r & [<-|Hr] & Hw); [contradiction|]. apply A. eauto.
      + intros HN. apply B. intros r Hr. apply HN. right. exact Hr.
  Qed.

  (** The zeroth coefficient is warned of once at most. *)
  Theorem warned_once L calls i j r r' : (i < j)%nat -> nth_error (run_calls lg la L calls) i = Some r -> nth_error (run_calls lg la L calls) j = Some r' ->
    In WLeg0 (snd r) -> ~ In WLeg0 (snd r').
  Proof.
    revert L i j. induction calls as [|[p jk] t IH]; intros L i j Hij Hi Hj H; cbn [run_calls] in Hi, Hj; [destruct i; discriminate|].
    destruct j; [lia|]. cbn [nth_error] in Hj. destruct i; cbn [nth_error] in Hi.
    - injection Hi as <-. cbn [snd] in H. rewrite (after_warned _ lg H) in Hj. change (ones_first (p_Leg (with_phase p L))) with (ones_first L) in Hj.
      destruct (run_ones t L) as [_ F]. apply nth_error_In in Hj. clear -F Hj. induction F as [|x y l l' (_ & E) F IHF]; [destruct Hj|]. destruct Hj as [<-|Hj]; [|auto]. rewrite E, filter_In. intros [_ X]. discriminate.
    - apply (IH (leg_after (with_phase p L)) i j); auto. lia.
  Qed.
End History.
Lemma in_not0 w l : w <> WLeg0 -> (In w l <-> In w (filter not0 l)).
Proof. intros H. rewrite filter_In. destruct w; cbn; tauto. Qed.
Theorem answers_independent lg la L calls :
  Forall2 (fun r c => same_answer (fst r) (pydisort (with_phase (fst c) L) lg la (snd c))) (run_calls lg la L calls) calls.
Proof. induction (calls_independent lg la L calls) as [|r c l l' [A _] F IH]; constructor; auto. Qed.
Theorem warnings_independent lg la L calls :
  Forall2 (fun r c => forall w, w <> WLeg0 -> (In w (snd r) <-> In w (py_warnings (with_phase (fst c) L) lg))) (run_calls lg la L calls) calls.
Proof.
  induction (calls_independent lg la L calls) as [|r c l l' [_ A] F IH]; constructor; auto. intros w Hw. rewrite (in_not0 _ _ Hw), A, <- in_not0 by auto. reflexivity.
Qed.
