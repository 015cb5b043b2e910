(** Concurrent calls that share Leg_coeffs_all: the whole program. *)
From Coq Require Import String Reals Lra Lia List Bool Arith ZArith.
From Verif Require Import Base Tensor Spec M_LinAlg M_Subroutines M_Assemble M_Pydisort M_Warn Spec_Valid P_Valid Spec_Shared M_Shared M_Conc P_Shared P_Shared2 P_Conc P_Conc2 P_Gauss P_Error P_Warn2 Examples5 Examples12.
Import ListNotations.
Local Open Scope R_scope.

Lemma put_map {A B} (f : A -> B) x l : forall i, nth_error l i = Some x -> forall y, f y = f x -> map f (put i y l) = map f l.
Proof.
  induction l as [|a l IH]; intros [|i] H y E; cbn in *; try discriminate; [injection H as ->; rewrite E; reflexivity|]. erewrite IH by eassumption. reflexivity.
Qed.
Lemma in_put {A} (x t : A) l i : In t (put i x l) -> t = x \/ In t l.
Proof.
  revert i. induction l as [|a l IH]; intros [|i] H; cbn in H; try contradiction; destruct H as [H|H]; [left; auto|right; right; auto|right; left; auto|].
  destruct (IH i H); [left; auto|right; right; auto].
Qed.

Section World.
  Variables (lg : leggauss_t) (la : linalg) (L : arr2).
  Local Notation n := (nrow L).
  Definition good (calls : list (py_in * junk)) (w : cworld) : Prop :=
    base L (fst w) /\ (forall t, In t (snd w) -> inv1 lg la L (fst w) t) /\
    ((forall t, In t (snd w) -> ct_warned t = false) -> forall l, fst w l = at2 L l 0%nat) /\
    map (fun t => (ct_in t, ct_junk t)) (snd w) = calls.

  Lemma good_begin calls : good calls (begin L calls).
  Proof.
    split; [intros l; left; reflexivity|]. split; [|split; [reflexivity|]].
    - intros t Ht. cbn in Ht. apply in_map_iff in Ht as (x & <- & _). split; [discriminate|reflexivity].
    - cbn. rewrite map_map. cbn. rewrite <- map_id. apply map_ext. intros []. reflexivity.
  Qed.
  Lemma good_step calls w i : good calls w -> good calls (cwstep lg la L w i).
  Proof.
    intros (B & I & N & M). unfold cwstep. destruct (nth_error (snd w) i) as [t|] eqn:E; [|split; [|split; [|split]]; assumption].
    destruct (inv_step lg la L (fst w) t B (I t (nth_error_In _ _ E))) as (B' & Lt & I' & E1 & E2 & W1 & W2).
    split; [exact B'|]. split; [|split]; cbn [fst snd].
    - intros t' Ht. apply in_put in Ht as [->|Ht]; [exact I'|]. apply inv1_later with (c := fst w); [exact Lt|]. exact (I t' Ht).
    - intros Hn. assert (Hi : (i < length (snd w))%nat) by (apply nth_error_Some; congruence).
      rewrite W2 by (apply Hn; eapply nth_error_In; apply nth_put_same; exact Hi). apply N. intros t' Ht.
      apply In_nth_error in Ht as (j & Hj). destruct (Nat.eq_dec i j) as [->|Ne].
      + rewrite E in Hj. injection Hj as <-. destruct (ct_warned t) eqn:Et; [|reflexivity]. rewrite <- (W1 eq_refl). apply Hn. eapply nth_error_In. apply nth_put_same. exact Hi.
      + apply Hn. apply nth_error_In with (n := j). rewrite nth_put_other by exact Ne. exact Hj.
    - rewrite <- M. eapply put_map; [exact E|]. cbn beta. rewrite E1, E2. reflexivity.
  Qed.
  Lemma good_steps calls sched : forall w, good calls w -> good calls (fold_left (cwstep lg la L) sched w).
  Proof. induction sched as [|i s IH]; intros w H; [exact H|]. cbn [fold_left]. apply IH, good_step, H. Qed.
  Lemma good_run calls sched : good calls (cwrun lg la L calls sched).
  Proof. apply good_steps, good_begin. Qed.

  Lemma thread_of calls w i t : good calls w -> nth_error (snd w) i = Some t -> nth_error calls i = Some (ct_in t, ct_junk t).
  Proof. intros (_ & _ & _ & <-) E. exact (map_nth_error (fun t => (ct_in t, ct_junk t)) i (snd w) E). Qed.

  Lemma concurrent calls sched i p jk r : nth_error calls i = Some (p, jk) -> outcome (cwrun lg la L calls sched) i = Some r ->
    same_answer r (pydisort (with_phase p L) lg la jk).
  Proof.
    intros Hc Ho. pose proof (good_run calls sched) as G. unfold outcome in Ho. destruct (nth_error (snd (cwrun lg la L calls sched)) i) as [t|] eqn:E; [|discriminate].
    pose proof (thread_of _ _ _ _ G E) as Et. rewrite Hc in Et. injection Et as -> ->. destruct G as (_ & I & _). destruct (I t (nth_error_In _ _ E)) as [_ X].
    destruct (ct_stage t); try discriminate. injection Ho as <-. exact (proj2 (proj2 X)).
  Qed.

  (** Steps a call may still need. *)
  Definition todo (t : cthread) : nat :=
    match ct_stage t with
    | SStart => 4 * n + 5 | SCheck acc => (n - length acc) + 1 + 3 * (n + 1) | SWrite i => (n - i) + 1 + 2 * (n + 1)
    | SRead3 acc => (n - length acc) + 1 + (n + 1) | SRead4 _ acc => (n - length acc) + 1 | SDone _ => 0 end.
  Lemma todo_step c t : inv1 lg la L c t -> (todo (snd (cstep lg la L c t)) <= todo t - 1)%nat.
  Proof.
    intros [_ I]. unfold cstep, todo, after_check. destruct (ct_stage t) as [|acc|i|acc|c3 acc|r] eqn:Es; cbv zeta.
    - cbn [snd at_stage ct_stage]. destruct (p_tau _); [lia|]. destruct (run_checks _); cbn [length]; lia.
    - destruct I as (_ & _ & I2 & _). destruct (Nat.eqb_spec (length acc) n) as [El|El].
      + destruct (seen_bad _ _); cbn [snd at_stage ct_stage]; [lia|]. destruct (run_checks _); cbn [length]; lia.
      + cbn [snd at_stage ct_stage]. rewrite app_length. cbn [length]. lia.
    - destruct I as (_ & _ & I2 & _). destruct (Nat.eqb_spec i n) as [El|El]; cbn [snd at_stage ct_stage]; [|lia]. destruct (run_checks _); cbn [length]; lia.
    - destruct I as (_ & _ & _ & [I2 _]). destruct (Nat.eqb_spec (length acc) n) as [El|El]; cbn [snd at_stage ct_stage length]; [lia|]. rewrite app_length. cbn [length]. lia.
    - destruct I as (_ & _ & _ & _ & _ & [I2 _]). destruct (Nat.eqb_spec (length acc) n) as [El|El]; cbn [snd at_stage ct_stage length]; [lia|]. rewrite app_length. cbn [length]. lia.
    - cbn [snd]. rewrite Es. lia.
  Qed.
  Lemma todo_zero t : todo t = 0%nat -> exists r, ct_stage t = SDone r.
  Proof. unfold todo. destruct (ct_stage t); intros H; try lia. eauto. Qed.
  Lemma todo_run calls sched i : forall w t, good calls w -> nth_error (snd w) i = Some t ->
    exists t', nth_error (snd (fold_left (cwstep lg la L) sched w)) i = Some t' /\ (todo t' <= todo t - count_occ Nat.eq_dec sched i)%nat.
  Proof.
    induction sched as [|j s IH]; intros w t G E; [exists t; split; [exact E|cbn; lia]|]. cbn [fold_left count_occ].
    pose proof (good_step _ _ j G) as G'. destruct (Nat.eq_dec j i) as [->|Ne].
    - assert (E' : nth_error (snd (cwstep lg la L w i)) i = Some (snd (cstep lg la L (fst w) t))).
      { unfold cwstep. rewrite E. cbn [snd]. apply nth_put_same. apply nth_error_Some. congruence. }
      destruct (IH _ _ G' E') as (t' & A & B). exists t'. split; [exact A|]. destruct G as (_ & I & _). pose proof (todo_step (fst w) t (I t (nth_error_In _ _ E))). lia.
    - assert (E' : nth_error (snd (cwstep lg la L w j)) i = Some t).
      { unfold cwstep. destruct (nth_error (snd w) j) as [tj|] eqn:Ej; [|exact E]. cbn [snd]. rewrite nth_put_other by exact Ne. exact E. }
      destruct (IH _ _ G' E') as (t' & A & B). exists t'. auto.
  Qed.
  Lemma terminates calls sched i : (i < length calls)%nat -> (4 * n + 5 <= count_occ Nat.eq_dec sched i)%nat ->
    exists r, outcome (cwrun lg la L calls sched) i = Some r.
  Proof.
    intros Hi Hs. destruct (nth_error calls i) as [x|] eqn:Ex; [|apply nth_error_None in Ex; lia].
    destruct (todo_run calls sched i (begin L calls) (mkCT (fst x) (snd x) SStart false) (good_begin calls)) as (t' & A & B).
    - cbn. exact (map_nth_error (fun x => mkCT (fst x) (snd x) SStart false) i calls Ex).
    - change (todo (mkCT (fst x) (snd x) SStart false)) with (4 * n + 5)%nat in B. destruct (todo_zero t' ltac:(lia)) as (r & Hr).
      exists r. unfold outcome, cwrun. rewrite A, Hr. reflexivity.
  Qed.

  Lemma nobody w : (forall j, has_warned w j = false) -> forall t, In t (snd w) -> ct_warned t = false.
  Proof. intros H t Ht. apply In_nth_error in Ht as (j & Hj). specialize (H j). unfold has_warned in H. rewrite Hj in H. exact H. Qed.
  Lemma array_now calls sched : let w := cwrun lg la L calls sched in
    ((forall j, has_warned w j = false) -> forall l, fst w l = at2 L l 0%nat) /\
    (forall l, fst w l = at2 L l 0%nat \/ fst w l = 1) /\
    (forall j r, has_warned w j = true -> outcome w j = Some r -> forall l, (l < n)%nat -> fst w l = 1).
  Proof.
    intros w. destruct (good_run calls sched) as (B & I & N & M). fold w in B, I, N, M. split; [intros H; apply N; exact (nobody w H)|]. split; [exact B|].
    intros j r Hw Ho. unfold has_warned in Hw. unfold outcome in Ho. destruct (nth_error (snd w) j) as [t|] eqn:E; [|discriminate].
    destruct (I t (nth_error_In _ _ E)) as [_ X]. destruct (ct_stage t); try discriminate. exact (proj1 X Hw).
  Qed.
  Lemma warns_for_cause calls sched i p jk : nth_error calls i = Some (p, jk) -> has_warned (cwrun lg la L calls sched) i = true ->
    exists l, (l < length (p_tau p))%nat /\ nth l (p_omega p) 0 <> 0 /\ at2 L l 0%nat <> 1.
  Proof.
    intros Hc Hw. pose proof (good_run calls sched) as G. unfold has_warned in Hw. destruct (nth_error (snd (cwrun lg la L calls sched)) i) as [t|] eqn:E; [|discriminate].
    pose proof (thread_of _ _ _ _ G E) as Et. rewrite Hc in Et. injection Et as -> ->. destruct G as (_ & I & _). destruct (I t (nth_error_In _ _ E)) as [J _]. exact (proj2 (J Hw)).
  Qed.
  Lemma somebody_warns calls sched i p jk o l : nth_error calls i = Some (p, jk) -> outcome (cwrun lg la L calls sched) i = Some (Ok o) ->
    (l < length (p_tau p))%nat -> nth l (p_omega p) 0 <> 0 -> at2 L l 0%nat <> 1 -> exists j, has_warned (cwrun lg la L calls sched) j = true.
  Proof.
    intros Hc Ho Hl Hw Ha. pose proof (good_run calls sched) as G. pose proof (concurrent _ _ _ _ _ _ Hc Ho) as S. set (w := cwrun lg la L calls sched) in *.
    destruct (existsb ct_warned (snd w)) eqn:Ee.
    - apply existsb_exists in Ee as (t & Ht & Wt). apply In_nth_error in Ht as (j & Hj). exists j. unfold has_warned. rewrite Hj. exact Wt.
    - exfalso. unfold outcome in Ho. destruct (nth_error (snd w) i) as [t|] eqn:E; [|discriminate].
      pose proof (thread_of _ _ _ _ G E) as Et. rewrite Hc in Et. injection Et as -> ->. destruct G as (_ & I & N & _). destruct (I t (nth_error_In _ _ E)) as [_ X].
      destruct (ct_stage t); try discriminate. injection Ho as ->. destruct X as (_ & X & _).
      assert (V : validate (with_phase (ct_in t) L) = Ok tt).
      { unfold pydisort in S. destruct (validate (with_phase (ct_in t) L)) as [[]|]; [reflexivity|destruct S]. }
      pose proof (v_nrow _ (proj1 (validate_iff _) V)) as Hr. cbn in Hr.
      destruct (X o eq_refl l) as [Z|Z]; [rewrite Hr; exact Hl|exact (Hw Z)|]. apply Ha. rewrite <- N; [exact Z|].
      intros t' Ht. destruct (ct_warned t') eqn:Et'; [|reflexivity]. rewrite <- Ee. symmetry. apply existsb_exists. eauto.
  Qed.
End World.

(** Two calls that both find the coefficient of [L_bad] before either has replaced it. *)
Definition two_calls : list (py_in * junk) := [(p_loud, junk0); (p_loud, junk0)].
Lemma loud_ok : validate p_loud = Ok tt.
Proof. destruct (P_Warn2.loud_answer 2 junk0) as (o & H). fold p_loud in H. unfold pydisort in H. destruct (validate p_loud) as [[]|]; [reflexivity|discriminate]. Qed.
Lemma loud_first : run_checks (firstn 9 (checks p_loud)) = Ok tt.
Proof.
  pose proof loud_ok as H. unfold validate in H. change (run_checks (checks p_loud) = Ok tt) in H. rewrite <- (firstn_skipn 9 (checks p_loud)), run_checks_app in H.
  destruct (run_checks (firstn 9 (checks p_loud))) as [[]|]; [reflexivity|discriminate].
Qed.
Lemma loud_start la c jk : cstep gauss_rule la L_bad c (mkCT p_loud jk SStart false) = (c, mkCT p_loud jk (SCheck []) false).
Proof.
  unfold cstep, at_stage. cbn [ct_in ct_stage ct_junk ct_warned]. rewrite bad_is.
  replace (match p_tau p_loud with [] => SDone (Err EIndex) | _ => match run_checks (firstn 9 (checks p_loud)) with Ok _ => SCheck [] | Err e => SDone (Err e) end end)
    with (SCheck []); [reflexivity|]. rewrite loud_first. reflexivity.
Qed.
Lemma loud_read la c jk : cstep gauss_rule la L_bad c (mkCT p_loud jk (SCheck []) false) = (c, mkCT p_loud jk (SCheck [c 0%nat]) false).
Proof. reflexivity. Qed.
Lemma loud_sees la c jk : cstep gauss_rule la L_bad c (mkCT p_loud jk (SCheck [2]) false) = (c, mkCT p_loud jk (SWrite 0) true).
Proof.
  unfold cstep. cbn [ct_in ct_stage ct_junk ct_warned]. rewrite bad_is. change (Nat.eqb (length [2]) (nrow L_bad)) with true. cbn iota.
  assert (E : seen_bad p_loud [2] = true).
  { unfold seen_bad. change (seq 0 (pNL p_loud)) with [0%nat]. cbn [forallb nth]. change (omega_at p_loud 0%nat) with (9999999/10000000). unfold Reqb. destruct (Req_EM_T _ _); [lra|reflexivity]. }
  rewrite E. reflexivity.
Qed.
Lemma step0 lg la L c t0 t1 : cwstep lg la L (c, [t0; t1]) 0 = (fst (cstep lg la L c t0), [snd (cstep lg la L c t0); t1]).
Proof. reflexivity. Qed.
Lemma step1 lg la L c t0 t1 : cwstep lg la L (c, [t0; t1]) 1 = (fst (cstep lg la L c t1), [t0; snd (cstep lg la L c t1)]).
Proof. reflexivity. Qed.
Lemma both_warn la : let w := cwrun gauss_rule la L_bad two_calls [0; 1; 0; 1; 0; 1]%nat in has_warned w 0%nat = true /\ has_warned w 1%nat = true.
Proof.
  intros w. assert (E : w = (fun l => at2 L_bad l 0%nat, [mkCT p_loud junk0 (SWrite 0) true; mkCT p_loud junk0 (SWrite 0) true])).
  { unfold w, cwrun, two_calls, begin. cbn [fold_left map fst snd].
    (rewrite step0, loud_start; cbn [fst snd]; rewrite step1, loud_start; cbn [fst snd]; rewrite step0, loud_read; cbn [fst snd]; rewrite step1, loud_read; cbn [fst snd]). change (at2 L_bad 0%nat 0%nat) with 2. rewrite step0, loud_sees; cbn [fst snd]. rewrite step1, loud_sees; cbn [fst snd]. reflexivity. }
  rewrite E. split; reflexivity.
Qed.
Lemma count_repeat i k : count_occ Nat.eq_dec (repeat i k) i = k.
Proof. induction k; cbn; [reflexivity|]. destruct (Nat.eq_dec i i); [f_equal; assumption|contradiction]. Qed.
(** A schedule that begins like this and then lets each call finish. *)
Definition race : list nat := ([0; 1; 0; 1; 0; 1] ++ repeat 0 9 ++ repeat 1 9)%nat.
Lemma race_done la i : (i < 2)%nat -> exists r, outcome (cwrun gauss_rule la L_bad two_calls race) i = Some r.
Proof.
  intros Hi. apply terminates; [exact Hi|]. change (nrow L_bad) with 1%nat. destruct i as [|[|i]]; [| |lia]; cbn; lia.
Qed.
Lemma race_answer i : (i < 2)%nat -> exists o, outcome (cwrun gauss_rule la_full L_bad two_calls race) i = Some (Ok o).
Proof.
  intros Hi. destruct (race_done la_full i Hi) as (r & Hr). assert (Hc : nth_error two_calls i = Some (p_loud, junk0)) by (destruct i as [|[|i]]; [reflexivity|reflexivity|lia]).
  pose proof (concurrent _ _ _ _ _ _ _ _ _ Hc Hr) as S. rewrite bad_is in S. destruct (P_Warn2.loud_answer 2 junk0) as (o & Ho). fold p_loud in Ho. rewrite Ho in S.
  destruct r as [o'|]; [eauto|destruct S].
Qed.
Lemma stays_warned lg la L sched i : forall w calls, good lg la L calls w -> has_warned w i = true -> has_warned (fold_left (cwstep lg la L) sched w) i = true.
Proof.
  induction sched as [|j s IH]; intros w calls G H; [exact H|]. cbn [fold_left]. apply (IH _ calls (good_step lg la L calls w j G)).
  unfold has_warned, cwstep in *. destruct (nth_error (snd w) j) as [t|] eqn:E; [|exact H]. cbn [snd]. destruct (Nat.eq_dec j i) as [->|Ne].
  - rewrite nth_put_same by (apply nth_error_Some; congruence). rewrite E in H. destruct G as (B & I & _).
    destruct (inv_step lg la L (fst w) t B (I t (nth_error_In _ _ E))) as (_ & _ & _ & _ & _ & W & _). exact (W H).
  - rewrite nth_put_other by exact Ne. exact H.
Qed.
Lemma race_warned la i : (i < 2)%nat -> has_warned (cwrun gauss_rule la L_bad two_calls race) i = true.
Proof.
  intros Hi. unfold cwrun, race. rewrite fold_left_app. apply (stays_warned _ _ _ _ _ _ two_calls); [exact (good_run gauss_rule la L_bad two_calls [0; 1; 0; 1; 0; 1]%nat)|].
  destruct (both_warn la) as [A B]. destruct i as [|[|i]]; [exact A|exact B|lia].
Qed.
Lemma warned_once_false : ~ (forall lg la L calls sched i j, i <> j -> has_warned (cwrun lg la L calls sched) i = true -> has_warned (cwrun lg la L calls sched) j = false).
Proof.
  intros H. specialize (H gauss_rule la_full L_bad two_calls race 0%nat 1%nat ltac:(lia) (race_warned la_full 0 ltac:(lia))). rewrite (race_warned la_full 1 ltac:(lia)) in H. discriminate.
Qed.
