(** Proofs about interpolate: histories and interleavings of calls. *)
From Coq Require Import String Reals Lra Lia List Bool Arith.
From Verif Require Import Base Tensor M_Subroutines M_Assemble M_Pydisort M_Interp Spec Spec_Interp Spec_Calls P_Teq P_Same P_Interp.
Import ListNotations.
Local Open Scope R_scope.

Lemma pv_eq_sym x y : pv_eq x y -> pv_eq y x.
Proof. destruct x, y; cbn; auto using teq_sym. Qed.
Lemma pv_eq_trans x y z : pv_eq x y -> pv_eq y z -> pv_eq x z.
Proof. destruct x, y, z; cbn; try tauto; try congruence. apply teq_trans. Qed.
Lemma pvs_sym xs ys : Forall2 pv_eq xs ys -> Forall2 pv_eq ys xs.
Proof. induction 1; auto using pv_eq_sym. Qed.
Lemma pvs_trans xs ys : Forall2 pv_eq xs ys -> forall zs, Forall2 pv_eq ys zs -> Forall2 pv_eq xs zs.
Proof. induction 1; intros zs H1; inversion H1; subst; eauto using pv_eq_trans. Qed.
Lemma same_ret_sym x y : same_ret x y -> same_ret y x.
Proof. destruct x as [[v|vs]|], y as [[w|ws]|]; cbn; auto using pv_eq_sym, pvs_sym. Qed.
Lemma same_ret_trans x y z : same_ret x y -> same_ret y z -> same_ret x z.
Proof.
  destruct x as [[v|vs]|], y as [[w|ws]|], z as [[u|us]|]; cbn; try tauto; try congruence; [apply pv_eq_trans|].
  intros H1 H2. eapply pvs_trans; eauto.
Qed.

Section Hist.
  Variable it : interp.
  Hypothesis HL : length (in_nodes it) = in_N it.
  Hypothesis HR : forall c A rest, fetch (in_fun it) c = Ok (A, rest) -> exists s, shp A = (2 * in_N it)%nat :: s.

  (** A call either fails at once, whatever the objects, or runs through all stages. *)
  Lemma start_cases c :
    (exists r, (forall jk, i_start it c jk = TDone (Err r))) \/
    (cosines_ok (ia_mu c) /\ exists A rest s, fetch (in_fun it) c = Ok (A, rest) /\ shp A = (2 * in_N it)%nat :: s).
  Proof.
    unfold i_start. destruct (forallb (fun x => Rleb (Rabs x) 1) (ia_mu c)) eqn:E; cbn [negb]; [|left; eauto].
    destruct (fetch (in_fun it) c) as [[A rest]|e] eqn:EF; [|left; eauto]. right. split.
    - intros x Hx. apply forallb_forall with (x := x) in E; auto. apply Rleb_iff; auto.
    - destruct (HR c A rest EF) as [s Hs]. eauto 6.
  Qed.
  Lemma done_call o c jk r : i_start it c jk = TDone r -> i_call it o c jk = (o, r).
  Proof. intros H. unfold i_call, run1. cbv zeta. cbn [fst snd step]. rewrite H. reflexivity. Qed.
  Theorem call_alone o c jk : same_ret (snd (i_call it o c jk)) (alone it c).
  Proof.
    unfold alone. destruct (start_cases c) as [(r & H)|(Hm & A & rest & s & HF & HA)].
    - rewrite !(done_call _ _ _ _ (H _)). apply same_ret_refl.
    - apply (final_same it c rest s A A); apply (call_final it HL c A rest s Hm HF HA).
  Qed.
  Theorem calls_alone cs : forall o, Forall2 (fun r c => same_ret r (alone it (fst c))) (snd (i_calls it o cs)) cs.
  Proof.
    induction cs as [|[c jk] cs IH]; intros o; cbn [i_calls]; [constructor|].
    pose proof (call_alone o c jk) as H. destruct (i_call it o c jk) as [o' x]. specialize (IH o'). destruct (i_calls it o' cs) as [o'' xs]. constructor; auto.
  Qed.

  (** ** Interleavings without conflict *)
  Definition tinv (o : objs) (c : iargs) (t : thread) : Prop :=
    match t with
    | TStart c' _ => c' = c
    | TDone r => same_ret r (alone it c)
    | _ => cosines_ok (ia_mu c) /\ exists A rest s, fetch (in_fun it) c = Ok (A, rest) /\ shp A = (2 * in_N it)%nat :: s /\
        match t with
        | TSetPos l => base c A rest s l
        | TEvalPos l => base c A rest s l /\ ob_pos o = Some (tslice 0 0 (in_N it) A)
        | TSetNeg l => base c A rest s l /\ posdone it c s A l
        | TEvalNeg l => base c A rest s l /\ posdone it c s A l /\ ob_neg o = Some (tslice 0 (in_N it) (in_N it) A)
        | _ => True
        end
    end.
  Lemma final_alone c A rest s r : cosines_ok (ia_mu c) -> fetch (in_fun it) c = Ok (A, rest) -> shp A = (2 * in_N it)%nat :: s ->
    final it c rest s A A r -> same_ret r (alone it c).
  Proof. intros Hm HF HA H. apply (final_same it c rest s A A); auto. apply (call_final it HL c A rest s Hm HF HA). Qed.
  Lemma step_inv o c t : tinv o c t -> tinv (fst (step it o t)) c (snd (step it o t)).
  Proof.
    destruct t as [c' jk|l|l|l|l|r]; cbn [tinv].
    - intros ->. cbn [step fst snd]. destruct (start_cases c) as [(r & H)|(Hm & A & rest & s & HF & HA)].
      + rewrite (H jk). cbn [tinv]. unfold alone. rewrite (done_call _ _ _ _ (H _)). apply same_ret_refl.
      + destruct (start_ok it c A rest s Hm HF HA jk) as (l & -> & B). cbn [tinv]. split; auto. exists A, rest, s. auto.
    - intros (Hm & A & rest & s & HF & HA & B). destruct (setpos_ok it HL c A rest s HA o l B) as [[E _]|[E [_ P]]]; rewrite E; cbn [fst snd tinv ob_pos].
      + split; auto. exists A, rest, s. auto.
      + split; auto. exists A, rest, s. auto.
    - intros (Hm & A & rest & s & HF & HA & B & Ho). destruct (evalpos_ok it c A rest s o l A B HA Ho) as (l' & E & B' & P'). rewrite E. cbn [fst snd tinv].
      split; auto. exists A, rest, s. auto.
    - intros (Hm & A & rest & s & HF & HA & B & P). destruct (setneg_ok it HL c A rest s HA o l A B P) as [[E _]|[_ (r & E & F)]]; rewrite E; cbn [fst snd tinv ob_neg].
      + split; auto. exists A, rest, s. auto.
      + apply (final_alone c A rest s); auto.
    - intros (Hm & A & rest & s & HF & HA & B & P & Ho). destruct (evalneg_ok it c A rest s o l A A B P HA Ho) as (r & E & F). rewrite E. cbn [fst snd tinv].
      apply (final_alone c A rest s); auto.
    - auto.
  Qed.
  (** The other calls. *)
  Lemma other_inv o c c' t t' : tinv o c t -> tinv o c' t' -> ~ conflict t t' -> tinv (fst (step it o t)) c' t'.
  Proof.
    intros Ht Ht' Hc. destruct t as [c1 jk|l|l|l|l|r]; cbn [tinv] in Ht.
    - exact Ht'.
    - destruct Ht as (Hm & A & rest & s & HF & HA & B). destruct (setpos_ok it HL c A rest s HA o l B) as [[E EP]|[E _]]; rewrite E; cbn [fst]; [|exact Ht'].
      destruct t' as [| |l'| | |]; try exact Ht'. exfalso. apply Hc. left. exists l, l'. repeat split.
      apply existsb_exists in EP as (x & Hx & Px). exists x. destruct B as (-> & _). split; auto. apply Rltb_iff; auto.
    - destruct Ht as (Hm & A & rest & s & HF & HA & B & Ho). destruct (evalpos_ok it c A rest s o l A B HA Ho) as (l' & E & _). rewrite E. exact Ht'.
    - destruct Ht as (Hm & A & rest & s & HF & HA & B & P). destruct (setneg_ok it HL c A rest s HA o l A B P) as [[E EP]|[_ (r & E & F)]]; rewrite E; cbn [fst]; [|exact Ht'].
      destruct t' as [| | | |l'|]; try exact Ht'. exfalso. apply Hc. right. exists l, l'. repeat split.
      apply existsb_exists in EP as (x & Hx & Px). exists x. destruct B as (-> & _). split; auto.
      unfold not_pos, is_pos in Px. apply Rltb_false. destruct (Rltb 0 x); auto; discriminate.
    - destruct Ht as (Hm & A & rest & s & HF & HA & B & P & Ho). destruct (evalneg_ok it c A rest s o l A A B P HA Ho) as (r & E & F). rewrite E. exact Ht'.
    - exact Ht'.
  Qed.
  Lemma upd_same i t ts x : nth_error ts i = Some x -> nth_error (upd i t ts) i = Some t.
  Proof. revert i; induction ts; intros [|i] H; cbn in *; try discriminate; auto. Qed.
  Lemma upd_other i j t ts : j <> i -> nth_error (upd i t ts) j = nth_error ts j.
  Proof. revert i j; induction ts; intros [|i] [|j] H; cbn; auto; try lia. Qed.
  Theorem exclusive_alone sched : forall (w : world) (calls : list iargs),
    exclusive it sched w ->
    (forall i t, nth_error (snd w) i = Some t -> exists c, nth_error calls i = Some c /\ tinv (fst w) c t) ->
    forall i t, nth_error (snd (wrun it sched w)) i = Some t -> exists c, nth_error calls i = Some c /\ tinv (fst (wrun it sched w)) c t.
  Proof.
    induction sched as [|j sched IH]; intros w calls HE HI; [exact HI|]. cbn [wrun fold_left]. destruct HE as [Hj HE]. apply (IH _ calls); auto.
    unfold wstep. destruct (nth_error (snd w) j) as [t|] eqn:Et; [|exact HI]. destruct (HI j t Et) as (c & Hc & Tc).
    pose proof (step_inv (fst w) c t Tc) as S1. pose proof (fun c' t' => other_inv (fst w) c c' t t' Tc) as S2.
    destruct (step it (fst w) t) as [o' t'] eqn:ES. cbn [fst snd] in *. intros i x Hx. destruct (Nat.eq_dec i j) as [->|Hij].
    - rewrite (upd_same j t' _ t Et) in Hx. injection Hx as <-. eauto.
    - rewrite upd_other in Hx by auto. destruct (HI i x Hx) as (c' & Hc' & Tc'). exists c'. split; auto. apply S2; auto. eapply Hj; eauto.
  Qed.

  (** ** Two calls in turn: the first gets the intensities of the second. *)
  Section Turn.
    Variables c0 c1 : iargs.
    Variables A0 A1 : tensor.
    Variable s : list nat.
    Variables rest0 rest1 : list pv.
    Hypothesis Hmu : ia_mu c1 = ia_mu c0.
    Hypothesis Hm : cosines_ok (ia_mu c0).
    Hypothesis HF0 : fetch (in_fun it) c0 = Ok (A0, rest0).
    Hypothesis HF1 : fetch (in_fun it) c1 = Ok (A1, rest1).
    Hypothesis HA0 : shp A0 = (2 * in_N it)%nat :: s.
    Hypothesis HA1 : shp A1 = (2 * in_N it)%nat :: s.
    Lemma wstep0 o x y : wstep it (o, [x; y]) 0 = (fst (step it o x), [snd (step it o x); y]).
    Proof. unfold wstep. cbn [nth_error snd fst]. destruct (step it o x). reflexivity. Qed.
    Lemma wstep1 o x y : wstep it (o, [x; y]) 1 = (fst (step it o y), [x; snd (step it o y)]).
    Proof. unfold wstep. cbn [nth_error snd fst]. destruct (step it o y). reflexivity. Qed.
    Lemma turns_S n w : wrun it (alternating (S n)) w = wrun it (alternating n) (wstep it (wstep it w 0) 1).
    Proof. reflexivity. Qed.
    Theorem turns o j0 j1 : exists o' r0 r1, wrun it (alternating 5) (o, [TStart c0 j0; TStart c1 j1]) = (o', [TDone r0; TDone r1]) /\
      final it c0 rest0 s A1 A1 r0 /\ final it c1 rest1 s A1 A1 r1.
    Proof.
      assert (Hm1 : cosines_ok (ia_mu c1)) by (rewrite Hmu; exact Hm).
      rewrite turns_S, wstep0. cbn [step fst snd]. rewrite wstep1. cbn [step fst snd].
      destruct (start_ok it c0 A0 rest0 s Hm HF0 HA0 j0) as (l0 & -> & B0). destruct (start_ok it c1 A1 rest1 s Hm1 HF1 HA1 j1) as (l1 & -> & B1).
      assert (DD : forall n o r r', wrun it (alternating n) (o, [TDone r; TDone r']) = (o, [TDone r; TDone r'])) by (induction n as [|n IHn]; intros; [reflexivity|rewrite turns_S; unfold wstep; cbn [nth_error fst snd step upd]; apply IHn]).
      assert (NEG : forall n o l0 l1, (2 <= n)%nat -> base c0 A0 rest0 s l0 -> base c1 A1 rest1 s l1 -> posdone it c0 s A1 l0 -> posdone it c1 s A1 l1 ->
        exists o' r0 r1, wrun it (alternating n) (o, [TSetNeg l0; TSetNeg l1]) = (o', [TDone r0; TDone r1]) /\
          final it c0 rest0 s A1 A1 r0 /\ final it c1 rest1 s A1 A1 r1).
      { clear l0 l1 B0 B1. intros n o1 l0 l1 Hn B0 B1 P0 P1. destruct n as [|[|n]]; try lia.
        rewrite turns_S, wstep0.
        destruct (setneg_ok it HL c0 A0 rest0 s HA0 o1 l0 A1 B0 P0) as [[E0 EN]|[EN (r0 & E0 & F0)]]; rewrite E0; cbn [fst snd]; rewrite wstep1.
        - destruct (setneg_ok it HL c1 A1 rest1 s HA1 (mkOB (ob_pos o1) (Some (tslice 0 (in_N it) (in_N it) A0))) l1 A1 B1 P1) as [[E1 _]|[EN' _]]; [|rewrite Hmu in EN'; congruence].
          rewrite E1. cbn [fst snd ob_pos]. rewrite turns_S, wstep0.
          destruct (evalneg_ok it c0 A0 rest0 s (mkOB (ob_pos o1) (Some (tslice 0 (in_N it) (in_N it) A1))) l0 A1 A1 B0 P0 HA1 eq_refl) as (r0 & E2 & F2). rewrite E2. cbn [fst snd]. rewrite wstep1.
          destruct (evalneg_ok it c1 A1 rest1 s (mkOB (ob_pos o1) (Some (tslice 0 (in_N it) (in_N it) A1))) l1 A1 A1 B1 P1 HA1 eq_refl) as (r1 & E3 & F3). rewrite E3. cbn [fst snd].
          rewrite DD. eauto 8.
        - destruct (setneg_ok it HL c1 A1 rest1 s HA1 o1 l1 A1 B1 P1) as [[E1 EN']|[_ (r1 & E1 & F1)]]; [rewrite Hmu in EN'; congruence|].
          rewrite E1. cbn [fst snd]. rewrite DD. eauto 8. }
      rewrite turns_S, wstep0.
      destruct (setpos_ok it HL c0 A0 rest0 s HA0 o l0 B0) as [[E0 EP]|[E0 [EP P0]]]; rewrite E0; cbn [fst snd]; rewrite wstep1.
      - destruct (setpos_ok it HL c1 A1 rest1 s HA1 (mkOB (Some (tslice 0 0 (in_N it) A0)) (ob_neg o)) l1 B1) as [[E1 _]|[_ [EP' _]]]; [|rewrite Hmu in EP'; congruence].
        rewrite E1. cbn [fst snd ob_neg]. rewrite turns_S, wstep0.
        set (o1 := mkOB (Some (tslice 0 0 (in_N it) A1)) (ob_neg o)).
        destruct (evalpos_ok it c0 A0 rest0 s o1 l0 A1 B0 HA1 eq_refl) as (l0' & E2 & B0' & P0). rewrite E2. cbn [fst snd]. rewrite wstep1.
        destruct (evalpos_ok it c1 A1 rest1 s o1 l1 A1 B1 HA1 eq_refl) as (l1' & E3 & B1' & P1). rewrite E3. cbn [fst snd].
        apply NEG; auto.
      - destruct (setpos_ok it HL c1 A1 rest1 s HA1 o l1 B1) as [[_ EP']|[E1 [_ P1]]]; [rewrite Hmu in EP'; congruence|].
        rewrite E1. cbn [fst snd]. apply NEG; auto; lia.
    Qed.
  End Turn.
End Hist.
