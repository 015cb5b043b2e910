(** Concurrent calls that share Leg_coeffs_all: every schedule. *)
From Coq Require Import String Reals Lra Lia List Bool Arith ZArith.
From Verif Require Import Base Tensor Spec M_LinAlg M_Subroutines M_Assemble M_Pydisort M_Warn Spec_Valid P_Valid Spec_Shared M_Shared M_Conc P_Shared P_Shared2 P_Conc.
Import ListNotations.
Local Open Scope R_scope.

Lemma run_checks_app a b : run_checks (a ++ b) = match run_checks a with Ok _ => run_checks b | Err e => Err e end.
Proof. induction a as [|[ok s] a IH]; [reflexivity|]. cbn. destruct ok; [exact IH|reflexivity]. Qed.
Lemma run_checks_tt l u : run_checks l = Ok u -> u = tt.
Proof. destruct u. reflexivity. Qed.

Section Put.
  Context {A : Type}.
  Lemma put_length (x : A) l : forall i, length (put i x l) = length l.
  Proof. induction l; intros [|i]; cbn; auto. Qed.
  Lemma nth_put_same (x : A) l : forall i, (i < length l)%nat -> nth_error (put i x l) i = Some x.
  Proof. induction l; intros [|i] H; cbn in *; try lia; [reflexivity|]. apply IHl. lia. Qed.
  Lemma nth_put_other (x : A) l : forall i j, i <> j -> nth_error (put i x l) j = nth_error l j.
  Proof. induction l; intros [|i] [|j] H; cbn; try reflexivity; try lia. apply IHl. lia. Qed.
End Put.

Ltac same_col Hb Hr := split; [exact Hb|split; [exact Hr|split; [|split; [reflexivity|split; [reflexivity|split; [auto|auto]]]]]].

Section Inv.
  Variables (lg : leggauss_t) (la : linalg) (L : arr2).
  Local Notation n := (nrow L).
  Local Notation q t := (with_phase (ct_in t) L).
  Local Notation orig l := (at2 L l 0%nat).
  Definition om (t : cthread) (l : nat) : R := omega_at (ct_in t) l.
  Definition ones (c : column) : Prop := forall l, (l < n)%nat -> c l = 1.
  Definition passed (t : cthread) : Prop := p_tau (ct_in t) <> [] /\ run_checks (firstn 9 (checks (q t))) = Ok tt.
  Definition settled (c : column) (t : cthread) : Prop := forall l, (l < n)%nat -> om t l = 0 \/ c l = 1.
  Definition has_read (t : cthread) (acc : list R) : Prop := (length acc <= n)%nat /\ forall l, (l < length acc)%nat -> om t l = 0 \/ nth l acc 0 = 1.
  (** A warning is given only when a layer that scatters had another coefficient. *)
  Definition justified (t : cthread) : Prop := ct_warned t = true -> passed t /\ exists l, (l < pNL (ct_in t))%nat /\ om t l <> 0 /\ orig l <> 1.
  Definition inv1 (c : column) (t : cthread) : Prop :=
    justified t /\
    match ct_stage t with
    | SStart => ct_warned t = false
    | SCheck acc => ct_warned t = false /\ passed t /\ (length acc <= n)%nat /\
        forall l, (l < length acc)%nat -> (nth l acc 0 = orig l \/ nth l acc 0 = 1) /\ (nth l acc 0 = 1 -> c l = 1)
    | SWrite i => ct_warned t = true /\ passed t /\ (i <= n)%nat /\ forall l, (l < i)%nat -> c l = 1
    | SRead3 acc => (ct_warned t = true -> ones c) /\ validate (q t) = Ok tt /\ settled c t /\ has_read t acc
    | SRead4 c3 acc => (ct_warned t = true -> ones c) /\ validate (q t) = Ok tt /\ settled c t /\ has_read t c3 /\ length c3 = n /\ has_read t acc
    | SDone r => (ct_warned t = true -> ones c) /\ (forall o, r = Ok o -> settled c t) /\ same_answer r (pydisort (q t) lg la (ct_junk t))
    end.
  Definition base (c : column) : Prop := forall l, c l = orig l \/ c l = 1.
  Definition later (c c' : column) : Prop := forall l, c l = 1 -> c' l = 1.

  Lemma inv1_later c c' t : later c c' -> inv1 c t -> inv1 c' t.
  Proof.
    intros H [J I]. split; [exact J|].
    assert (Ho : ones c -> ones c') by (intros A l Hl; apply H, A, Hl).
    assert (Hs : settled c t -> settled c' t) by (intros A l Hl; destruct (A l Hl); [left|right]; auto).
    destruct (ct_stage t).
    - exact I.
    - destruct I as (I0 & I1 & I2 & I3). repeat (split; [assumption|]). intros l Hl. destruct (I3 l Hl). split; auto.
    - destruct I as (I0 & I1 & I2 & I3). repeat (split; [assumption|]). intros l Hl. apply H, I3, Hl.
    - destruct I as (I0 & I1 & I2 & I3). split; [auto|]. split; [assumption|]. split; auto.
    - destruct I as (I0 & I1 & I2 & I3). split; [auto|]. split; [assumption|]. split; auto.
    - destruct I as (I0 & I1 & I2). split; [auto|]. split; [|exact I2]. intros o Eo. exact (Hs (I1 o Eo)).
  Qed.

  Lemma validate_split t : passed t -> validate (q t) = run_checks (skipn 9 (checks (q t))).
  Proof.
    intros [Ht Hc]. unfold validate. change (p_tau (q t)) with (p_tau (ct_in t)). destruct (p_tau (ct_in t)) eqn:E; [contradiction|].
    rewrite <- (firstn_skipn 9 (checks (q t))) at 1. rewrite run_checks_app, Hc. reflexivity.
  Qed.
  Lemma rejected t e : validate (q t) = Err e -> same_answer (Err e) (pydisort (q t) lg la (ct_junk t)).
  Proof. intros E. unfold pydisort. rewrite E. reflexivity. Qed.
  Lemma inv_after c t t' : ct_in t' = ct_in t -> ct_junk t' = ct_junk t -> passed t -> justified t' -> (ct_warned t' = true -> ones c) -> settled c t ->
    ct_stage t' = after_check (q t) -> inv1 c t'.
  Proof.
    intros E1 E2 P J W S E3. split; [exact J|]. rewrite E3. pose proof (validate_split t P) as Ev. unfold after_check.
    destruct (run_checks (skipn 9 (checks (q t)))) as [u|e]; rewrite E1.
    - destruct u. split; [exact W|]. split; [exact Ev|]. split; [intros l Hl; unfold om; rewrite E1; apply (S l Hl)|]. split; [cbn; lia|cbn; intros; lia].
    - split; [exact W|]. split; [discriminate|]. rewrite E2. apply rejected. exact Ev.
  Qed.
  Lemma read_more acc x t : (length acc < n)%nat -> has_read t acc -> om t (length acc) = 0 \/ x = 1 -> has_read t (acc ++ [x]).
  Proof.
    intros Hl [H1 H2] Hx. split; [rewrite app_length; cbn; lia|]. rewrite app_length. cbn [length]. intros l Hl'.
    destruct (Nat.eq_dec l (length acc)) as [->|Ne]; [rewrite nth_middle; exact Hx|]. rewrite app_nth1 by lia. apply H2. lia.
  Qed.
  Lemma rows_ok t : passed t -> pNL (ct_in t) = n /\ length (p_omega (ct_in t)) = pNL (ct_in t).
  Proof.
    intros [Ht Hc]. cbn [firstn checks] in Hc.
    assert (X : forall l b s, In (b, s) l -> run_checks l = Ok tt -> b = true).
    { induction l as [|[b0 s0] l IH]; intros b s Hin H; [destruct Hin|]; cbn in H; destruct Hin as [E|Hin].
      - injection E as -> ->. destruct b; [reflexivity|discriminate].
      - destruct b0; [|discriminate]. eauto. }
    split.
    - eapply X in Hc; [|do 5 right; left; reflexivity]. apply Nat.eqb_eq in Hc. cbn in Hc. symmetry. exact Hc.
    - eapply X in Hc; [|do 6 right; left; reflexivity]. apply Nat.eqb_eq in Hc. exact Hc.
  Qed.

  Lemma inv_step c t : base c -> inv1 c t ->
    let c' := fst (cstep lg la L c t) in let t' := snd (cstep lg la L c t) in
    base c' /\ later c c' /\ inv1 c' t' /\ ct_in t' = ct_in t /\ ct_junk t' = ct_junk t /\
    (ct_warned t = true -> ct_warned t' = true) /\ (ct_warned t' = false -> c' = c).
  Proof.
    intros Hb [J I]. assert (Hr : later c c) by (intros l Hl; exact Hl). unfold cstep. destruct (ct_stage t) as [|acc|i|acc|c3 acc|r] eqn:Es; cbv zeta.
    - cbn [fst snd at_stage ct_in ct_junk ct_warned]. same_col Hb Hr. split; [exact J|]. cbn [ct_stage at_stage].
      change (p_tau (q t)) with (p_tau (ct_in t)). destruct (p_tau (ct_in t)) eqn:Et.
      + split; [change (ct_warned _) with (ct_warned t); rewrite I; discriminate|]. split; [discriminate|]. apply (rejected t). unfold validate. change (p_tau (q t)) with (p_tau (ct_in t)). rewrite Et. reflexivity.
      + destruct (run_checks (firstn 9 (checks (q t)))) as [u|e] eqn:Ec.
        * destruct u. split; [exact I|]. split; [split; [cbn; congruence|exact Ec]|]. split; [cbn; lia|cbn; intros; lia].
        * split; [change (ct_warned _) with (ct_warned t); rewrite I; discriminate|]. split; [discriminate|]. apply (rejected t). unfold validate. change (p_tau (q t)) with (p_tau (ct_in t)). rewrite Et.
          rewrite <- (firstn_skipn 9 (checks (q t))) at 1. rewrite run_checks_app, Ec. reflexivity.
    - destruct I as (I0 & I1 & I2 & I3). destruct (rows_ok t I1) as [Hn Ho]. destruct (Nat.eqb_spec (length acc) n) as [El|El].
      + destruct (seen_bad (q t) acc) eqn:Eb; cbn [fst snd ct_in ct_junk ct_warned].
        * same_col Hb Hr. split.
          { intros _. split; [exact I1|]. unfold seen_bad in Eb. apply negb_true_iff in Eb.
            assert (X : exists l, In l (seq 0 (pNL (q t))) /\ Reqb (omega_at (q t) l * nth l acc 0) (omega_at (q t) l) = false).
            { clear -Eb. induction (seq 0 (pNL (q t))) as [|l s IH]; [discriminate|]. cbn in Eb. apply andb_false_iff in Eb as [E|E]; [exists l; split; [left; auto|exact E]|].
              destruct (IH E) as (l' & A & B). exists l'. split; [right; auto|exact B]. }
            destruct X as (l & A & B). apply in_seq in A. change (pNL (q t)) with (pNL (ct_in t)) in A. exists l. split; [exact (proj2 A)|].
            change (omega_at (q t) l) with (om t l) in B. unfold Reqb in B. destruct (Req_EM_T _ _) as [D|D]; [discriminate|].
            split; [intros E; apply D; change (ct_in _) with (ct_in t) in E; unfold om in *; cbn in E; rewrite E; ring|].
            destruct (proj1 (I3 l ltac:(lia))) as [E|E]; [|exfalso; apply D; rewrite E; ring]. intros E'. apply D. rewrite E, E'. ring. }
          cbn [ct_stage]. split; [reflexivity|]. split; [exact I1|]. split; [lia|]. intros; lia.
        * same_col Hb Hr.
          apply inv_after with (t := t); auto; [cbn; rewrite I0; discriminate|]. intros l Hl. destruct (Req_dec (om t l) 0) as [E|E]; [left; exact E|right].
          unfold seen_bad in Eb. apply negb_false_iff in Eb. rewrite forallb_forall in Eb. specialize (Eb l). cbn beta in Eb. change (omega_at (q t) l) with (om t l) in Eb.
          unfold Reqb in Eb. destruct (Req_EM_T _ _) as [D|D]; [|discriminate Eb; apply in_seq; change (pNL (q t)) with (pNL (ct_in t)); lia].
          apply (I3 l); [lia|]. nra.
      + cbn [fst snd at_stage ct_in ct_junk ct_warned]. same_col Hb Hr. split; [exact J|]. cbn [ct_stage at_stage ct_warned].
        split; [exact I0|]. split; [exact I1|]. rewrite app_length. cbn [length]. split; [lia|]. intros l Hl.
        destruct (Nat.eq_dec l (length acc)) as [->|Ne]; [rewrite nth_middle; split; [apply Hb|auto]|]. rewrite app_nth1 by lia. apply I3. lia.
    - destruct I as (I0 & I1 & I2 & I3). destruct (Nat.eqb_spec i n) as [El|El]; cbn [fst snd at_stage ct_in ct_junk ct_warned].
      + same_col Hb Hr. apply inv_after with (t := t); auto.
        * intros _ l Hl. apply I3. lia.
        * intros l Hl. right. apply I3. lia.
      + split; [intros l; destruct (Nat.eqb l i); [right; reflexivity|apply Hb]|].
        assert (Hlt : later c (fun l => if Nat.eqb l i then 1 else c l)) by (intros l Hl; destruct (Nat.eqb l i); auto).
        split; [exact Hlt|]. split; [|split; [reflexivity|split; [reflexivity|split; [auto|intros E; rewrite I0 in E; discriminate]]]]. split; [exact J|]. cbn [ct_stage at_stage ct_warned].
        split; [exact I0|]. split; [exact I1|]. split; [lia|]. intros l Hl. destruct (Nat.eqb_spec l i); [reflexivity|]. apply I3. lia.
    - destruct I as (I0 & I1 & I2 & I3). destruct (Nat.eqb_spec (length acc) n) as [El|El]; cbn [fst snd at_stage ct_in ct_junk ct_warned];
        same_col Hb Hr; (split; [exact J|]); cbn [ct_stage at_stage ct_warned].
      + split; [exact I0|]. split; [exact I1|]. split; [exact I2|]. split; [exact I3|]. split; [exact El|]. split; [cbn; lia|cbn; intros; lia].
      + split; [exact I0|]. split; [exact I1|]. split; [exact I2|]. pose proof (proj1 I3). apply read_more; [lia|exact I3|]. apply I2. lia.
    - destruct I as (I0 & I1 & I2 & I3 & I4 & I5). destruct (Nat.eqb_spec (length acc) n) as [El|El]; cbn [fst snd at_stage ct_in ct_junk ct_warned];
        same_col Hb Hr; (split; [exact J|]); cbn [ct_stage at_stage ct_warned].
      + split; [exact I0|]. split; [intros _ _; exact I2|]. apply finished; [| |exact I1]; apply read_settled; auto; intros l Hl; [apply (proj2 I3)|apply (proj2 I5)]; lia.
      + split; [exact I0|]. split; [exact I1|]. split; [exact I2|]. split; [exact I3|]. split; [exact I4|]. pose proof (proj1 I5). apply read_more; [lia|exact I5|]. apply I2. lia.
    - cbn [fst snd]. split; [exact Hb|]. split; [exact Hr|]. split; [split; [exact J|rewrite Es; exact I]|]. auto.
  Qed.
End Inv.
