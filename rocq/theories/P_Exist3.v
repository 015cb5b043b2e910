(** The exact radiation field: the field produced by a given field of scattered radiation solves the
    equations, is bounded and depends continuously on depth and direction. *)
From Coq Require Import String Reals Lra Lia List Bool Arith ZArith.
From Coquelicot Require Import Coquelicot.
From Verif Require Import Base Tensor Spec M_LinAlg Spec_RTE Calc M_Subroutines M_GenPart M_MathscrV M_Coeffs M_Assemble M_Pydisort
  Spec_Sol Spec_Valid Spec_Calls Spec_Unique Spec_Phys Spec_Mono Spec_Depend Spec_Exact P_Special P_Addition P_Quad P_Fourier P_Sub P_Solve P_Energy P_Pydisort P_Pydisort2 P_Pydisort3 P_Pydisort4 P_Pydisort5 P_Pydisort6 P_Pydisort8 P_Teq P_NT P_NT3 P_Unique2 P_Refine P_Max P_Max2 P_Max3 P_Max4 P_Mono P_Sym P_Depend P_Depend2 P_Gauss P_Conv P_Conv2 P_Conv3 P_Exist P_Exist2.
Import ListNotations.
Local Open Scope R_scope.

Section Ode.
  Variables (p : py_in) (V : valid p).
  Notation NL := (nlayers p).
  Notation T := (bottom p).
  Definition entry (x : R) : R := if Rlt_dec 0 x then T else 0.
  Lemma entry_in x : 0 <= entry x <= T.
  Proof. pose proof (bottom_pos p V). unfold entry. destruct (Rlt_dec 0 x); lra. Qed.
  Lemma in_layer t : 0 <= t <= T -> exists l, (l < NL)%nat /\ top_of p l <= t <= bot_of p l.
  Proof. intros Ht. destruct (layer_at_ex p V t Ht) as (l & Hl & Hlt). exists l. split; [exact Hl|]. destruct Hlt as [?|[-> ->]]; [lra|]. pose proof (v_inc p V 0 Hl). cbn [top_of] in *. lra. Qed.

  Section Sign.
    Variables (x : R) (G : R -> R) (Q : nat -> R -> R).
    Hypothesis Hx : direction x.
    Hypothesis Gc : cont_on 0 T G.
    Hypothesis Gd : forall l t, (l < NL)%nat -> top_of p l < t < bot_of p l -> is_derive G t ((scl p l * G t - Q l t) / x).
    Hypothesis Gq : forall l t, (l < NL)%nat -> top_of p l < t < bot_of p l -> 0 <= Q l t.
    Hypothesis G0 : 0 <= G (entry x).
    Lemma sign_down : x < 0 -> forall l t, (l < NL)%nat -> top_of p l <= t <= bot_of p l -> 0 <= G t.
    Proof.
      intros E. assert (G0' : 0 <= G 0) by (unfold entry in G0; destruct (Rlt_dec 0 x); [lra|exact G0]).
      assert (Step : forall l, (l < NL)%nat -> 0 <= G (top_of p l) -> forall t, top_of p l <= t <= bot_of p l -> 0 <= G t).
      { intros l Hl H0 t Ht. destruct (Rle_lt_or_eq_dec _ _ (proj1 Ht)) as [Hlt|Et]; [|rewrite <- Et; exact H0]. destruct (layer_in p V l Hl) as [L1 L2].
        apply (stay_down (top_of p l) t (scl p l * / - x) G (fun t => Q l t * / - x) Hlt); [apply (cont_on_sub 0 T); [lra|lra|exact Gc]| | |exact H0].
        - intros u Hu. refine (der_eq _ _ _ _ _ (Gd l u Hl ltac:(lra))). field. lra.
        - intros u Hu. apply Rmult_le_pos; [apply Gq; [exact Hl|lra]|apply Rlt_le, Rinv_0_lt_compat; lra]. }
      induction l as [|l IH]; intros t Hl Ht; apply (Step _ Hl); try exact Ht.
      - cbn [top_of]. lra.
      - change (top_of p (S l)) with (bot_of p l). apply IH; [lia|]. pose proof (v_inc p V l ltac:(lia)). lra.
    Qed.
    Lemma sign_up : 0 < x -> forall m l t, (l + S m = NL)%nat -> top_of p l <= t <= bot_of p l -> 0 <= G t.
    Proof.
      intros E. assert (G0' : 0 <= G T) by (unfold entry in G0; destruct (Rlt_dec 0 x); [exact G0|lra]).
      assert (Step : forall l, (l < NL)%nat -> 0 <= G (bot_of p l) -> forall t, top_of p l <= t <= bot_of p l -> 0 <= G t).
      { intros l Hl H0 t Ht. destruct (Rle_lt_or_eq_dec _ _ (proj2 Ht)) as [Hlt|Et]; [|rewrite Et; exact H0]. destruct (layer_in p V l Hl) as [L1 L2].
        apply (stay_up t (bot_of p l) (scl p l * / x) G (fun t => Q l t * / x) Hlt); [apply (cont_on_sub 0 T); [lra|lra|exact Gc]| | |exact H0].
        - intros u Hu. refine (der_eq _ _ _ _ _ (Gd l u Hl ltac:(lra))). field. lra.
        - intros u Hu. apply Rmult_le_pos; [apply Gq; [exact Hl|lra]|apply Rlt_le, Rinv_0_lt_compat; lra]. }
      induction m as [|m IH]; intros l t Hl Ht; apply (Step l ltac:(lia)); try exact Ht.
      - replace l with (NL - 1)%nat by lia. rewrite <- (bottom_eq p). exact G0'.
      - change (bot_of p l) with (top_of p (S l)). apply (IH (S l)); [lia|]. pose proof (v_inc p V (S l) ltac:(lia)). lra.
    Qed.
    Lemma sign_all t : 0 <= t <= T -> 0 <= G t.
    Proof.
      intros Ht. destruct (in_layer t Ht) as (l & Hl & Hlt). destruct Hx as [_ Hn]. destruct (Rlt_le_dec 0 x); [apply (sign_up r (NL - S l) l t ltac:(lia) Hlt)|apply (sign_down ltac:(lra) l t Hl Hlt)].
    Qed.
  End Sign.
  Theorem ode_bound x F S m : direction x -> cont_on 0 T F -> (forall l t, (l < NL)%nat -> top_of p l < t < bot_of p l -> is_derive F t ((scl p l * F t - S l t) / x)) ->
    (forall l t, (l < NL)%nat -> top_of p l < t < bot_of p l -> Rabs (S l t) <= scl p l * m) -> Rabs (F (entry x)) <= m -> forall t, 0 <= t <= T -> Rabs (F t) <= m.
  Proof.
    intros Hx Fc Fd HS F0 t Ht. apply Rabs_le_between in F0. assert (Hx0 := proj2 Hx). apply Rabs_le. split.
    - enough (0 <= m + F t) by lra. refine (sign_all x (fun t => m + F t) (fun l t => scl p l * m + S l t) Hx _ _ _ _ t Ht).
      + apply cont_on_plus; [apply cont_on_const|exact Fc].
      + intros l u Hl Hu. refine (der_eq _ _ _ _ _ (der_plus _ _ _ _ _ (der_const m u) (Fd l u Hl Hu))). field. exact Hx0.
      + intros l u Hl Hu. pose proof (HS l u Hl Hu) as H. apply Rabs_le_between in H. lra.
      + lra.
    - enough (0 <= m + (-1) * F t) by lra. refine (sign_all x (fun t => m + (-1) * F t) (fun l t => scl p l * m - S l t) Hx _ _ _ _ t Ht).
      + apply cont_on_plus; [apply cont_on_const|apply cont_on_scal; exact Fc].
      + intros l u Hl Hu. refine (der_eq _ _ _ _ _ (der_plus _ _ _ _ _ (der_const m u) (der_scal _ (-1) _ _ (Fd l u Hl Hu)))). field. exact Hx0.
      + intros l u Hl Hu. pose proof (HS l u Hl Hu) as H. apply Rabs_le_between in H. lra.
      + lra.
  Qed.
  Lemma lip_all F D c : cont_on 0 T F -> (forall l t, (l < NL)%nat -> top_of p l < t < bot_of p l -> is_derive F t (D l t)) -> (forall l t, (l < NL)%nat -> top_of p l < t < bot_of p l -> Rabs (D l t) <= c) -> 0 <= c ->
    forall t t', 0 <= t <= T -> 0 <= t' <= T -> Rabs (F t - F t') <= c * Rabs (t - t').
  Proof.
    intros Fc Fd HD Hc0.
    assert (Same : forall l t t', (l < NL)%nat -> top_of p l <= t -> t <= t' -> t' <= bot_of p l -> Rabs (F t' - F t) <= c * (t' - t)).
    { intros l t t' Hl H1 H2 H3. destruct (Rle_lt_or_eq_dec _ _ H2) as [Hlt|Et]; [|rewrite Et, !Rminus_eq_0, Rabs_R0; lra]. destruct (layer_in p V l Hl) as [L1 L2].
      destruct (cont_mvt t t' F (D l) Hlt) as (u & Hu & E); [apply (cont_on_sub 0 T); [lra|lra|exact Fc]|intros; apply Fd; [exact Hl|lra]|].
      rewrite E, Rabs_mult, (Rabs_pos_eq (t' - t)) by lra. apply Rmult_le_compat_r; [lra|]. apply HD; [exact Hl|lra]. }
    assert (Any : forall l t t', (l < NL)%nat -> 0 <= t -> t <= t' -> top_of p l <= t' <= bot_of p l -> Rabs (F t' - F t) <= c * (t' - t)).
    { induction l as [|l IH]; intros t t' Hl H0 H1 Ht'; [apply (Same 0%nat); auto; cbn [top_of]; lra|]. destruct (Rle_lt_dec (top_of p (S l)) t) as [Hge|Hlt]; [apply (Same (S l)); auto; lra|].
      change (top_of p (S l)) with (bot_of p l) in *. pose proof (v_inc p V l ltac:(lia)) as Hi. pose proof (IH t (bot_of p l) ltac:(lia) H0 ltac:(lra) ltac:(lra)) as A. pose proof (Same (S l) (bot_of p l) t' Hl (Rle_refl _) ltac:(lra) ltac:(lra)) as B.
      replace (F t' - F t) with ((F t' - F (bot_of p l)) + (F (bot_of p l) - F t)) by ring. eapply Rle_trans; [apply Rabs_triang|]. lra. }
    assert (Ord : forall t t', 0 <= t -> t <= t' -> t' <= T -> Rabs (F t' - F t) <= c * (t' - t)). { intros t t' H0 H1 H2. destruct (in_layer t' ltac:(lra)) as (l & Hl & Hlt). apply (Any l); auto. }
    intros t t' Ht Ht'. destruct (Rle_lt_dec t t').
    - rewrite (Rabs_minus_sym (F t)), (Rabs_minus_sym t), (Rabs_pos_eq (t' - t)) by lra. apply Ord; lra.
    - rewrite (Rabs_pos_eq (t - t')) by lra. apply Ord; lra.
  Qed.
End Ode.
