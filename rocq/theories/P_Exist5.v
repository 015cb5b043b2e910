(** The exact radiation field: the solution along a direction for given sources. *)
From Coq Require Import String Reals Lra Lia List Bool Arith ZArith.
From Coquelicot Require Import Coquelicot.
From Verif Require Import Base Tensor Spec M_LinAlg Spec_RTE Calc M_Subroutines M_GenPart M_MathscrV M_Coeffs M_Assemble M_Pydisort
  Spec_Sol Spec_Valid Spec_Calls Spec_Unique Spec_Phys Spec_Mono Spec_Depend Spec_Exact P_Special P_Addition P_Quad P_Fourier P_Sub P_Solve P_Energy P_Pydisort P_Pydisort2 P_Pydisort3 P_Pydisort4 P_Pydisort5 P_Pydisort6 P_Pydisort8 P_Teq P_NT P_NT3 P_Unique2 P_Refine P_Max P_Max2 P_Max3 P_Max4 P_Mono P_Sym P_Depend P_Depend2 P_Gauss P_Conv P_Conv2 P_Conv3 P_Exist P_Exist2 P_Exist3 P_Full2 P_Exist4.
Import ListNotations.
Local Open Scope R_scope.

Section Along.
  Variables (p : py_in) (V : valid p).
  Notation NL := (nlayers p).
  Notation T := (bottom p).
  Section Dir.
  Variables (x : R) (S : nat -> R -> R) (c : R).
  Hypothesis Hx : direction x.
  Hypothesis Sc : forall l, (l < NL)%nat -> cont_on (top_of p l) (bot_of p l) (S l).
  Definition gl (l : nat) (u : R) : R := S l u / x * exp (- depth_s p l u / x).
  Definition gs (u : R) : R := gl (lay p u) u.
  (** The formal solution: radiation [c] enters, and is weakened and added to along the way. *)
  Definition along (t : R) : R := exp (sdepth p t / x) * (c * exp (- sdepth p (entry p x) / x) - RInt gs (entry p x) t).

  Lemma dep_der l t : is_derive (fun u => depth_s p l u / x) t (scl p l / x).
  Proof. exact (der_div (fun u => depth_s p l u) x t _ (depth_der p l t)). Qed.
  Lemma gl_cont l : (l < NL)%nat -> cont_on (top_of p l) (bot_of p l) (gl l).
  Proof.
    intros Hl. pose proof (v_inc p V l Hl). unfold gl. apply cont_on_mult; [lra| |].
    - apply (cont_on_ext _ _ (fun u => / x * S l u)); [intros; unfold Rdiv; ring|]. apply cont_on_scal, Sc; exact Hl.
    - apply cont_on_derive. intros t _. eexists. exact (der_exp (fun u => - depth_s p l u / x) t _ (der_div (fun u => - depth_s p l u) x t _ (der_opp _ _ _ (depth_der p l t)))).
  Qed.
  Lemma gs_gl l u : (l < NL)%nat -> top_of p l < u <= bot_of p l -> gs u = gl l u.
  Proof. intros Hl Hu. unfold gs. rewrite (lay_of_at p V u l (conj Hl (or_introl Hu))). reflexivity. Qed.
  Lemma gs_layer l a b : (l < NL)%nat -> top_of p l <= a -> a <= b -> b <= bot_of p l -> ex_RInt gs a b /\ RInt gs a b = RInt (clamp (top_of p l) (bot_of p l) (gl l)) a b.
  Proof.
    intros Hl Ha Hab Hb. assert (E : forall u, a < u < b -> clamp (top_of p l) (bot_of p l) (gl l) u = gs u). { intros u Hu. rewrite clamp_in by lra. symmetry. apply gs_gl; [exact Hl|lra]. }
    split.
    - apply (ex_RInt_ext (clamp (top_of p l) (bot_of p l) (gl l))); [intros u; rewrite Rmin_left, Rmax_right by lra; apply E|]. apply (ex_RInt_continuous (V := R_CompleteNormedModule)). intros u _. apply continuity_pt_filterlim.
      apply clamp_cont; [pose proof (v_inc p V l Hl); lra|apply gl_cont; exact Hl].
    - apply RInt_ext. intros u. rewrite Rmin_left, Rmax_right by lra. intros Hu. symmetry. apply E. exact Hu.
  Qed.
  Lemma gs_int0 l : (l < NL)%nat -> ex_RInt gs 0 (bot_of p l).
  Proof.
    induction l as [|l IH]; intros Hl.
    - pose proof (v_inc p V 0 Hl) as Hi. cbn [top_of] in Hi. apply (gs_layer 0 0 (bot_of p 0) Hl); cbn [top_of]; lra.
    - pose proof (v_inc p V (Datatypes.S l) Hl) as Hi. apply (ex_RInt_Chasles (V := R_NormedModule) _ 0 (bot_of p l)); [apply IH; lia|]. change (bot_of p l) with (top_of p (Datatypes.S l)). apply (gs_layer (Datatypes.S l) (top_of p (Datatypes.S l)) (bot_of p (Datatypes.S l)) Hl); lra.
  Qed.
  Lemma gs_int a b : 0 <= a <= T -> 0 <= b <= T -> ex_RInt gs a b.
  Proof.
    assert (G : forall a b, 0 <= a -> a <= b -> b <= T -> ex_RInt gs a b).
    { intros u v Hu Huv Hv. pose proof (v_ne p V) as Hne. pose proof (gs_int0 (NL - 1) ltac:(lia)) as H. rewrite <- (bottom_eq p) in H.
      apply (ex_RInt_Chasles_1 (V := R_CompleteNormedModule) gs u v T); [lra|]. apply (ex_RInt_Chasles_2 (V := R_CompleteNormedModule) gs 0 u T); [lra|exact H]. }
    intros Ha Hb. destruct (Rle_lt_dec a b); [apply G; lra|apply ex_RInt_swap, G; lra].
  Qed.
  (** The same formula within one layer. *)
  Definition inl (l : nat) (t : R) : R :=
    exp (depth_s p l t / x) * (c * exp (- sdepth p (entry p x) / x) - (RInt gs (entry p x) (top_of p l) + RInt (clamp (top_of p l) (bot_of p l) (gl l)) (top_of p l) t)).
  Lemma along_inl l t : (l < NL)%nat -> top_of p l <= t <= bot_of p l -> along t = inl l t.
  Proof.
    intros Hl Ht. unfold along, inl. rewrite (sdepth_closed p V l t Hl Ht). f_equal. f_equal. destruct (layer_in p V l Hl) as [L1 L2]. destruct (gs_layer l (top_of p l) t Hl ltac:(lra) ltac:(lra) ltac:(lra)) as [X E]. rewrite <- E.
    symmetry. apply (RInt_Chasles (V := R_CompleteNormedModule)); [|exact X]. apply gs_int; [apply entry_in; exact V|]. pose proof (v_inc p V l Hl). lra.
  Qed.
  Lemma inl_der l t : (l < NL)%nat -> is_derive (inl l) t (scl p l / x * inl l t - exp (depth_s p l t / x) * clamp (top_of p l) (bot_of p l) (gl l) t).
  Proof.
    intros Hl. set (g := clamp (top_of p l) (bot_of p l) (gl l)). assert (Cg : forall u, continuous g u). { intros u. apply continuity_pt_filterlim. apply clamp_cont; [pose proof (v_inc p V l Hl); lra|apply gl_cont; exact Hl]. }
    assert (D : is_derive (fun u => RInt g (top_of p l) u) t (g t)).
    { apply (is_derive_RInt (V := R_NormedModule) g (fun u => RInt g (top_of p l) u) (top_of p l) t); [|apply Cg]. apply filter_forall. intros u. apply (RInt_correct (V := R_CompleteNormedModule)). apply (ex_RInt_continuous (V := R_CompleteNormedModule)). auto. }
    refine (der_eq _ _ _ _ _ (der_mult (fun u => exp (depth_s p l u / x)) _ t _ _ (der_exp _ _ _ (dep_der l t)) (der_minus _ _ _ _ _ (der_const _ t) (der_plus _ _ _ _ _ (der_const _ t) D)))). unfold inl. fold g. ring.
  Qed.
  Lemma along_der l t : (l < NL)%nat -> top_of p l < t < bot_of p l -> is_derive along t ((scl p l * along t - S l t) / x).
  Proof.
    intros Hl Ht. apply (der_ext_loc (inl l) along t _ (top_of p l) (bot_of p l) Ht); [intros u Hu; symmetry; apply along_inl; [exact Hl|lra]|].
    refine (der_eq _ _ _ _ _ (inl_der l t Hl)). rewrite <- (along_inl l t Hl) by lra. rewrite clamp_in by lra. unfold gl. destruct Hx as [_ Hx0].
    replace (exp (depth_s p l t / x) * (S l t / x * exp (- depth_s p l t / x))) with (S l t / x * (exp (depth_s p l t / x) * exp (- depth_s p l t / x))) by ring. rewrite <- exp_plus.
    replace (depth_s p l t / x + - depth_s p l t / x) with 0 by (field; exact Hx0). rewrite exp_0. field. exact Hx0.
  Qed.
  Lemma along_cont : cont_on 0 T along.
  Proof.
    assert (G : forall l, (l < NL)%nat -> cont_on (top_of p l) (bot_of p l) along). { intros l Hl. apply (cont_on_ext _ _ (inl l)); [intros t Ht; symmetry; apply along_inl; auto|]. apply cont_on_derive. intros t _. eexists. apply inl_der. exact Hl. }
    assert (H : forall l, (l < NL)%nat -> cont_on 0 (bot_of p l) along).
    { induction l as [|l IH]; intros Hl; [exact (G 0%nat Hl)|]. pose proof (v_inc p V (Datatypes.S l) Hl) as Hi. destruct (layer_in p V l ltac:(lia)) as [L1 L2]. pose proof (v_inc p V l ltac:(lia)). cbn [top_of] in Hi. fold (bot_of p l) in Hi.
      apply (cont_on_glue 0 (bot_of p l)); [lra|apply IH; lia|exact (G (Datatypes.S l) Hl)]. }
    rewrite (bottom_eq p). apply H. pose proof (v_ne p V). lia.
  Qed.
  Lemma along_entry : along (entry p x) = c.
  Proof.
    unfold along. rewrite RInt_point. change (zero : R) with 0. rewrite Rminus_0_r. replace (exp (sdepth p (entry p x) / x) * (c * exp (- sdepth p (entry p x) / x))) with (c * (exp (sdepth p (entry p x) / x) * exp (- sdepth p (entry p x) / x))) by ring.
    rewrite <- exp_plus. destruct Hx as [_ Hx0]. replace (sdepth p (entry p x) / x + - sdepth p (entry p x) / x) with 0 by (field; exact Hx0). rewrite exp_0. ring.
  Qed.
  End Dir.
End Along.
