(** Calls with cached surfaces. *)
From Coq Require Import String Reals Lra Lia List Bool Arith ZArith.
From Coquelicot Require Import Coquelicot.
From Verif Require Import Base Tensor Spec M_LinAlg Spec_RTE M_Subroutines M_Assemble M_Pydisort Spec_Sol Spec_Valid Spec_Calls Spec_Unique Spec_Phys Spec_Cache
  P_Sub P_Sub3 P_Pydisort2 P_Pydisort4 P_Pydisort5 P_Pydisort6 P_Pydisort8 P_Unique2 P_Max3 P_Max4 P_Super P_Cache P_Cache2 Examples Examples2 Examples3 Examples4.
Import ListNotations.
Local Open Scope R_scope.

(** One layer in thermal equilibrium with two streams, over a surface that reflects less the higher
    the incident light stands. *)
Definition p_eq (l : list bmode) : py_in := with_surface (px 0 1 2 2) l.
Definition surf_eq1 : R -> R -> R := fun _ y => 1 - y.

Lemma nodes_half x : In x (fst (Gauss_Legendre_quad lg_12 1 0 1)) -> x = 1 / 2.
Proof. cbn. intros [<-|[]]. lra. Qed.

Lemma eq_half la jk : pydisort (p_eq [pointwise_mode surf_eq1]) lg_12 la jk = pydisort (px 0 1 2 2) lg_12 la jk.
Proof.
  change (px 0 1 2 2) with (p_eq [MScal (1 / 2)]) at 1.
  apply (surface_nodes (px 0 1 2 2) lg_12 la jk _ _ (fun _ => surf_eq1) (fun _ _ _ => 1 / 2)); try exact leggauss1_ok.
  - cbn. lia.
  - reflexivity.
  - intros [|m] Hm; cbn in Hm; [|lia]. split; [right; reflexivity|left; exists (1 / 2); auto].
  - intros m x y _ _ Hy. apply nodes_half in Hy. subst y. unfold surf_eq1. lra.
  - cbn. intros; lra.
Qed.
Definition p_black : py_in := p_ex 0 (1 / 4) 1 2 2 0 false false false.
Lemma eq_cached la jk : pydisort (p_eq (cache_BDRF_Fourier_modes lg_12 1 [pointwise_mode surf_eq1] 1)) lg_12 la jk = pydisort p_black lg_12 la jk.
Proof.
  unfold p_eq. change [pointwise_mode surf_eq1] with (map pointwise_mode [surf_eq1]). rewrite cached_two_streams; [|exact leggauss1_ok|reflexivity|lra].
  change p_black with (with_surface (px 0 1 2 2) [MScal 0]). cbn [map].
  apply (surface_nodes (px 0 1 2 2) lg_12 la jk _ _ (fun _ _ _ => 0) (fun _ _ _ => 0)); try exact leggauss1_ok; auto.
  - intros [|m] Hm; cbn in Hm; [|lia]. split; [right|left; exists 0; auto]. unfold surf_eq1.
    replace (fun _ _ : R => 1 - 1) with (fun _ _ : R => 0); [reflexivity|]. 
    apply FunctionalExtensionality.functional_extensionality. intros x. apply FunctionalExtensionality.functional_extensionality. intros y. lra.
Qed.

Lemma eq_differs jk : exists out out' A A',
  pydisort (p_eq [pointwise_mode surf_eq1]) lg_12 (la_ex []) jk = Ok out /\
  pydisort (p_eq (cache_BDRF_Fourier_modes lg_12 1 [pointwise_mode surf_eq1] 1)) lg_12 (la_ex []) jk = Ok out' /\
  po_u0 out [5 / 4] false false false = Ok (PVal (PT A)) /\ po_u0 out' [5 / 4] false false false = Ok (PVal (PT A')) /\
  elt A [0%nat] = 2 /\ elt A' [0%nat] = 1.
Proof.
  rewrite eq_half, eq_cached.
  destruct (s_ok 0 1 2 2 ltac:(lra) ltac:(lra) jk) as (out & H). destruct (s_facts 0 1 2 2 jk out H) as (w & F1 & F2 & F3 & F4 & F5).
  assert (Hd : depths_ok (px 0 1 2 2) [5 / 4]). { intros t [<-|[]]. cbn. lra. }
  destruct (call_equi (px 0 1 2 2) lg_12 (la_ex []) jk out (la_ex_ok []) leggauss1_ok H w _ _ _ F1 (s_bd 0 1 2 2 ltac:(lra) ltac:(lra)) 2) with (tau := [5 / 4]) as ((A & HA & EA) & _); auto.
  { apply s_kept. }
  { intros l t Hl _. apply s_source. exact Hl. }
  { intros i Hi. rewrite F5 by exact Hi. lra. }
  { apply la_ex_unique. }
  destruct (ex_ok 0 (1 / 4) 1 2 2 0 false false false ltac:(lra) ltac:(lra) ltac:(lra) ltac:(lra) ltac:(discriminate) jk) as (out' & H').
  destruct (modes_exist p_black lg_12 (la_ex []) jk out' (la_ex_ok []) leggauss1_ok H') as (U & HU).
  assert (Hd' : depths_ok p_black [5 / 4]). { intros t [<-|[]]. cbn. lra. }
  destruct (proj1 HU [5 / 4] Hd') as (A' & HA' & SA' & EA').
  exists out, out', A, A'. repeat (split; [assumption|]). split.
  - destruct (modes_exist (px 0 1 2 2) lg_12 (la_ex []) jk out (la_ex_ok []) leggauss1_ok H) as (U1 & HU1).
    destruct (proj1 HU1 [5 / 4] Hd) as (A2 & HA2 & SA2 & _). rewrite HA in HA2. injection HA2 as <-. apply EA. rewrite SA2. cbn. repeat split; lia.
  - rewrite EA' by (rewrite SA'; cbn; repeat split; lia).
    destruct (call_bottom p_black lg_12 (la_ex []) jk out' (la_ex_ok []) leggauss1_ok H' U HU) as (w' & _ & HB).
    { left. intros idx _. cbn. lra. }
    assert (Hb : bc_values (p_bpos p_black) (half p_black) (fun _ => 1)) by (apply bc_scal; reflexivity).
    assert (Hm : forall m, (m < length (p_BDRF p_black))%nat -> mode_is (nth m (p_BDRF p_black) (MScal 0)) ((fun _ _ _ => 0) m)).
    { intros [|m] Hm; cbn in Hm; [|lia]. left. exists 0. auto. }
    specialize (HB (fun _ => 1) (fun _ _ _ => 0) Hb Hm 0%nat 0%nat).
    transitivity (U 0%nat 0%nat (bottom p_black)).
    { reflexivity. }
    rewrite HB.
    + change (Nat.ltb 0 (length (p_BDRF p_black))) with true. change (half p_black) with 1%nat. cbn [Nat.eqb rsum]. unfold Rdiv. ring.
    + split; [cbn; lia|left; reflexivity].
    + cbn. lia.
Qed.

Lemma scalar_solved jk : exists p out, leggauss_ok (half p) (lg_12 (half p)) /\ p_BDRF p = [MScal (1/2)] /\ 0 < p_I0 p /\ (0 < nmodes p)%nat /\
  pydisort p lg_12 (la_ex []) jk = Ok out.
Proof.
  destruct (s_ok 3 1 1 2 ltac:(lra) ltac:(lra) jk) as (out & H). exists (px 3 1 1 2), out.
  split; [exact leggauss1_ok|]. split; [reflexivity|]. split; [cbn; lra|]. split; [cbn; lia|exact H].
Qed.
Lemma two_streams_differ jk : exists p rho mu0 out out' A A',
  half p = 1%nat /\ p_BDRF p = [pointwise_mode rho] /\ 0 < mu0 <= 1 /\ p_I0 p = 0 /\
  pydisort p lg_12 (la_ex []) jk = Ok out /\
  pydisort (with_surface p (cache_BDRF_Fourier_modes lg_12 (half p) (p_BDRF p) mu0)) lg_12 (la_ex []) jk = Ok out' /\
  po_u0 out [bottom p] false false false = Ok (PVal (PT A)) /\ po_u0 out' [bottom p] false false false = Ok (PVal (PT A')) /\
  elt A [0%nat] = 2 /\ elt A' [0%nat] = 1.
Proof.
  destruct (eq_differs jk) as (out & out' & A & A' & H). exists (p_eq [pointwise_mode surf_eq1]), surf_eq1, 1, out, out', A, A'.
  split; [reflexivity|]. split; [reflexivity|]. split; [lra|]. split; [reflexivity|]. exact H.
Qed.
