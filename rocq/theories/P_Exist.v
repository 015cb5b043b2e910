(** Analysis for the existence of the exact radiation field: integrals of bounded functions that are
    continuous away from one end, bounds for the solutions of linear equations. *)
From Coq Require Import String Reals RList RiemannInt_SF RiemannInt Lra Lia List Bool Arith ZArith.
From Coquelicot Require Import Coquelicot.
From Verif Require Import Base Tensor Spec M_LinAlg Spec_RTE Calc M_Subroutines M_Assemble M_Pydisort
  Spec_Sol Spec_Valid P_Pydisort P_Pydisort3 P_Pydisort4 P_Pydisort5 P_NT3 P_Max P_Sym P_Depend P_Conv.
Import ListNotations.
Local Open Scope R_scope.

(** ** Step functions *)
Lemma step_eq (f g : R -> R) a b : a <= b -> (forall x, a < x < b -> f x = g x) -> IsStepFun f a b -> IsStepFun g a b.
Proof.
  intros Hab H (l & lf & H1 & H2 & H3 & H4 & H5). exists l, lf. repeat split; auto. intros i Hi x Hx. rewrite <- (H5 i Hi x Hx). symmetry. apply H.
  rewrite Rmin_left in H2 by lra. rewrite Rmax_right in H3 by lra. destruct Hx as [Hx1 Hx2].
  assert (Hl : (S i < length l)%nat) by lia.
  assert (A : pos_Rl l 0 <= pos_Rl l i). { apply RList_P5; [exact H1|]. apply RList_P3. exists i. split; [reflexivity|lia]. }
  assert (B : pos_Rl l (S i) <= pos_Rl l (pred (length l))). { apply RList_P7; [exact H1|]. apply RList_P3. exists (S i). split; [reflexivity|lia]. }
  lra.
Qed.
Lemma bounded_int (f : R -> R) M : (forall x, 0 < x <= 1 -> Rabs (f x) <= M) -> (forall d, 0 < d -> cont_on d 1 f) -> ex_RInt f 0 1.
Proof.
  intros HB HC. assert (HM : 0 <= M) by (eapply Rle_trans; [apply Rabs_pos|apply (HB 1); lra]). set (g x := if Rle_dec x 0 then 0 else f x).
  assert (Hg : forall x, 0 <= x <= 1 -> Rabs (g x) <= M). { intros x Hx. unfold g. destruct (Rle_dec x 0); [rewrite Rabs_R0; lra|apply HB; lra]. }
  apply (ex_RInt_ext g). { intros x. rewrite Rmin_left, Rmax_right by lra. intros Hx. unfold g. destruct (Rle_dec x 0); [lra|reflexivity]. }
  apply ex_RInt_Reals_1. intros eps. set (d := Rmin (1 / 2) (eps / 4 / (M + 1))). pose proof (cond_pos eps) as He.
  assert (Hd : 0 < d <= 1 / 2) by (split; [unfold d; apply Rmin_pos; [lra|repeat apply Rdiv_lt_0_compat; lra]|apply Rmin_l]).
  assert (HdM : M * d <= eps / 4). { apply Rle_trans with ((M + 1) * (eps / 4 / (M + 1))); [|right; field; lra]. apply Rmult_le_compat; try lra. apply Rmin_r. }
  assert (pr : Riemann_integrable (clamp d 1 f) d 1). { apply continuity_implies_RiemannInt; [lra|]. intros x _. apply clamp_cont; [lra|apply HC; lra]. }
  destruct (pr (mkposreal (eps / 2) ltac:(lra))) as (phi & psi & H1 & H2). cbn [pos] in H2. rewrite Rmin_left, Rmax_right in H1 by lra.
  set (psi' x := if Rle_dec x d then M else psi x).
  set (phi0 x := if Rle_dec x d then 0 else phi x).
  assert (Sp : forall h (ph : StepFun d 1), (forall x, d < x < 1 -> ph x = h x) -> IsStepFun h d 1) by (intros h ph Hh; apply (step_eq ph); [lra|exact Hh|apply (pre ph)]).
  assert (A1 : IsStepFun phi0 0 d). { apply (step_eq (fct_cte 0)); [lra| |apply StepFun_P4]. intros x Hx. unfold phi0, fct_cte. destruct (Rle_dec x d); lra. }
  assert (A2 : IsStepFun phi0 d 1). { apply (Sp _ phi). intros x Hx. unfold phi0. destruct (Rle_dec x d); [lra|reflexivity]. }
  assert (B1 : IsStepFun psi' 0 d). { apply (step_eq (fct_cte M)); [lra| |apply StepFun_P4]. intros x Hx. unfold psi', fct_cte. destruct (Rle_dec x d); lra. }
  assert (B2 : IsStepFun psi' d 1). { apply (Sp _ psi). intros x Hx. unfold psi'. destruct (Rle_dec x d); [lra|reflexivity]. }
  exists (mkStepFun (StepFun_P46 A1 A2)), (mkStepFun (StepFun_P46 B1 B2)). cbn [fe]. split.
  - intros t. rewrite Rmin_left, Rmax_right by lra. intros Ht. unfold phi0, psi'. destruct (Rle_dec t d); [rewrite Rminus_0_r; apply Hg; lra|].
    specialize (H1 t ltac:(lra)). rewrite clamp_in in H1 by lra. unfold g. destruct (Rle_dec t 0); [lra|exact H1].
  - rewrite <- (StepFun_P43 B1 B2 (StepFun_P46 B1 B2)).
    assert (U1 : RiemannInt_SF (mkStepFun B1) <= M * (d - 0)). { rewrite <- (StepFun_P18 0 d M). apply StepFun_P37; [lra|]. intros x Hx. cbn. unfold psi', fct_cte. destruct (Rle_dec x d); lra. }
    assert (L1 : 0 <= RiemannInt_SF (mkStepFun B1)). { apply Rle_trans with (0 * (d - 0)); [lra|]. rewrite <- (StepFun_P18 0 d 0). apply StepFun_P37; [lra|]. intros x Hx. cbn. unfold psi', fct_cte. destruct (Rle_dec x d); lra. }
    assert (U2 : RiemannInt_SF (mkStepFun B2) <= RiemannInt_SF psi). { apply StepFun_P37; [lra|]. intros x Hx. cbn. unfold psi'. destruct (Rle_dec x d); lra. }
    assert (L2 : 0 <= RiemannInt_SF (mkStepFun B2)). { apply Rle_trans with (0 * (1 - d)); [lra|]. rewrite <- (StepFun_P18 d 1 0). apply StepFun_P37; [lra|]. intros x Hx. cbn. unfold psi', fct_cte. destruct (Rle_dec x d); [lra|]. eapply Rle_trans; [apply Rabs_pos|apply (H1 x); lra]. }
    apply Rabs_def2 in H2. rewrite Rabs_pos_eq by lra. lra.
Qed.

(** ** Linear equations *)
Lemma stay_up a b k (d r : R -> R) : a < b -> cont_on a b d -> (forall t, a < t < b -> is_derive d t (k * d t - r t)) -> (forall t, a < t < b -> 0 <= r t) -> 0 <= d b -> 0 <= d a.
Proof.
  intros Hab Hc Hd Hr H0.
  assert (Ce : cont_on a b (fun t => exp (- k * t))). { apply cont_on_derive. intros x _. exists ((- k * 1) * exp (- k * x)). apply der_exp, der_scal, der_id. }
  destruct (cont_mvt a b (fun t => d t * exp (- k * t)) (fun t => - r t * exp (- k * t)) Hab) as (c & Hc1 & Hc2).
  { apply cont_on_mult; [lra|exact Hc|exact Ce]. }
  { intros t Ht. refine (der_eq _ _ _ _ _ (der_mult _ _ _ _ _ (Hd t Ht) (der_exp _ _ _ (der_scal _ (- k) _ _ (der_id t))))). ring. }
  pose proof (exp_pos (- k * a)). pose proof (exp_pos (- k * b)). pose proof (exp_pos (- k * c)). pose proof (Hr c Hc1).
  assert (0 <= d b * exp (- k * b)) by (apply Rmult_le_pos; lra). assert (0 <= r c * exp (- k * c) * (b - a)) by (repeat apply Rmult_le_pos; lra).
  apply (Rmult_le_reg_r (exp (- k * a))); [lra|]. lra.
Qed.
Lemma stay_down a b k (d r : R -> R) : a < b -> cont_on a b d -> (forall t, a < t < b -> is_derive d t (- k * d t + r t)) -> (forall t, a < t < b -> 0 <= r t) -> 0 <= d a -> 0 <= d b.
Proof.
  intros Hab Hc Hd Hr H0.
  assert (Ce : cont_on a b (fun t => exp (k * t))). { apply cont_on_derive. intros x _. exists ((k * 1) * exp (k * x)). apply der_exp, der_scal, der_id. }
  destruct (cont_mvt a b (fun t => d t * exp (k * t)) (fun t => r t * exp (k * t)) Hab) as (c & Hc1 & Hc2).
  { apply cont_on_mult; [lra|exact Hc|exact Ce]. }
  { intros t Ht. refine (der_eq _ _ _ _ _ (der_mult _ _ _ _ _ (Hd t Ht) (der_exp _ _ _ (der_scal _ k _ _ (der_id t))))). ring. }
  pose proof (exp_pos (k * a)). pose proof (exp_pos (k * b)). pose proof (exp_pos (k * c)). pose proof (Hr c Hc1).
  assert (0 <= d a * exp (k * a)) by (apply Rmult_le_pos; lra). assert (0 <= r c * exp (k * c) * (b - a)) by (repeat apply Rmult_le_pos; lra).
  apply (Rmult_le_reg_r (exp (k * b))); [lra|]. lra.
Qed.
