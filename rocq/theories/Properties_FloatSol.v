(** * Double precision: depths and attenuation factors of the main solution. *)
From Coq Require Import ZArith Reals List Bool Lia Lra.
From Flocq Require Import Core IEEE754.BinarySingleNaN.
From Verif Require Import Base M_Float Spec_Float M_FloatSol Spec_FloatSol P_Float P_Float4 P_Float5 P_FloatSol.
Import ListNotations.
Open Scope R_scope.

(** C79. The attenuation factors cannot overflow and are accurate.

    The depths in the scaled atmosphere are computed accurately, in all branches (delta-M scaling
    on, off, or on without effect), they are not negative, and those of the layer boundaries
    never decrease. *)
Theorem C79_depth : forall a l tau, atm_ok a -> moderate a -> in_layer a l tau ->
  ffin (s_stau a tau) = true /\ 0 <= fval (s_stau a tau) /\
  Rabs (fval (s_stau a tau) - exact_depth a l (fval tau)) <= depth_tolerance a.
Proof. intros a l tau Ha Hm. exact (depths_ok a Ha Hm l tau). Qed.
Print Assumptions C79_depth.

Theorem C79_boundary_depth : forall a k, atm_ok a -> moderate a -> (k < fa_n a)%nat ->
  ffin (s_tau0 a (S k)) = true /\ 0 <= fval (s_tau0 a k) <= fval (s_tau0 a (S k)) /\
  Rabs (fval (s_tau0 a (S k)) - scaled_depth a 0 (S k)) <= depth_tolerance a.
Proof. intros a k Ha Hm. exact (depths0_ok a Ha Hm k). Qed.
Print Assumptions C79_boundary_depth.

(** No factor in the linear system exceeds 1, however thick the layers and large the rates. *)
Theorem C79_system_factors : forall lm a K l, libm_ok lm -> atm_ok a -> moderate a -> rate_ok K -> (l < fa_n a)%nat ->
  (ffin (s_E_upper a lm K l) = true /\ 0 <= fval (s_E_upper a lm K l) <= 1) /\
  (ffin (s_E_lower a lm K l) = true /\ 0 <= fval (s_E_lower a lm K l) <= 1).
Proof. intros lm a K l Hlm Ha Hm. exact (interface_ok a Ha Hm lm Hlm K l). Qed.
Print Assumptions C79_system_factors.

Theorem C79_system_accurate : forall lm a K l, libm_ok lm -> atm_ok a -> moderate a -> rate_ok K ->
  not_extreme a (fval K) -> (l < fa_n a)%nat ->
  approx (tolerance a (fval K)) (fval (s_E_upper a lm K l)) (exp (- fval K * (scaling a l * thickness a l))) /\
  approx (tolerance a (fval K)) (fval (s_E_lower a lm K l)) (exp (- fval K * (scaling a l * thickness a l))).
Proof. intros lm a K l Hlm Ha Hm. exact (interface_acc a Ha Hm lm Hlm K l). Qed.
Print Assumptions C79_system_accurate.

(** At every depth the factor of each homogeneous solution is the exact attenuation from the
    boundary of the layer at which this solution is largest, up to the tolerance; although the
    computed depth may leave the layer by a rounding error, no factor overflows. *)
Theorem C79_attenuation : forall lm a K l tau, libm_ok lm -> atm_ok a -> moderate a -> rate_ok K ->
  not_extreme a (fval K) -> in_layer a l tau ->
  (ffin (s_att_upper a lm K tau) = true /\ 0 <= fval (s_att_upper a lm K tau) /\
   approx (tolerance a (fval K)) (fval (s_att_upper a lm K tau))
     (exp (- fval K * (scaling a l * (fval tau - upper a l))))) /\
  (ffin (s_att_lower a lm K tau) = true /\ 0 <= fval (s_att_lower a lm K tau) /\
   approx (tolerance a (fval K)) (fval (s_att_lower a lm K tau))
     (exp (- fval K * (scaling a l * (fval (t_ a l) - fval tau))))).
Proof. intros lm a K l tau Hlm Ha Hm. exact (att_ok a Ha Hm lm Hlm K l tau). Qed.
Print Assumptions C79_attenuation.

(** The same for the direct beam, at all depths and at the boundaries. *)
Theorem C79_beam : forall lm a mu0 l tau, libm_ok lm -> atm_ok a -> moderate a -> cosine_ok mu0 -> in_layer a l tau ->
  (ffin (s_beam a lm mu0 tau) = true /\ 0 <= fval (s_beam a lm mu0 tau) <= 1) /\
  (not_extreme a (/ fval mu0) ->
   approx (tolerance a (/ fval mu0)) (fval (s_beam a lm mu0 tau)) (exp (- (exact_depth a l (fval tau) / fval mu0)))).
Proof. intros lm a mu0 l tau Hlm Ha Hm. exact (beam_ok a Ha Hm lm Hlm mu0 l tau). Qed.
Print Assumptions C79_beam.

Theorem C79_boundary_beam : forall lm a mu0 k, libm_ok lm -> atm_ok a -> moderate a -> cosine_ok mu0 -> (k <= fa_n a)%nat ->
  (ffin (s_beam0 a lm mu0 k) = true /\ 0 <= fval (s_beam0 a lm mu0 k) <= 1) /\
  (not_extreme a (/ fval mu0) ->
   approx (tolerance a (/ fval mu0)) (fval (s_beam0 a lm mu0 k)) (exp (- (scaled_depth a 0 k / fval mu0)))).
Proof. intros lm a mu0 k Hlm Ha Hm. exact (beam0_ok a Ha Hm lm Hlm mu0 k). Qed.
Print Assumptions C79_boundary_beam.

(** Two layers, optical depths 20 and 30, rate 64, depth 20 and 30. *)
Example C79_nonvacuous :
  fval (s_E_upper (atm2 20 30) libm0 (lit 64 0) 1) <= 1 /\
  approx (tolerance (atm2 20 30) 64) (fval (s_att_upper (atm2 20 30) libm0 (lit 64 0) (lit 30 0)))
     (exp (- 64 * (3 / 4 * (30 - 20)))) /\
  approx (tolerance (atm2 20 30) (/ (/ 2))) (fval (s_beam (atm2 20 30) libm0 (lit 1 (-1)) (lit 20 0)))
     (exp (- ((3 / 4 * 20) / (/ 2)))).
Proof.
  pose proof (atm2_ok 20 30 ltac:(lia) ltac:(lia)) as Ha.
  destruct (lit_int 64 ltac:(lia)) as [F64 V64]. destruct (lit_int 20 ltac:(lia)) as [_ V20].
  destruct (lit_int 30 ltac:(lia)) as [_ V30].
  destruct half_lit as [_ Vh].
  assert (BD : bottom_depth (atm2 20 30) = 30) by (unfold bottom_depth; cbn; exact V30).
  assert (Hm : moderate (atm2 20 30)).
  { split; [|apply atm2_n; lia]. rewrite BD. apply Rle_trans with (two 10); [rewrite two_10; lra|apply two_le; lia]. }
  assert (Hr : rate_ok (lit 64 0)).
  { split; [exact F64|]. rewrite V64. split; [lra|]. apply Rle_trans with (two 10); [rewrite two_10; lra|apply two_le; lia]. }
  assert (NE : forall K, 0 <= K <= 64 -> not_extreme (atm2 20 30) K).
  { intros K HK. unfold not_extreme. rewrite BD. replace (INR (fa_n (atm2 20 30))) with 2 by (cbn; lra).
    apply Rle_trans with (two 20); [change (two 20) with 1048576; lra|apply two_le; lia]. }
  split; [|split].
  - apply (C79_system_factors libm0 (atm2 20 30) (lit 64 0) 1 libm0_ok Ha Hm Hr). cbn; lia.
  - destruct (C79_attenuation libm0 (atm2 20 30) (lit 64 0) 1 (lit 30 0) libm0_ok Ha Hm Hr) as [(_ & _ & G) _].
    + rewrite V64. apply NE. lra.
    + apply atm2_bottom; lia.
    + rewrite V64, V30, atm2_scaling in G by lia. change (upper (atm2 20 30) 1) with (fval (lit 20 0)) in G.
      rewrite V20 in G. exact G.
  - destruct (C79_beam libm0 (atm2 20 30) (lit 1 (-1)) 0 (lit 20 0) libm0_ok Ha Hm mu0_cos) as [_ G].
    + apply atm2_top; lia.
    + rewrite Vh in G. specialize (G ltac:(apply NE; lra)).
      unfold exact_depth, scaled_depth in G. cbn [rsum upper] in G.
      rewrite V20, atm2_scaling in G by lia. rewrite Rplus_0_l, Rminus_0_r in G. exact G.
Qed.
