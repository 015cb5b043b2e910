(** * Double precision: the corrected intensity behind thick layers; checks and scaling. *)
From Coq Require Import ZArith Reals List Bool Lia Lra.
From Flocq Require Import Core IEEE754.BinarySingleNaN.
From Verif Require Import Base M_Float Spec_Float P_Float P_Float2 P_Float3 P_Float4 P_Float5.
Import ListNotations.
Open Scope R_scope.

(** C77. The corrected intensity is a finite number for all accepted optical properties and
    depths.  This is false of the code: the products of attenuations underflow and are divided
    by each other. *)
Theorem C77_finite_refuted :
  ~ (forall lm a mu mu0 l tau lmin ustar rescale B,
       libm_ok lm -> atm_ok a -> cosine_ok mu -> cosine_ok mu0 -> INR (fa_n a) <= two 20 ->
       in_layer a l tau -> (lmin <= l)%nat ->
       at_most 1000 ustar -> at_most 400 rescale -> at_most 400 B ->
       ffin (d_u_up lm a mu mu0 false lmin ustar rescale B tau) = true).
Proof.
  intros H.
  pose proof (H libm0 (atm2 20 30) (lit 1 (-6)) (lit 1 (-1)) 0%nat (lit 20 0) 0%nat fone fone fone
    libm0_ok (atm2_ok 20 30 ltac:(lia) ltac:(lia)) mu_cos mu0_cos (atm2_n 20 30 20 ltac:(lia))
    (atm2_top 20 30 ltac:(lia) ltac:(lia)) (le_n _)
    (one_at_most 1000 ltac:(lia)) (one_at_most 400 ltac:(lia)) (one_at_most 400 ltac:(lia))) as G.
  rewrite (u_up_nan libm0 (atm2 20 30) (lit 1 (-6)) libm0_ok (atm2_ok 20 30 ltac:(lia) ltac:(lia)) mu_cos
    (lit 1 (-1)) false 0 0 fone fone fone (lit 20 0) (atm2_n 20 30 40 ltac:(lia))
    (atm2_top 20 30 ltac:(lia) ltac:(lia)) ltac:(cbn; lia) (le_n _) thick_example) in G.
  discriminate G.
Qed.
Print Assumptions C77_finite_refuted.

(** Every atmosphere in which the lower boundary of layer [k] lies deeper than 748 times the
    direction cosine (optical depth after delta-M scaling) makes the upward intensity in this
    direction NaN everywhere in layer [k], unless [k] is the last layer. *)
Theorem C77_nan_up : forall lm a mu mu0 anti k lmin ustar rescale B tau,
  libm_ok lm -> atm_ok a -> cosine_ok mu -> INR (fa_n a) <= two 40 ->
  in_layer a k tau -> (S k < fa_n a)%nat -> (lmin <= k)%nat ->
  748 * fval mu <= scaled_depth a (- two (-50)) (S k) ->
  d_u_up lm a mu mu0 anti lmin ustar rescale B tau = B754_nan.
Proof.
  intros lm a mu mu0 anti k lmin ustar rescale B tau Hlm Ha Hmu.
  exact (u_up_nan lm a mu Hlm Ha Hmu mu0 anti k lmin ustar rescale B tau).
Qed.
Print Assumptions C77_nan_up.

Example C77_nan_up_nonvacuous :
  d_u_up libm0 (atm2 20 30) (lit 1 (-6)) (lit 1 (-1)) false 0 fone fone fone (lit 20 0) = B754_nan.
Proof.
  apply (C77_nan_up _ _ _ _ _ 0%nat); [apply libm0_ok|apply atm2_ok; lia|apply mu_cos|
    apply atm2_n; lia|apply atm2_top; lia|cbn; lia|lia|apply thick_example].
Qed.

(** ... and the downward intensity NaN everywhere in layer [k + 1]. *)
Theorem C77_nan_down : forall lm a mu mu0 anti k lmax ustar rescale B ims tau,
  libm_ok lm -> atm_ok a -> cosine_ok mu -> INR (fa_n a) <= two 40 ->
  in_layer a (S k) tau -> (S k <= lmax)%nat ->
  748 * fval mu <= scaled_depth a (- two (-50)) (S k) ->
  d_u_down lm a mu mu0 anti lmax ustar rescale B ims tau = B754_nan.
Proof.
  intros lm a mu mu0 anti k lmax ustar rescale B ims tau Hlm Ha Hmu.
  exact (u_down_nan lm a mu Hlm Ha Hmu mu0 anti k lmax ustar rescale B ims tau).
Qed.
Print Assumptions C77_nan_down.

Example C77_nan_down_nonvacuous :
  d_u_down libm0 (atm2 20 30) (lit 1 (-6)) (lit 1 (-1)) false 1 fone fone fone fone (lit 30 0) = B754_nan.
Proof.
  apply (C77_nan_down _ _ _ _ _ 0%nat); [apply libm0_ok|apply atm2_ok; lia|apply mu_cos|
    apply atm2_n; lia|apply atm2_bottom; lia|lia|apply thick_example].
Qed.

(** What remains true: when the whole atmosphere is not deeper than 690 times the direction
    cosine, the corrected intensity is finite at all depths, and so is its antiderivative ([anti]) if no layer
    scatters more than half of what it removes into the forward peak. *)
Theorem C77_finite_up_partial : forall lm a mu mu0 anti l tau lmin ustar rescale B,
  libm_ok lm -> atm_ok a -> cosine_ok mu -> cosine_ok mu0 -> INR (fa_n a) <= two 20 ->
  scaled_depth a (two (-50)) (fa_n a) <= 690 * fval mu ->
  (anti = true -> forall r, (r < fa_n a)%nat -> fval (w_ a r) * fval (f_ a r) <= / 2) ->
  in_layer a l tau -> at_most 1000 ustar -> at_most 400 rescale -> at_most 400 B ->
  ffin (d_u_up lm a mu mu0 anti lmin ustar rescale B tau) = true.
Proof.
  intros lm a mu mu0 anti l tau lmin ustar rescale B Hlm Ha Hmu Hmu0 Hn Hd Hh Ht Hu Hr HB.
  exact (u_up_fin lm a mu mu0 Hlm Ha Hmu Hmu0 Hn Hd anti Hh l tau Ht B ustar rescale HB Hu Hr lmin).
Qed.
Print Assumptions C77_finite_up_partial.

Theorem C77_finite_down_partial : forall lm a mu mu0 anti l tau lmax ustar rescale B ims,
  libm_ok lm -> atm_ok a -> cosine_ok mu -> cosine_ok mu0 -> INR (fa_n a) <= two 20 ->
  scaled_depth a (two (-50)) (fa_n a) <= 690 * fval mu ->
  (anti = true -> forall r, (r < fa_n a)%nat -> fval (w_ a r) * fval (f_ a r) <= / 2) ->
  in_layer a l tau -> at_most 1000 ustar -> at_most 400 rescale -> at_most 400 B ->
  at_most 400 ims ->
  ffin (d_u_down lm a mu mu0 anti lmax ustar rescale B ims tau) = true.
Proof.
  intros lm a mu mu0 anti l tau lmax ustar rescale B ims Hlm Ha Hmu Hmu0 Hn Hd Hh Ht Hu Hr HB Hi.
  exact (u_down_fin lm a mu mu0 Hlm Ha Hmu Hmu0 Hn Hd anti Hh l tau Ht B ustar rescale ims HB Hu Hr Hi lmax).
Qed.
Print Assumptions C77_finite_down_partial.

Example C77_finite_nonvacuous anti :
  ffin (d_u_up libm0 (atm2 1 2) (lit 1 (-6)) (lit 1 (-1)) anti 0 fone fone fone (lit 1 0)) = true /\
  ffin (d_u_down libm0 (atm2 1 2) (lit 1 (-6)) (lit 1 (-1)) anti 1 fone fone fone fone (lit 2 0)) = true.
Proof.
  split; [apply (C77_finite_up_partial _ _ _ _ _ 0%nat) | apply (C77_finite_down_partial _ _ _ _ _ 1%nat)];
    first [apply libm0_ok | apply atm2_ok; lia | apply mu_cos | apply mu0_cos | apply atm2_n; lia
          | apply thin_example | apply atm2_top; lia | apply atm2_bottom; lia | apply one_at_most; lia
          | intros _; apply atm2_peak].
Qed.

(** C78. Rounding does not change what the checks of the optical properties accept: for finite
    arguments they accept exactly the increasing positive depths, albedos in [0, 1) and forward
    peaks in [0, 1]. *)
Theorem C78_checks_exact : forall a, all_finite a -> (fa_checks a = true <-> atm_ok a).
Proof. exact checks_iff. Qed.
Print Assumptions C78_checks_exact.

Example C78_checks_exact_nonvacuous : fa_checks (atm2 20 30) = true.
Proof.
  apply C78_checks_exact; [|apply atm2_ok; lia].
  destruct (atm2_val 20 30 ltac:(lia) ltac:(lia)) as (F1 & F2 & _). pose proof (proj1 half_lit) as F3.
  repeat split; repeat constructor; assumption.
Qed.

(** Delta-M scaling never leaves the allowed range because of rounding: the scaling factor is in
    (0, 1], the scaled albedo is in [0, omega] and thus below 1, and the scaled thickness is
    nonnegative and within 2^-50 of the exact one (relative to the layer's thickness). *)
Theorem C78_scaling_safe : forall a r, atm_ok a -> (r < fa_n a)%nat ->
  (ffin (fa_scale a r) = true /\ 0 < fval (fa_scale a r) <= 1) /\
  (ffin (fa_somega a r) = true /\ 0 <= fval (fa_somega a r) <= fval (w_ a r)) /\
  (ffin (fa_sthick a r) = true /\ 0 <= fval (fa_sthick a r) <= fval (t_ a r) /\
   Rabs (fval (fa_sthick a r) - scaling a r * thickness a r) <= two (-50) * thickness a r + two (-1073)).
Proof.
  intros a r Ha Hr. destruct (scale_ok a Ha r Hr) as (F & R & _).
  exact (conj (conj F R) (conj (somega_ok a r Ha Hr) (sthick_dist a r Ha Hr))).
Qed.
Print Assumptions C78_scaling_safe.

Example C78_scaling_safe_nonvacuous : 0 < fval (fa_scale (atm2 20 30) 1) <= 1.
Proof. apply (C78_scaling_safe (atm2 20 30) 1); [apply atm2_ok; lia|cbn; lia]. Qed.
