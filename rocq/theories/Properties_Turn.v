(** Property C99. *)
From Coq Require Import String Reals Lra Lia List Bool Arith ZArith.
From Verif Require Import Base Tensor Spec M_LinAlg M_Subroutines M_Assemble M_Pydisort Spec_Sol Spec_Calls Spec_Turn Spec_NT
  P_Gauss P_Pydisort4 P_Turn P_NT3 Examples5 Examples13.
Import ListNotations.
Local Open Scope R_scope.

(** C99: the azimuth of the sun decides neither whether a call is answered nor any flux or mean
    intensity, and the azimuths enter the intensity only through the cosine of their difference to
    the sun's: with or without corrections, for the antiderivative and the error estimate too,
    including the exceptions raised. *)
Theorem C99_only_the_bearing_matters :
  forall p x lg la jk, (0 < p_I0 p -> 0 <= p_phi0 p < 2 * PI /\ 0 <= x < 2 * PI) ->
  same_from (p_phi0 p) x (pydisort p lg la jk) (pydisort (turned p x) lg la jk).
Proof. exact call_turned. Qed.
Print Assumptions C99_only_the_bearing_matters.
Example C99_nonvacuous jk : let p := p_sp 1 3 0 in exists out u,
  0 < p_I0 p /\ 0 <= p_phi0 p < 2 * PI /\ 0 <= PI / 2 < 2 * PI /\ nt_applies p /\
  pydisort p gauss_rule la_full jk = Ok out /\ po_u out = Some u /\
  same_bearing (p_phi0 p) (PI / 2) [0; 1] [PI / 2; PI / 2 - 1].
Proof.
  intros p. pose proof PI_RGT_0. destruct (sp_answer 1 3 0 ltac:(lra) ltac:(lra) jk) as (out & H1).
  destruct (call_u _ _ _ _ _ H1 eq_refl) as (u & U1). exists out, u. cbn [p p_sp p_I0 p_phi0]. split; [lra|]. split; [lra|]. split; [lra|].
  split. { refine (proj1 (sp_finite 1 3 0 _)); lra. }
  split; [exact H1|]. split; [exact U1|]. constructor; [f_equal; lra|]. constructor; [|constructor].
  rewrite <- (cos_neg (1 - 0)). f_equal. lra.
Qed.

(** Turning the sun and the observer by the same angle, full turns left out of the sun's azimuth,
    changes nothing. *)
Theorem C99_rotation :
  forall p d k lg la jk out, pydisort p lg la jk = Ok out ->
  let x := p_phi0 p + d - 2 * PI * IZR k in (0 < p_I0 p -> 0 <= x < 2 * PI) ->
  exists out', pydisort (turned p x) lg la jk = Ok out' /\ forall u u', po_u out = Some u -> po_u out' = Some u' ->
  forall tau phi anti re rt, same_ret (u tau phi anti re rt) (u' tau (map (fun f => f + d) phi) anti re rt).
Proof. exact call_rotated. Qed.
Print Assumptions C99_rotation.
(** Within one call: full turns and the mirror image in the sun's vertical plane. *)
Theorem C99_mirror :
  forall p lg la jk out u, pydisort p lg la jk = Ok out -> po_u out = Some u ->
  forall tau phi psi anti re rt, Forall2 (fun f g => exists k : Z, g = f + 2 * PI * IZR k \/ g = 2 * p_phi0 p - f + 2 * PI * IZR k) phi psi ->
  same_ret (u tau phi anti re rt) (u tau psi anti re rt).
Proof. exact call_bearing. Qed.
Print Assumptions C99_mirror.
(** The sun turned backwards past north. *)
Example C99_rotation_nonvacuous jk : let p := p_sp 1 3 0 in exists out u,
  pydisort p gauss_rule la_full jk = Ok out /\ po_u out = Some u /\ 0 <= p_phi0 p + - PI / 2 - 2 * PI * IZR (-1) < 2 * PI.
Proof.
  intros p. pose proof PI_RGT_0. destruct (sp_answer 1 3 0 ltac:(lra) ltac:(lra) jk) as (out & H1).
  destruct (call_u _ _ _ _ _ H1 eq_refl) as (u & U1). exists out, u. split; [exact H1|]. split; [exact U1|]. cbn [p p_sp p_phi0]. lra.
Qed.
