(** Properties C85 and C86: the exact radiation field exists and is the only one, and the results settle
    as the number of streams grows. *)
From Coq Require Import String Reals Lra Lia List Bool Arith ZArith.
From Coquelicot Require Import Coquelicot.
From Verif Require Import Base Tensor Spec M_LinAlg M_Subroutines M_Assemble M_Pydisort Spec_Sol Spec_Valid Spec_Calls Spec_Phys Spec_Mono Spec_Depend Spec_Exact
  P_Gauss P_Conv4 P_Conv5 P_Exist6 P_Exist7 P_Exist8 Examples5.
Import ListNotations.
Local Open Scope R_scope.

(** C85: the transfer equation with the integral over all directions has a solution for every accepted
    atmosphere of the kind considered, and only one; so the premise of [C85_converges] is always met, and
    the limit is unique. *)
Theorem C85_exact_field :
  forall p bn bp rho r, valid p -> ucont1 bn -> ucont1 bp -> ucont2 rho -> scattering_kept p ->
  (forall l x y, (l < nlayers p)%nat -> -1 <= x <= 1 -> -1 <= y <= 1 -> 0 <= phase_mode p 0 l x y) ->
  (forall x y, 0 <= x <= 1 -> 0 <= y <= 1 -> 0 <= rho x y) ->
  r < 1 -> (forall x, 0 < x <= 1 -> 2 * RInt (fun y => rho x y * y) 0 1 <= r) ->
  (exists J, exact_field p bn bp rho J) /\
  forall J J', exact_field p bn bp rho J -> exact_field p bn bp rho J' -> forall x t, direction x -> 0 <= t <= bottom p -> J x t = J' x t.
Proof.
  intros p bn bp rho r V Cn Cp Cr Kp Hph Hrho Hr Hr'. pose proof (K_nonneg p V Kp Hph) as Hk.
  exact (conj (exact_exists p V bn bp rho r Hk Cr Hrho Hr Hr' Cn Cp) (exact_unique p V bn bp rho r Hk Cr Hrho Hr Hr')).
Qed.
Print Assumptions C85_exact_field.
(** Two scattering, emitting layers over a reflecting surface, away from equilibrium. *)
Example C85_exact_field_nonvacuous : let p := p_cv 2 3 1 0 in
  valid p /\ ucont1 (fun _ => 1) /\ ucont1 (fun _ => 0) /\ ucont2 (rho12 0%nat) /\ scattering_kept p /\
  (forall l x y, (l < nlayers p)%nat -> -1 <= x <= 1 -> -1 <= y <= 1 -> 0 <= phase_mode p 0 l x y) /\
  (forall x y, 0 <= x <= 1 -> 0 <= y <= 1 -> 0 <= rho12 0%nat x y) /\
  1/2 < 1 /\ (forall x, 0 < x <= 1 -> 2 * RInt (fun y => rho12 0%nat x y * y) 0 1 <= 1/2).
Proof.
  cbv zeta. split; [apply cv_valid; lia|]. split; [apply ucont_const|]. split; [apply ucont_const|]. split; [apply ucont2_const|]. split; [apply cv_kept; lia|].
  split; [intros; apply cv_phase; auto; lia|]. split; [intros; unfold rho12; lra|]. split; [lra|exact cv_surface].
Qed.

(** C86: for every wanted accuracy [eps] there is a number [N0] such that any two answered calls for the
    same atmosphere with NQuad at least [2 * N0] report the same fluxes up to [eps] at all depths. *)
Theorem C86_settles :
  forall p bn bp rho r, valid p -> ucont1 bn -> ucont1 bp -> ucont2 (rho 0%nat) -> scattering_kept p ->
  (forall l x y, (l < nlayers p)%nat -> -1 <= x <= 1 -> -1 <= y <= 1 -> 0 <= phase_mode p 0 l x y) ->
  (forall x y, 0 <= x <= 1 -> 0 <= y <= 1 -> 0 <= rho 0%nat x y) ->
  r < 1 -> (forall x, 0 < x <= 1 -> 2 * RInt (fun y => rho 0%nat x y * y) 0 1 <= r) ->
  forall eps, 0 < eps -> exists N0, forall q lg la jk out q' lg' la' jk' out', same_problem p q -> same_problem p q' -> (N0 <= half q)%nat -> (N0 <= half q')%nat ->
  linalg_ok la -> leggauss_ok (half q) (lg (half q)) -> pydisort q lg la jk = Ok out ->
  linalg_ok la' -> leggauss_ok (half q') (lg' (half q')) -> pydisort q' lg' la' jk' = Ok out' ->
  boundary_data q (fun i => bn (nth i (po_mu out) 0)) (fun i => bp (nth i (po_mu out) 0)) rho ->
  boundary_data q' (fun i => bn (nth i (po_mu out') 0)) (fun i => bp (nth i (po_mu out') 0)) rho -> forall tau, depths_ok p tau ->
  (exists A A', po_flux_up out tau false false = Ok (PVal (PT A)) /\ po_flux_up out' tau false false = Ok (PVal (PT A')) /\ twithin eps A A') /\
  (exists A B A' B', po_flux_down out tau false false = Ok (PTup [PT A; PT B]) /\ po_flux_down out' tau false false = Ok (PTup [PT A'; PT B']) /\ twithin eps A A').
Proof. exact settles. Qed.
Print Assumptions C86_settles.
(** The atmosphere above; every even NQuad from 4 on gives an answered call. *)
Example C86_nonvacuous jk n : (2 <= n)%nat -> let p := p_cv 2 3 1 0 in
  exists q out, same_problem p q /\ half q = n /\ linalg_ok la_full /\ leggauss_ok (half q) (gauss_rule (half q)) /\ pydisort q gauss_rule la_full jk = Ok out /\
    boundary_data q (fun i => (fun _ : R => 1) (nth i (po_mu out) 0)) (fun i => (fun _ : R => 0) (nth i (po_mu out) 0)) rho12 /\ depths_ok p [0; 1/2; 3].
Proof.
  intros Hn. cbv zeta. destruct (cv_solved n 3 1 0 Hn ltac:(lra) jk) as (out & H). exists (p_cv n 3 1 0), out.
  split; [apply cv_same|]. split; [exact (cv_half n 3 1 0 Hn)|]. split; [apply la_full_ok|]. split; [apply gauss_rule_ok|]. split; [exact H|]. split; [exact (cv_bd n 3 1 0 Hn ltac:(lra) ltac:(lra) (po_mu out))|].
  intros t [<-|[<-|[<-|[]]]]; unfold bottom; cbn; lra.
Qed.
