(** Property C85: the results converge to the exact radiation as the number of streams grows. *)
From Coq Require Import String Reals Lra Lia List Bool Arith ZArith.
From Coquelicot Require Import Coquelicot.
From Verif Require Import Base Tensor Spec M_LinAlg M_Subroutines M_Assemble M_Pydisort Spec_Sol Spec_Valid Spec_Calls Spec_Phys Spec_Mono Spec_Depend Spec_Exact
  P_Gauss P_Conv4 P_Conv5 Examples5.
Import ListNotations.
Local Open Scope R_scope.

(** C85: for every wanted accuracy [eps] there is a number [N0] such that every answered call for the
    same atmosphere with NQuad at least [2 * N0] reports azimuthally averaged intensities within [eps] of
    the exact field [J] in its directions, and fluxes within [eps] of the exact integrals over all
    directions, at all depths. The phase functions are not negative, and the surface reflects less than
    it receives. *)
Theorem C85_converges :
  forall p bn bp rho J r, valid p -> exact_field p bn bp (rho 0%nat) J -> ucont1 bn -> ucont1 bp -> ucont2 (rho 0%nat) -> scattering_kept p ->
  (forall l x y, (l < nlayers p)%nat -> -1 <= x <= 1 -> -1 <= y <= 1 -> 0 <= phase_mode p 0 l x y) ->
  (forall x y, 0 <= x <= 1 -> 0 <= y <= 1 -> 0 <= rho 0%nat x y) ->
  r < 1 -> (forall x, 0 < x <= 1 -> 2 * RInt (fun y => rho 0%nat x y * y) 0 1 <= r) ->
  forall eps, 0 < eps -> exists N0, forall q lg la jk out, same_problem p q -> (N0 <= half q)%nat ->
  linalg_ok la -> leggauss_ok (half q) (lg (half q)) -> pydisort q lg la jk = Ok out ->
  boundary_data q (fun i => bn (nth i (po_mu out) 0)) (fun i => bp (nth i (po_mu out) 0)) rho -> forall tau, depths_ok p tau ->
  (exists A, po_u0 out tau false false false = Ok (PVal (PT A)) /\
     twithin eps A (tsqueeze (mkT [streams q; length tau] (fun idx => J (nth (nth 0 idx 0%nat) (po_mu out) 0) (nth (nth 1 idx 0%nat) tau 0))))) /\
  (exists A, po_flux_up out tau false false = Ok (PVal (PT A)) /\
     twithin eps A (tsqueeze (mkT [length tau] (fun idx => 2 * PI * RInt (fun y => y * J y (nth (nth 0 idx 0%nat) tau 0)) 0 1)))) /\
  (exists A B, po_flux_down out tau false false = Ok (PTup [PT A; PT B]) /\
     twithin eps A (tsqueeze (mkT [length tau] (fun idx => let t := nth (nth 0 idx 0%nat) tau 0 in
       2 * PI * RInt (fun y => y * J (- y) t) 0 1 + p_mu0 p * p_I0 p * exp (- sdepth p t / p_mu0 p) - direct p t)))).
Proof. intros p bn bp rho J r V EF Cn Cp Cr Kp Hph Hrho Hr Hr'. exact (converges p V bn bp rho J r EF Cn Cp Cr Kp Hph Hrho Hr Hr'). Qed.
Print Assumptions C85_converges.
(** Two scattering, emitting layers with delta-M scaling over a reflecting surface: it has an exact field,
    and an answered call for every even NQuad from 4 on. *)
Example C85_nonvacuous jk : let p := p_cv 2 2 2 1 in
  valid p /\ exact_field p (fun _ => 2) (fun _ => 1) (rho12 0%nat) (fun _ _ => 2) /\ ucont1 (fun _ => 2) /\ ucont1 (fun _ => 1) /\ ucont2 (rho12 0%nat) /\ scattering_kept p /\
  (forall l x y, (l < nlayers p)%nat -> -1 <= x <= 1 -> -1 <= y <= 1 -> 0 <= phase_mode p 0 l x y) /\
  (forall x, 0 < x <= 1 -> 2 * RInt (fun y => rho12 0%nat x y * y) 0 1 <= 1/2) /\
  forall n, (2 <= n)%nat -> exists q out, same_problem p q /\ half q = n /\ leggauss_ok (half q) (gauss_rule (half q)) /\ pydisort q gauss_rule la_full jk = Ok out /\
    boundary_data q (fun i => (fun _ : R => 2) (nth i (po_mu out) 0)) (fun i => (fun _ : R => 1) (nth i (po_mu out) 0)) rho12.
Proof.
  cbv zeta. split; [apply cv_valid; lia|]. split; [apply cv_equilibrium; lia|]. split; [apply ucont_const|]. split; [apply ucont_const|]. split; [apply ucont2_const|]. split; [apply cv_kept; lia|].
  split; [intros; apply cv_phase; auto; lia|]. split; [exact cv_surface|]. intros n Hn. destruct (cv_solved n 2 2 1 Hn ltac:(lra) jk) as (out & H). exists (p_cv n 2 2 1), out.
  split; [apply cv_same|]. split; [exact (cv_half n 2 2 1 Hn)|]. split; [apply gauss_rule_ok|]. split; [exact H|]. exact (cv_bd n 2 2 1 Hn ltac:(lra) ltac:(lra) (po_mu out)).
Qed.
