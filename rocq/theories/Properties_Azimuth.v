(** Properties C91 to C93: the exact radiation in every direction, and how the intensity converges to it. *)
From Coq Require Import String Reals Lra Lia List Bool Arith ZArith.
From Coquelicot Require Import Coquelicot.
From Verif Require Import Base Tensor Spec M_LinAlg Spec_RTE M_Subroutines M_Assemble M_Pydisort Spec_Sol Spec_Valid Spec_Calls Spec_Unique Spec_Phys Spec_Mono Spec_Exact Spec_Full Spec_Solved Spec_Sun Spec_Lossy Spec_Azimuth
  P_Pydisort4 P_Gauss P_Conv5 P_Az4 P_Az5 P_Az6 P_Az7 Examples5.
Import ListNotations.
Local Open Scope R_scope.

(** C91: the radiative transfer problem over all directions of the sphere has one solution. *)
Theorem C91_exact_radiation :
  forall p, valid p -> forall bn bp rho r, (forall l, (l < nlayers p)%nat -> fwd p l < 1) -> phase_positive p -> absorbing_surface p rho r -> ucont1 bn -> ucont1 bp ->
  (exists f, exact_intensity p bn bp rho f) /\
  forall f f', exact_intensity p bn bp rho f -> exact_intensity p bn bp rho f' ->
  forall x t phi, direction x -> 0 <= t <= bottom p -> f x t phi = f' x t phi.
Proof. exact intensity_determined. Qed.
Print Assumptions C91_exact_radiation.

(** C91: its average over azimuth is the exact mean radiation, to which [u0] and the fluxes converge. *)
Theorem C91_average_over_azimuth :
  forall p, valid p -> forall bn bp rho r, (forall l, (l < nlayers p)%nat -> fwd p l < 1) -> phase_positive p -> absorbing_surface p rho r -> ucont1 bn -> ucont1 bp ->
  forall f, exact_intensity p bn bp rho f -> exists J, exact_field p bn bp (rho 0%nat) J /\
  forall x t, direction x -> 0 <= t <= bottom p -> is_RInt (fun phi => f x t phi) 0 (2 * PI) (2 * PI * J x t).
Proof. exact intensity_mean. Qed.
Print Assumptions C91_average_over_azimuth.

(** C91: it is the same on both sides of the vertical plane through the sun, and after a full turn. *)
Theorem C91_symmetric :
  forall p, valid p -> forall bn bp rho r, (forall l, (l < nlayers p)%nat -> fwd p l < 1) -> phase_positive p -> absorbing_surface p rho r -> ucont1 bn -> ucont1 bp ->
  forall f, exact_intensity p bn bp rho f -> forall x t a, direction x -> 0 <= t <= bottom p ->
  f x t (p_phi0 p + a) = f x t (p_phi0 p - a) /\ f x t (a + 2 * PI) = f x t a.
Proof. exact intensity_mirror. Qed.
Print Assumptions C91_symmetric.

(** A sunlit atmosphere of two layers over a reflecting surface. *)
Example C91_nonvacuous : let p := p_sun 2 (1/2) in valid p /\ (forall l, (l < nlayers p)%nat -> fwd p l < 1) /\ phase_positive p /\ absorbing_surface p rho12 (1/2) /\
  ucont1 (fun _ => 0) /\ ucont1 (fun _ => 1) /\ 0 < p_I0 p /\ nlayers p = 2%nat.
Proof.
  cbv zeta. split; [apply sl_valid; [lia|lra]|]. split; [exact (sl_fwd 2 (1/2) (le_n 2))|]. split; [apply (sl_positive 2 (1/2) (le_n 2)); lra|]. split; [apply sl_surface|]. split; [apply ucont_const|]. split; [apply ucont_const|]. split; [cbn; lra|reflexivity].
Qed.

(** C92: the intensity that [u] reports comes as near to the exact radiation as wanted, at all depths and
    azimuths and in all the directions of the call, once there are enough streams. *)
Theorem C92_intensity_converges :
  forall p, valid p -> forall bn bp rho r, (forall l, (l < nlayers p)%nat -> fwd p l < 1) -> phase_positive p -> absorbing_surface p rho r -> ucont1 bn -> ucont1 bp ->
  forall f eps, exact_intensity p bn bp rho f -> 0 < eps -> exists N0, forall q lg la jk out u,
  same_problem p q -> p_phi0 p = p_phi0 q -> (N0 <= half q)%nat -> all_modes q ->
  linalg_ok la -> leggauss_ok (half q) (lg (half q)) -> pydisort q lg la jk = Ok out -> po_u out = Some u ->
  boundary_data q (fun i => bn (nth i (po_mu out) 0)) (fun i => bp (nth i (po_mu out) 0)) rho -> forall tau phi, depths_ok p tau ->
  exists A, u tau phi false false false = Ok (PVal (PT A)) /\
   twithin eps A (tsqueeze (mkT [streams q; length tau; length phi]
     (fun idx => f (nth (nth 0 idx 0%nat) (po_mu out) 0) (nth (nth 1 idx 0%nat) tau 0) (nth (nth 2 idx 0%nat) phi 0)))).
Proof. exact u_converges. Qed.
Print Assumptions C92_intensity_converges.
(** Two scattering layers under a beam, with emission, over a reflecting surface: for every number of
    streams there is a larger one that is solved. *)
Example C92_nonvacuous : exists x, 1/4 < x < 3/4 /\ let p := p_sun 2 x in
  valid p /\ (forall l, (l < nlayers p)%nat -> fwd p l < 1) /\ phase_positive p /\ absorbing_surface p rho12 (1/2) /\ ucont1 (fun _ => 0) /\ ucont1 (fun _ => 1) /\
  0 < p_I0 p /\ (exists f, exact_intensity p (fun _ => 0) (fun _ => 1) rho12 f) /\
  forall N0 jk, exists q out u, same_problem p q /\ p_phi0 p = p_phi0 q /\ (N0 <= half q)%nat /\ all_modes q /\ linalg_ok la_full /\ leggauss_ok (half q) (gauss_rule (half q)) /\
   pydisort q gauss_rule la_full jk = Ok out /\ po_u out = Some u /\
   boundary_data q (fun i => (fun _ => 0) (nth i (po_mu out) 0)) (fun i => (fun _ => 1) (nth i (po_mu out) 0)) rho12 /\ depths_ok p [0; 1; 2].
Proof.
  destruct sl_solved as (x & Hx & HS). exists x. split; [exact Hx|]. assert (Hx' : 0 < x < 1) by lra. cbv zeta. pose proof (sl_valid 2 x (le_n 2) Hx') as V.
  assert (H1 : forall l, (l < nlayers (p_sun 2 x))%nat -> fwd (p_sun 2 x) l < 1) by exact (sl_fwd 2 x (le_n 2)). assert (H2 : phase_positive (p_sun 2 x)) by exact (sl_positive 2 x (le_n 2) Hx'). assert (H3 : absorbing_surface (p_sun 2 x) rho12 (1/2)) by apply sl_surface.
  split; [exact V|]. split; [exact H1|]. split; [exact H2|]. split; [exact H3|]. split; [apply ucont_const|]. split; [apply ucont_const|]. split; [cbn; lra|].
  split. { exact (proj1 (intensity_determined _ V _ _ rho12 (1/2) H1 H2 H3 (ucont_const _) (ucont_const _))). }
  intros N0 jk. set (n := Nat.max 2 N0). destruct (HS n jk (Nat.le_max_l 2 N0)) as (out & Hok). destruct (call_u _ _ _ _ _ Hok eq_refl) as (u & Hu). exists (p_sun n x), out, u.
  split; [apply sl_same|]. split; [reflexivity|]. split; [rewrite sl_half; apply Nat.le_max_r|]. split; [apply (sl_modes n x (Nat.le_max_l 2 N0))|]. split; [exact la_full_ok|]. split; [apply gauss_rule_ok|].
  split; [exact Hok|]. split; [exact Hu|]. split; [apply (sl_bd n x (Nat.le_max_l 2 N0) (po_mu out))|]. intros t [<-|[<-|[<-|[]]]]; cbn; lra.
Qed.

(** C93: in every interval of sun angles there is one at which the call succeeds for every number of
    streams for which the atmosphere loses radiation (whatever the eigenvalues then are). *)
Theorem C93_sun_for_every_order :
  forall p rho a b, 0 < p_I0 p -> a < b -> exists x, a < x < b /\ forall n lg la jk, lossy_input (at_sun (at_streams p n) x) rho ->
  leggauss_ok n (lg n) -> linalg_ok la -> linalg_unique la -> linalg_complete la -> linalg_total la ->
  exists out, pydisort (at_sun (at_streams p n) x) lg la jk = Ok out.
Proof. exact suns_every. Qed.
Print Assumptions C93_sun_for_every_order.
Example C93_nonvacuous : 0 < p_I0 p_sl /\ (1/4 < 3/4) /\ forall n x, (2 <= n)%nat -> 1/4 < x < 3/4 -> lossy_input (at_sun (at_streams p_sl n) x) rho12 /\
  leggauss_ok n (gauss_rule n) /\ linalg_ok la_full /\ linalg_unique la_full /\ linalg_complete la_full /\ linalg_total la_full.
Proof.
  split; [cbn; lra|]. split; [lra|]. intros n x Hn Hx. split; [apply (sl_lossy n x Hn); lra|]. split; [apply gauss_rule_ok|]. split; [exact la_full_ok|]. split; [exact la_full_unique|]. split; [exact la_full_complete|exact la_full_total].
Qed.
