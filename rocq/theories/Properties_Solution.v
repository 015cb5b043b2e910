(** Properties of whole calls of pydisort and of the functions it returns.

    [linalg_ok la] and [leggauss_ok ..] are the contracts of the linear-algebra routines and of the
    Gauss-Legendre rule; [pydisort p lg la jk = Ok out] says that the call with arguments [p]
    returned [out], [jk] being the contents of uninitialised memory. [modes_of p out U] says that
    the returned functions report the Fourier modes [U]; [seen p m] that mode [m] is visible in
    them. *)
From Coq Require Import String Reals Lra Lia List Bool Arith ZArith.
From Coquelicot Require Import Coquelicot.
From Verif Require Import Base Tensor Spec M_LinAlg Spec_RTE M_Subroutines M_GenPart M_Coeffs M_Assemble M_Pydisort Spec_Sol P_Valid
  P_Sub3 P_Pydisort2 P_Pydisort4 P_Pydisort5 P_Pydisort6 P_Pydisort7 P_Pydisort8 P_Scaled Examples Examples2 Examples3.
Import ListNotations.
Local Open Scope R_scope.

(** C26: downward intensity at the top. [some_source p]: there is a beam, an isotropic source or a
    positive boundary source (see C54 for the remaining case). *)
Theorem C26_top_boundary_condition :
  forall p lg la jk out, linalg_ok la -> leggauss_ok (half p) (lg (half p)) -> pydisort p lg la jk = Ok out ->
  forall U, modes_of p out U -> nonneg (p_bneg p) \/ some_source p ->
  forall v, bc_values (p_bneg p) (half p) v ->
  forall m i, seen p m -> (i < half p)%nat -> U m (half p + i)%nat 0 = if Nat.eqb m 0 then v i else 0.
Proof. exact (fun p lg la jk out Hla Hlg Hok U HU Hn v Hv => call_top p lg la jk out Hla Hlg Hok U HU v Hn Hv). Qed.
Print Assumptions C26_top_boundary_condition.
Example C26_nonvacuous jk : exists out U, linalg_ok (la_ex []) /\ leggauss_ok (half p1) (lg_12 (half p1)) /\
  pydisort p1 lg_12 (la_ex []) jk = Ok out /\ modes_of p1 out U /\ nonneg (p_bneg p1) /\ bc_values (p_bneg p1) (half p1) (fun _ => 1).
Proof. destruct (p1_facts jk) as (out & U & H). exists out, U. tauto. Qed.

(** C27: upward intensity at the bottom. *)
Theorem C27_bottom_boundary_condition :
  forall p lg la jk out, linalg_ok la -> leggauss_ok (half p) (lg (half p)) -> pydisort p lg la jk = Ok out ->
  forall U, modes_of p out U -> nonneg (p_bpos p) \/ some_source p ->
  exists w, double_gauss (half p) (po_mu out) w /\
  forall v rho, bc_values (p_bpos p) (half p) v ->
  (forall m, (m < length (p_BDRF p))%nat -> mode_is (nth m (p_BDRF p) (MScal 0)) (rho m)) ->
  forall m i, seen p m -> (i < half p)%nat ->
  U m i (bottom p) = (if Nat.eqb m 0 then v i else 0) +
    (if Nat.ltb m (length (p_BDRF p)) then
       (if Nat.eqb m 0 then 2 else 1)
         * rsum (half p) (fun j => rho m (nth i (po_mu out) 0) (nth j (po_mu out) 0) * nth j (po_mu out) 0 * w j * U m (half p + j)%nat (bottom p))
       + p_mu0 p * p_I0 p / PI * rho m (nth i (po_mu out) 0) (p_mu0 p) * exp (- depth_s p (nlayers p - 1) (bottom p) / p_mu0 p)
     else 0).
Proof. exact call_bottom. Qed.
Print Assumptions C27_bottom_boundary_condition.
Example C27_nonvacuous jk : exists out U, linalg_ok (la_ex []) /\ leggauss_ok (half p1) (lg_12 (half p1)) /\
  pydisort p1 lg_12 (la_ex []) jk = Ok out /\ modes_of p1 out U /\ nonneg (p_bpos p1) /\ bc_values (p_bpos p1) (half p1) (fun _ => 1) /\
  (forall m, (m < length (p_BDRF p1))%nat -> mode_is (nth m (p_BDRF p1) (MScal 0)) (fun _ _ => 1 / 2)).
Proof. destruct (p1_facts jk) as (out & U & H). exists out, U. tauto. Qed.

(** C28: the modes computed from the layer above and from the layer below meet at every interior
    boundary [x]; the modes are continuous over the whole atmosphere. *)
Theorem C28_continuity :
  forall p lg la jk out, linalg_ok la -> leggauss_ok (half p) (lg (half p)) -> pydisort p lg la jk = Ok out ->
  forall U, modes_of p out U -> forall m i, seen p m -> (i < streams p)%nat -> cont_on 0 (bottom p) (U m i).
Proof. exact call_continuous. Qed.
Print Assumptions C28_continuity.
Theorem C28_interfaces :
  forall p lg la jk out, linalg_ok la -> leggauss_ok (half p) (lg (half p)) -> pydisort p lg la jk = Ok out ->
  forall U, modes_of p out U -> forall m i l, seen p m -> (i < streams p)%nat -> (S l < nlayers p)%nat ->
  let x := bot_of p l in
  is_lim (U m i) x (U m i x) /\
  exists above below : R -> R,
    (forall t, top_of p l < t <= x -> U m i t = above t) /\ (forall t, x < t <= bot_of p (S l) -> U m i t = below t) /\
    (exists d, is_derive above x d) /\ (exists d, is_derive below x d) /\ above x = below x.
Proof. exact call_interfaces. Qed.
Print Assumptions C28_interfaces.
Example C28_nonvacuous banded jk : (3 <= banded)%Z ->
  exists out U, linalg_ok (la_ex (cand_exn [1; 2; 4] (1 / 2))) /\ leggauss_ok (half (p3 banded)) (lg_12 (half (p3 banded))) /\
  pydisort (p3 banded) lg_12 (la_ex (cand_exn [1; 2; 4] (1 / 2))) jk = Ok out /\ modes_of (p3 banded) out U /\
  nlayers (p3 banded) = 3%nat /\ seen (p3 banded) 0.
Proof. apply p3_facts. Qed.

(** C29: discretised transfer equation inside every layer. [is_cutoff] describes the coefficients
    after the documented cut-off: a mode whose products omega/2 * coefficient are all at most 1e-8
    is treated as non-scattering. *)
Theorem C29_transfer_equation :
  forall p lg la jk out, linalg_ok la -> leggauss_ok (half p) (lg (half p)) -> pydisort p lg la jk = Ok out ->
  forall U, modes_of p out U ->
  exists w, double_gauss (half p) (po_mu out) w /\
  forall m l i wg t, seen p m -> (l < nlayers p)%nat -> (i < streams p)%nat -> top_of p l < t < bot_of p l ->
    is_cutoff (albedo_s p l) (wphase_s p l) (ncoeffs p) m wg ->
    is_derive (U m i) t (rte p (po_mu out) w wg m l i t (fun j => U m j t) / nth i (po_mu out) 0).
Proof. exact call_rte. Qed.
Print Assumptions C29_transfer_equation.
(** C26-C29 together: some modes with all these properties exist for every successful call. *)
Theorem C29_solution_exists :
  forall p lg la jk out, linalg_ok la -> leggauss_ok (half p) (lg (half p)) -> pydisort p lg la jk = Ok out ->
  exists U, modes_of p out U.
Proof. exact modes_exist. Qed.
Print Assumptions C29_solution_exists.
Theorem C29_modes_unique :
  forall p lg la jk out, pydisort p lg la jk = Ok out ->
  forall U V, modes_of p out U -> modes_of p out V ->
  forall m i t, seen p m -> (i < streams p)%nat -> 0 <= t <= bottom p -> U m i t = V m i t.
Proof. exact (fun p lg la jk out Hok U V HU HV m i t Hm => modes_unique p lg la jk out Hok U V HU HV m i t (proj1 Hm) (proj2 Hm)). Qed.
Print Assumptions C29_modes_unique.
Example C29_nonvacuous jk : exists out U, linalg_ok (la_ex []) /\ leggauss_ok (half p1) (lg_12 (half p1)) /\
  pydisort p1 lg_12 (la_ex []) jk = Ok out /\ modes_of p1 out U /\ seen p1 1.
Proof.
  destruct (p1_facts jk) as (out & U & H1 & H2 & H3 & H4 & _ & _ & _ & H5 & H6 & _). exists out, U.
  repeat (split; [assumption|]). split; [rewrite H6; lia|]. right. exact H5.
Qed.

(** C30: no exponential of an eigenvalue exceeds 1, neither when the solution is evaluated
    ([exponent]) nor in the matrix of boundary conditions. *)
Theorem C30_no_growing_exponentials :
  forall p lg la jk out, linalg_ok la -> leggauss_ok (half p) (lg (half p)) -> pydisort p lg la jk = Ok out ->
  exists ss r o sv, scaled_s p = Ok ss /\ rescale p ss = Ok r /\
    let a := assemble_args p lg r ss in let g := sc_of a o in
    gen_and_part_sols (gp_of a) la (j_G jk) (j_K jk) (j_A jk) (j_X jk) (j_Gi jk) = Ok o /\
    solve_all a la jk = Ok sv /\
    po_u0 out = cl_u0 a sv /\ po_flux_up out = cl_flux_up a sv /\ po_flux_down out = cl_flux_down a sv /\
    (forall m k t, (m < nmodes p)%nat -> (k < streams p)%nat -> 0 <= t <= bottom p -> exponent a sv m k t <= 0) /\
    (forall m j, (m < nmodes p)%nat -> (j < half p)%nat ->
       E_01 g m j <= 1 /\ E_L g m j <= 1 /\
       forall l, (S l < nlayers p)%nat -> E_lm1l g m l j <= 1 /\ E_llp1 g m l j <= 1).
Proof. exact call_exponents. Qed.
Print Assumptions C30_no_growing_exponentials.
Example C30_nonvacuous jk : exists out, linalg_ok (la_ex (cand_exn [1; 2; 4] (1 / 2))) /\ leggauss_ok (half (p3 3)) (lg_12 (half (p3 3))) /\
  pydisort (p3 3) lg_12 (la_ex (cand_exn [1; 2; 4] (1 / 2))) jk = Ok out.
Proof. destruct (p3_facts 3 jk ltac:(lia)) as (out & U & H). exists out. tauto. Qed.

(** C31: layer lookup. *)
Theorem C31_layer_lookup :
  forall p lg la jk out, leggauss_ok (half p) (lg (half p)) -> pydisort p lg la jk = Ok out ->
  exists ss r, scaled_s p = Ok ss /\ rescale p ss = Ok r /\
    let a := assemble_args p lg r ss in
    forall t, 0 <= t <= bottom p ->
      (exists l, layer_at p t l) /\ (forall l, layer_of a t = l <-> layer_at p t l) /\ scaled_of a t = sdepth p t.
Proof. exact call_layer_of. Qed.
Print Assumptions C31_layer_lookup.
Example C31_nonvacuous jk : exists out, pydisort (p3 10) lg_12 (la_ex (cand_exn [1; 2; 4] (1 / 2))) jk = Ok out /\
  leggauss_ok (half (p3 10)) (lg_12 (half (p3 10))) /\ layer_at (p3 10) 0 0 /\ layer_at (p3 10) 1 0 /\ layer_at (p3 10) (3 / 2) 1.
Proof.
  destruct (p3_facts 10 jk ltac:(lia)) as (out & U & H). exists out. split; [tauto|]. split; [tauto|].
  unfold layer_at, top_of, bot_of, nlayers. cbn. repeat split; try lia; try (right; split; [reflexivity|lra]); left; lra.
Qed.

(** C32: the scaled optical depth [D] that the returned functions compute. It is 0 at the top, continuous and strictly
    increasing, is the scaled boundary at the bottom of each layer, and is the depth itself if nothing is scaled. *)
Theorem C32_scaled_depth :
  forall p lg la jk out, leggauss_ok (half p) (lg (half p)) -> pydisort p lg la jk = Ok out ->
  exists ss r, scaled_s p = Ok ss /\ rescale p ss = Ok r /\
  let D := scaled_of (assemble_args p lg r ss) in
  D 0 = 0 /\ cont_on 0 (bottom p) D /\
  (forall x y, 0 <= x -> x < y -> y <= bottom p -> D x < D y) /\
  (forall l, (l < nlayers p)%nat ->
     D (bot_of p l) = scaled_tau0 p (S l) /\
     D (bot_of p l) = rsum (S l) (fun k => (1 - albedo p k * fwd p k) * (bot_of p k - top_of p k)) /\
     forall t, top_of p l <= t <= bot_of p l -> D t = D (top_of p l) + (1 - albedo p l * fwd p l) * (t - top_of p l)) /\
  ((forall l, (l < nlayers p)%nat -> albedo p l * fwd p l = 0) -> forall t, 0 <= t <= bottom p -> D t = t).
Proof. exact call_scaled_of. Qed.
Print Assumptions C32_scaled_depth.
Example C32_nonvacuous jk : exists out, leggauss_ok (half p1) (lg_12 (half p1)) /\ pydisort p1 lg_12 (la_ex []) jk = Ok out /\ albedo p1 0 * fwd p1 0 = 1 / 5.
Proof. destruct (p1_ok jk) as (out & H). exists out. split; [exact lg_12_ok1|]. split; [exact H|]. unfold albedo, fwd. cbn. lra. Qed.

(** C33: depths outside the atmosphere are rejected, all others are not. *)
Theorem C33_out_of_range_rejected :
  forall p lg la jk out, pydisort p lg la jk = Ok out ->
  forall tau anti ret_tau,
  (forall act, po_u0 out tau anti ret_tau act = Err (EValue tau_msg) <-> ~ depths_ok p tau) /\
  (po_flux_up out tau anti ret_tau = Err (EValue tau_msg) <-> ~ depths_ok p tau) /\
  (po_flux_down out tau anti ret_tau = Err (EValue tau_msg) <-> ~ depths_ok p tau) /\
  (forall u phi ret_err, po_u out = Some u -> (u tau phi anti ret_err ret_tau = Err (EValue tau_msg) <-> ~ depths_ok p tau)).
Proof. exact call_reject. Qed.
Print Assumptions C33_out_of_range_rejected.
Example C33_nonvacuous jk : exists out, pydisort p1 lg_12 (la_ex []) jk = Ok out /\ depths_ok p1 [0; 5 / 4] /\ ~ depths_ok p1 [1; 3 / 2].
Proof.
  destruct (p1_ok jk) as (out & H). exists out. split; [exact H|]. unfold depths_ok, bottom. cbn. split.
  - intros t [<-|[<-|[]]]; lra.
  - intros A. specialize (A (3 / 2) ltac:(auto)). lra.
Qed.

(** C34: what is known of the arguments once pydisort has returned. *)
Theorem C34_validation_sound :
  forall p lg la jk out, pydisort p lg la jk = Ok out ->
  let NLeg := match p_NLeg p with None => p_NQuad p | Some n => n end in
  let NFou := if p_only_flux p then 1%Z else match p_NFourier p with None => p_NQuad p | Some n => n end in
  (1 <= length (p_tau p))%nat /\
  (forall t, In t (p_tau p) -> 0 < t) /\ (forall i j, (i < j < length (p_tau p))%nat -> nth i (p_tau p) 0 < nth j (p_tau p) 0) /\
  (forall w, In w (p_omega p) -> 0 <= w < 1) /\
  (2 <= p_NQuad p)%Z /\ (p_NQuad p mod 2 = 0)%Z /\
  (0 < NFou)%Z /\ (NFou <= NLeg)%Z /\ (NLeg <= p_NQuad p)%Z /\ (NLeg <= Z.of_nat (ncol (p_Leg p)))%Z /\
  nrow (p_Leg p) = length (p_tau p) /\ length (p_omega p) = length (p_tau p) /\
  ((exists f, In f (p_f p) /\ f <> 0) -> length (p_f p) = length (p_tau p)) /\
  ((exists i j, (i < nrow (p_s p))%nat /\ (j < ncol (p_s p))%nat /\ at2 (p_s p) i j <> 0) -> nrow (p_s p) = length (p_tau p)) /\
  (forall l k, (l < length (p_tau p))%nat -> (1 <= k < ncol (p_Leg p))%nat -> -1 < at2 (p_Leg p) l k < 1) /\
  (forall f, In f (p_f p) -> 0 <= f <= 1) /\
  0 <= p_I0 p /\ (0 < p_I0 p -> 0 < p_mu0 p <= 1 /\ 0 <= p_phi0 p < 2 * PI) /\
  (3 <= p_banded p)%Z.
Proof. exact accepted_sound. Qed.
Print Assumptions C34_validation_sound.
(** The checks accept nothing less and reject nothing else ([valid] is this list with the accepted
    shapes of the boundary sources). *)
Theorem C34_validation_exact : forall p, validate p = Ok tt <-> valid p.
Proof. exact validate_iff. Qed.
Print Assumptions C34_validation_exact.
Example C34_nonvacuous jk : exists out, pydisort p1 lg_12 (la_ex []) jk = Ok out.
Proof. exact (p1_ok jk). Qed.

(** C35: delta-M scaling, with the values of the scaled thickness, albedo and phase function. The scaled phase function
    matters only where there is scattering. *)
Theorem C35_delta_M :
  forall p lg la jk out, pydisort p lg la jk = Ok out ->
  exists ss, scaled_s p = Ok ss /\ scaled_tau0 p 0 = 0 /\
  forall l, (l < nlayers p)%nat ->
    scaled_tau0 p l < scaled_tau0 p (S l) /\
    scaled_tau0 p (S l) - scaled_tau0 p l = (1 - albedo p l * fwd p l) * (bot_of p l - top_of p l) /\
    0 <= scaled_omega p l < 1 /\
    scaled_omega p l * (1 - albedo p l * fwd p l) = (1 - fwd p l) * albedo p l /\
    (1 - scaled_omega p l) * (scaled_tau0 p (S l) - scaled_tau0 p l) = (1 - albedo p l) * (bot_of p l - top_of p l) /\
    (fwd p l < 1 -> albedo p l <> 0 -> scaled_Leg p l 0 = 1) /\
    (fwd p l < 1 -> albedo p l <> 0 -> forall k, weighted_scaled_Leg p l k = (2 * INR k + 1) * scaled_Leg p l k /\ scaled_Leg p l k * (1 - fwd p l) = phase p l k - fwd p l) /\
    (has_iso p = true -> forall t,
       scale_tau p l * rsum (e_Ns p) (fun j => ss l j * (scaled_tau0 p l + scale_tau p l * (t - top_of p l)) ^ j)
       = (1 - albedo p l) * source p l t).
Proof. exact call_scaling. Qed.
Print Assumptions C35_delta_M.
Example C35_nonvacuous jk : exists out, pydisort p1 lg_12 (la_ex []) jk = Ok out /\ fwd p1 0 = 1 / 4 /\ albedo p1 0 = 4 / 5 /\ has_iso p1 = true.
Proof.
  destruct (p1_ok jk) as (out & H). exists out. split; [exact H|]. split; [reflexivity|]. split; [reflexivity|].
  apply has_iso_iff. exists 0%nat, 0%nat. cbn. repeat split; try lia; lra.
Qed.

(** C36: without forward scattering the shortcut gives what the general formulas give. *)
Theorem C36_unit_scaling :
  forall p lg la jk out, pydisort p lg la jk = Ok out -> (forall f, In f (p_f p) -> ~ 0 < f) ->
  forall l, (l < nlayers p)%nat ->
    scale_tau p l = 1 - albedo p l * fwd p l /\
    scaled_tau0 p (S l) = rsum (S l) (fun k => (1 - albedo p k * fwd p k) * (bot_of p k - top_of p k)) /\
    (forall k, scaled_Leg p l k = (Leg_all p l k - fwd p l) / (1 - fwd p l)) /\
    scaled_omega p l = (1 - fwd p l) / (1 - albedo p l * fwd p l) * albedo p l /\
    (forall ss, has_iso p = true -> scaled_s p = Ok ss ->
       exists rows, affine_transform_poly_coeffs (ncol (p_s p)) (map (s_row p) (seq 0 (nlayers p)))
           (map (fun k => 1 - albedo p k * fwd p k) (seq 0 (nlayers p)))
           (map (fun k => rsum k (fun r => (1 - albedo p r * fwd p r) * (bot_of p r - top_of p r)) - (1 - albedo p k * fwd p k) * top_of p k) (seq 0 (nlayers p))) = Ok rows /\
         forall j, (j < ncol (p_s p))%nat -> ss l j = nth j (nth l rows []) 0 / (1 - albedo p l * fwd p l) * (1 - albedo p l)).
Proof. exact (fun p lg la jk out Hok => scaling_shortcut p (call_valid p lg la jk out Hok)). Qed.
Print Assumptions C36_unit_scaling.
Example C36_nonvacuous jk : exists out, pydisort (p3 3) lg_12 (la_ex (cand_exn [1; 2; 4] (1 / 2))) jk = Ok out /\ (forall f, In f (p_f (p3 3)) -> ~ 0 < f).
Proof. destruct (p3_ok 3 jk ltac:(lia)) as (out & H). exists out. split; [exact H|]. intros f [<-|[]]. lra. Qed.

(** C40: fluxes are quadrature moments of the zeroth mode. *)
Theorem C40_fluxes :
  forall p lg la jk out, linalg_ok la -> leggauss_ok (half p) (lg (half p)) -> pydisort p lg la jk = Ok out ->
  forall U, modes_of p out U ->
  exists w, double_gauss (half p) (po_mu out) w /\
    reports p (po_flux_up out) (fun t => 2 * PI * rsum (half p) (fun i => w i * nth i (po_mu out) 0 * U 0%nat i t)) /\
    reports_down p (po_flux_down out)
      (fun t => 2 * PI * rsum (half p) (fun i => w i * nth i (po_mu out) 0 * U 0%nat (half p + i)%nat t)
                + p_mu0 p * p_I0 p * exp (- sdepth p t / p_mu0 p) - direct p t)
      (direct p).
Proof. exact call_fluxes. Qed.
Print Assumptions C40_fluxes.
Example C40_nonvacuous jk : exists out U, linalg_ok (la_ex []) /\ leggauss_ok (half p1) (lg_12 (half p1)) /\
  pydisort p1 lg_12 (la_ex []) jk = Ok out /\ modes_of p1 out U /\ 0 < p_I0 p1.
Proof. destruct (p1_facts jk) as (out & U & H). exists out, U. repeat (split; [tauto|]). cbn. lra. Qed.

(** C41: azimuth, when the corrections for the truncated phase function do not take part. *)
Theorem C41_azimuth_partial :
  forall p lg la jk out, pydisort p lg la jk = Ok out -> forall U, modes_of p out U ->
  forall u, po_u out = Some u -> ~ nt_applies p ->
  exists g : R -> nat -> R -> R,
    (forall tau phi, depths_ok p tau -> exists A, u tau phi false false false = Ok (PVal (PT A)) /\
       squeezed A [streams p; length tau; length phi] (fun idx =>
         g (nth (nth 1 idx 0%nat) tau 0) (nth 0 idx 0%nat) (nth (nth 2 idx 0%nat) phi 0))) /\
    (forall t i x, g t i (x + 2 * PI) = g t i x) /\
    (forall t i x, g t i (p_phi0 p + x) = g t i (p_phi0 p - x)) /\
    (forall t i, is_RInt (g t i) 0 (2 * PI) (2 * PI * U 0%nat i t)).
Proof. exact call_azimuth. Qed.
Print Assumptions C41_azimuth_partial.
Example C41_nonvacuous jk : exists out U u, pydisort p1 lg_12 (la_ex []) jk = Ok out /\ modes_of p1 out U /\ po_u out = Some u /\ ~ nt_applies p1.
Proof. destruct (p1_facts jk) as (out & U & H1 & H2 & H3 & H4 & (u & H5) & H6). exists out, U, u. tauto. Qed.

(** C44: energy balance; the divergence of the net flux is absorption minus emission. The
    hypothesis on the scaled albedo excludes the cut-off (see C29), where scattering is dropped. *)
Theorem C44_energy_balance :
  forall p lg la jk out, linalg_ok la -> leggauss_ok (half p) (lg (half p)) -> pydisort p lg la jk = Ok out ->
  forall U, modes_of p out U ->
  exists w up dn, double_gauss (half p) (po_mu out) w /\
    reports p (po_flux_up out) up /\ reports_down p (po_flux_down out) dn (direct p) /\
    forall l t, (l < nlayers p)%nat -> top_of p l < t < bot_of p l -> (albedo_s p l = 0 \/ 2 / 100000000 < albedo_s p l) ->
      is_derive (fun x => up x - (dn x + direct p x)) t
        ((1 - albedo p l) * (2 * PI * rsum (streams p) (fun i => wnode (half p) w i * U 0%nat i t)
                             + p_I0 p * exp (- sdepth p t / p_mu0 p) - 4 * PI * source p l t)).
Proof. exact call_energy. Qed.
Print Assumptions C44_energy_balance.
Example C44_nonvacuous jk : exists out U, linalg_ok (la_ex []) /\ leggauss_ok (half p1) (lg_12 (half p1)) /\
  pydisort p1 lg_12 (la_ex []) jk = Ok out /\ modes_of p1 out U /\ 2 / 100000000 < albedo_s p1 0.
Proof.
  destruct (p1_facts jk) as (out & U & H). exists out, U. repeat (split; [tauto|]).
  unfold albedo_s, scl, albedo, fwd. cbn. lra.
Qed.

(** C52: direct beam flux. *)
Theorem C52_direct_flux_partial :
  forall p lg la jk out, linalg_ok la -> leggauss_ok (half p) (lg (half p)) -> pydisort p lg la jk = Ok out ->
  forall tau, depths_ok p tau -> 0 < p_I0 p ->
  exists A B, po_flux_down out tau false false = Ok (PTup [PT A; PT B]) /\
    squeezed B [length tau] (fun idx => p_I0 p * p_mu0 p * exp (- nth (nth 0 idx 0%nat) tau 0 / p_mu0 p)).
Proof. exact call_direct. Qed.
Print Assumptions C52_direct_flux_partial.
(** Without a beam the direct flux is one number whatever the number of depths. *)
Theorem C52_direct_flux_shape_refuted : forall jk, exists p lg la out tau A B,
  linalg_ok la /\ leggauss_ok (half p) (lg (half p)) /\ pydisort p lg la jk = Ok out /\ depths_ok p tau /\ length tau = 2%nat /\
  po_flux_down out tau false false = Ok (PTup [PT A; PT B]) /\ shp B = [].
Proof. exact direct_scalar. Qed.
Print Assumptions C52_direct_flux_shape_refuted.
Example C52_nonvacuous jk : exists out, linalg_ok (la_ex []) /\ leggauss_ok (half p1) (lg_12 (half p1)) /\
  pydisort p1 lg_12 (la_ex []) jk = Ok out /\ depths_ok p1 [0; 1] /\ 0 < p_I0 p1.
Proof.
  destruct (p1_facts jk) as (out & U & H). exists out. repeat (split; [tauto|]). split; [|cbn; lra].
  unfold depths_ok, bottom. cbn. intros t [<-|[<-|[]]]; lra.
Qed.
