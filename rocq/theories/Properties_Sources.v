(** Properties of pydisort that concern the sources, the boundary values and the failure of calls.

    [valid p] (Spec_Valid.v) says that the checks of pydisort accept [p]. [modes_of p out U]
    (Spec_Sol.v) says that the returned functions report the Fourier modes [U]; [times_sources c p]
    multiplies all sources by [c] and [scaled_outputs c out out'] says that every returned function
    of [out'] gives [c] times what that of [out] gives (Spec_Calls.v). *)
From Coq Require Import String Reals Lra Lia List Bool Arith ZArith.
From Verif Require Import Base Tensor Spec M_LinAlg Spec_RTE M_Subroutines M_GenPart M_Coeffs M_Assemble M_Pydisort Spec_Sol Spec_Valid Spec_Calls
  P_Sub3 P_Pydisort P_Pydisort2 P_Pydisort4 P_Scale P_Actinic P_Absorb P_Refute P_Error Examples Examples2 Examples3.
Import ListNotations.
Local Open Scope R_scope.

(** C37: some accepted inputs divide by zero: no finite solver result or no finite intensity exists. *)
Theorem C37_no_division_by_zero_refuted :
  exists p, valid p /\ forall lg la jk, pydisort p lg la jk = Err ENonFinite.
Proof. exact (ex_intro _ p_div0 (conj p_div0_valid rescale_divides_by_zero)). Qed.
Print Assumptions C37_no_division_by_zero_refuted.
Theorem C37_corrections_divide_by_zero_refuted :
  forall jk, exists p lg la out u, linalg_ok la /\ leggauss_ok (half p) (lg (half p)) /\ pydisort p lg la jk = Ok out /\
  po_u out = Some u /\ forall t phi, 0 <= t <= bottom p -> u [t] phi false false false = Err ENonFinite.
Proof. exact nt_division_refuted. Qed.
Print Assumptions C37_corrections_divide_by_zero_refuted.
(** Every layer with forward fraction 1 is concerned. *)
Theorem C37_corrections_divide_by_zero_everywhere_refuted :
  forall p lg la jk out, linalg_ok la -> leggauss_ok (half p) (lg (half p)) -> pydisort p lg la jk = Ok out ->
  forall u tau phi t, nt_applies p -> po_u out = Some u -> depths_ok p tau -> In t tau -> fwd p (lay p t) = 1 ->
  u tau phi false false false = Err ENonFinite.
Proof. exact nt_divides_by_zero. Qed.
Print Assumptions C37_corrections_divide_by_zero_everywhere_refuted.
(** The preparation of the scaled optical properties and sources divides by non-zero numbers only, if a beam or a
    positive boundary value goes with an isotropic source. Missing: the averages of the NT corrections. *)
Theorem C37_preparation_partial :
  forall p, valid p ->
  (~ has_source p -> nrow (p_s p) = 1%nat \/ nrow (p_s p) = nlayers p) ->
  (has_source p -> 0 < p_I0 p \/ positive_entry (p_bpos p) \/ positive_entry (p_bneg p)) ->
  (forall l, (l < nlayers p)%nat -> 0 < 1 - albedo p l * fwd p l) /\
  exists ss r, scaled_s p = Ok ss /\ rescale p ss = Ok r /\ divisor r <> 0.
Proof. exact prep_facts. Qed.
Print Assumptions C37_preparation_partial.
Example C37_nonvacuous : valid p1 /\ 0 < p_I0 p1 /\ nrow (p_s p1) = nlayers p1.
Proof. destruct (p1_ok junk0) as (out & H). split; [exact (call_valid _ _ _ _ _ H)|]. cbn. split; [lra|reflexivity]. Qed.

(** C38: all outputs are multiplied by the factor that multiplies all sources. *)
Theorem C38_outputs_scale_with_sources :
  forall c p, 0 < c -> (nonneg (p_bpos p) /\ nonneg (p_bneg p)) \/ some_source p ->
  forall lg la jk,
  match pydisort p lg la jk, pydisort (times_sources c p) lg la jk with
  | Ok out, Ok out' => scaled_outputs c out out'
  | Err e, Err e' => e = e'
  | _, _ => False
  end.
Proof. exact sources_scale. Qed.
Print Assumptions C38_outputs_scale_with_sources.
Example C38_nonvacuous jk : 0 < 2 /\ nonneg (p_bpos p1) /\ nonneg (p_bneg p1) /\
  exists out out', pydisort p1 lg_12 (la_ex []) jk = Ok out /\ pydisort (times_sources 2 p1) lg_12 (la_ex []) jk = Ok out'.
Proof.
  assert (Hp : nonneg (p_bpos p1)) by (intros idx _; cbn; lra). assert (Hn : nonneg (p_bneg p1)) by (intros idx _; cbn; lra).
  split; [lra|]. split; [exact Hp|]. split; [exact Hn|]. destruct (p1_ok jk) as (out & H). exists out.
  pose proof (sources_scale 2 p1 ltac:(lra) (or_introl (conj Hp Hn)) lg_12 (la_ex []) jk) as HS. rewrite H in HS.
  destruct (pydisort (times_sources 2 p1) lg_12 (la_ex []) jk) as [out'|]; [|destruct HS]. eauto.
Qed.

(** C39: the downward diffuse actinic flux contains the reclassified beam with a factor [k] that
    is not I0 and does not scale. *)
Theorem C39_actinic_down_refuted :
  forall jk, exists p lg la out U, linalg_ok la /\ leggauss_ok (half p) (lg (half p)) /\ pydisort p lg la jk = Ok out /\
  modes_of p out U /\
  forall w, double_gauss (half p) (po_mu out) w ->
  ~ reports p (act_down lg (po_u0 out) (half p)) (fun t => 2 * PI * rsum (half p) (fun i => w i * U 0%nat (half p + i)%nat t)
        + p_I0 p * (exp (- sdepth p t / p_mu0 p) - exp (- t / p_mu0 p))).
Proof. exact actinic_down_wrong. Qed.
Print Assumptions C39_actinic_down_refuted.
Theorem C39_actinic_down_scaling_refuted :
  forall jk, exists p lg la out out' c, 0 < c /\ nonneg (p_bpos p) /\ nonneg (p_bneg p) /\
  linalg_ok la /\ leggauss_ok (half p) (lg (half p)) /\ pydisort p lg la jk = Ok out /\ pydisort (times_sources c p) lg la jk = Ok out' /\
  ~ exists f, reports p (act_down lg (po_u0 out) (half p)) f /\ reports p (act_down lg (po_u0 out') (half p)) (fun t => c * f t).
Proof. exact actinic_down_not_linear. Qed.
Print Assumptions C39_actinic_down_scaling_refuted.
(** What is returned: the upward flux as documented, the downward flux with [k] in place of I0.
    Missing: [k] = I0, which fails. *)
Theorem C39_actinic_fluxes_partial :
  forall p lg la jk out, linalg_ok la -> leggauss_ok (half p) (lg (half p)) -> pydisort p lg la jk = Ok out ->
  exists w k, double_gauss (half p) (po_mu out) w /\ 0 <= k <= 1 /\ (p_I0 p = 0 -> k = 0) /\
    (0 < p_I0 p -> ~ has_source p -> (forall b idx, b = p_bpos p \/ b = p_bneg p -> inb (shp b) idx -> elt b idx <= p_I0 p) -> k = 1) /\
    act_N (po_u0 out) = Ok (half p) /\
    forall U, modes_of p out U ->
    reports p (act_up lg (po_u0 out) (half p)) (fun t => 2 * PI * rsum (half p) (fun i => w i * U 0%nat i t)) /\
    (p_mu0 p <> 0 ->
     reports p (act_down lg (po_u0 out) (half p)) (fun t => 2 * PI * rsum (half p) (fun i => w i * U 0%nat (half p + i)%nat t)
        + k * (exp (- sdepth p t / p_mu0 p) - exp (- t / p_mu0 p)))).
Proof. exact call_actinic. Qed.
Print Assumptions C39_actinic_fluxes_partial.
Theorem C39_actinic_up_scales_partial :
  forall c p lg la jk out out', 0 < c -> (nonneg (p_bpos p) /\ nonneg (p_bneg p)) \/ some_source p ->
  linalg_ok la -> leggauss_ok (half p) (lg (half p)) -> pydisort p lg la jk = Ok out -> pydisort (times_sources c p) lg la jk = Ok out' ->
  exists f, reports p (act_up lg (po_u0 out) (half p)) f /\ reports p (act_up lg (po_u0 out') (half p)) (fun t => c * f t).
Proof. exact actinic_up_scales. Qed.
Print Assumptions C39_actinic_up_scales_partial.
Example C39_nonvacuous jk : exists out, linalg_ok (la_ex []) /\ leggauss_ok (half p_act) (lg_12 (half p_act)) /\
  pydisort p_act lg_12 (la_ex []) jk = Ok out /\ p_mu0 p_act <> 0 /\ exp (- sdepth p_act (5 / 4) / p_mu0 p_act) - exp (- (5 / 4) / p_mu0 p_act) <> 0.
Proof.
  destruct (p_act_ok jk) as (out & H). exists out. split; [apply la_ex_ok|]. split; [exact leggauss1_ok|]. split; [exact H|].
  split; [cbn; lra|exact p_act_gap].
Qed.

(** C45: a boundary source given as a matrix makes every call with four or more streams fail. *)
Theorem C45_matrix_boundary_refuted :
  forall p lg la jk b n, leggauss_ok (half p) (lg (half p)) -> (b = p_bpos p \/ b = p_bneg p) ->
  (2 <= half p)%nat -> shp b = [half p; n] -> (exists idx, inb (shp b) idx /\ elt b idx <> 0) ->
  forall out, pydisort p lg la jk <> Ok out.
Proof. exact matrix_boundary_fails. Qed.
Print Assumptions C45_matrix_boundary_refuted.
Example C45_refuted_nonvacuous : valid p_mat /\ shp (p_bneg p_mat) = [half p_mat; nmodes p_mat] /\ half p_mat = 2%nat /\ nmodes p_mat = 2%nat /\
  inb (shp (p_bneg p_mat)) [0; 0]%nat /\ elt (p_bneg p_mat) [0; 0]%nat <> 0.
Proof. split; [exact p_mat_valid|]. cbn. repeat split; auto; lra. Qed.
(** If a call with a matrix succeeds (two streams, or a zero matrix) its columns are the prescribed
    modes. Missing: success. *)
Theorem C45_matrix_boundary_partial :
  forall p lg la jk out, linalg_ok la -> leggauss_ok (half p) (lg (half p)) -> pydisort p lg la jk = Ok out ->
  forall U, modes_of p out U ->
  (shp (p_bneg p) = [half p; nmodes p] -> nonneg (p_bneg p) \/ some_source p ->
     forall m i, seen p m -> (i < half p)%nat -> U m (half p + i)%nat 0 = elt (p_bneg p) [i; m]) /\
  (shp (p_bpos p) = [half p; nmodes p] -> nonneg (p_bpos p) \/ some_source p -> p_BDRF p = [] ->
     forall m i, seen p m -> (i < half p)%nat -> U m i (bottom p) = elt (p_bpos p) [i; m]).
Proof. exact matrix_boundary. Qed.
Print Assumptions C45_matrix_boundary_partial.
Example C45_partial_nonvacuous jk : exists out, linalg_ok la_id /\ leggauss_ok (half p_mat1) (lg_12 (half p_mat1)) /\
  pydisort p_mat1 lg_12 la_id jk = Ok out /\ shp (p_bneg p_mat1) = [half p_mat1; nmodes p_mat1] /\ nonneg (p_bneg p_mat1) /\ elt (p_bneg p_mat1) [0; 0]%nat = 2.
Proof.
  destruct (p_mat1_ok jk) as (out & H). exists out. split; [exact la_id_ok|]. split; [exact leggauss1_ok|]. split; [exact H|].
  split; [reflexivity|]. split; [intros idx _; cbn; lra|reflexivity].
Qed.

(** C46: the first column of the caller's Leg_coeffs_all is overwritten. *)
Theorem C46_caller_array_refuted :
  forall jk, exists p lg la out, linalg_ok la /\ leggauss_ok (half p) (lg (half p)) /\ pydisort p lg la jk = Ok out /\
  at2 (p_Leg p) 0%nat 0%nat = 1/2 /\ at2 (po_Leg out) 0%nat 0%nat = 1.
Proof. exact leg_overwritten. Qed.
Print Assumptions C46_caller_array_refuted.
(** Nothing else of it changes, and nothing at all if it was normalised in every scattering layer. *)
Theorem C46_caller_array_partial :
  forall p lg la jk out, pydisort p lg la jk = Ok out ->
  nrow (po_Leg out) = nrow (p_Leg p) /\ ncol (po_Leg out) = ncol (p_Leg p) /\
  (forall l k, (1 <= k)%nat -> at2 (po_Leg out) l k = at2 (p_Leg p) l k) /\
  ((forall l, (l < nlayers p)%nat -> albedo p l = 0 \/ at2 (p_Leg p) l 0%nat = 1) -> po_Leg out = p_Leg p).
Proof. exact leg_unchanged. Qed.
Print Assumptions C46_caller_array_partial.
Example C46_nonvacuous jk : exists out, pydisort p1 lg_12 (la_ex []) jk = Ok out /\ albedo p1 0 <> 0 /\ at2 (p_Leg p1) 0%nat 0%nat = 1.
Proof. destruct (p1_ok jk) as (out & H). exists out. split; [exact H|]. unfold albedo. cbn. split; [lra|reflexivity]. Qed.

(** C47: with a beam and several layers the Fourier error cannot be computed unless the number of
    depths is 1 or the number of layers. *)
Theorem C47_fourier_error_refuted :
  forall p lg la jk out, linalg_ok la -> leggauss_ok (half p) (lg (half p)) -> pydisort p lg la jk = Ok out ->
  forall u tau phi rt, po_u out = Some u -> 0 < p_I0 p -> (2 <= nlayers p)%nat -> (2 <= length tau)%nat ->
  length tau <> nlayers p -> depths_ok p tau -> exists e, u tau phi false true rt = Err e.
Proof. exact fourier_error_fails. Qed.
Print Assumptions C47_fourier_error_refuted.
Example C47_refuted_nonvacuous jk : exists p lg la out u tau phi, linalg_ok la /\ leggauss_ok (half p) (lg (half p)) /\ pydisort p lg la jk = Ok out /\
  po_u out = Some u /\ depths_ok p tau /\ forall rt, exists e, u tau phi false true rt = Err e.
Proof. exact (fourier_error_refuted jk). Qed.
(** Without a beam the documented maximum is returned; ratios with |u| below a threshold count as 0.
    Missing: calls with a beam, and a single mode with an isotropic source. *)
Theorem C47_fourier_error_partial :
  forall p lg la jk out, linalg_ok la -> leggauss_ok (half p) (lg (half p)) -> pydisort p lg la jk = Ok out ->
  p_I0 p = 0 -> some_source p -> (~ has_source p \/ (2 <= nmodes p)%nat) ->
  forall u tau phi, po_u out = Some u -> depths_ok p tau -> tau <> [] -> phi <> [] ->
  exists U A e thr, modes_of p out U /\ 0 < thr /\
    u tau phi false true false = Ok (PTup [PT A; PR e]) /\
    let val i j k := rsum (nmodes p) (fun m => U m i (nth j tau 0) * cos (INR m * (p_phi0 p - nth k phi 0))) in
    let ratio i j k := if Rltb thr (Rabs (val i j k))
                       then Rabs (U (nmodes p - 1)%nat i (nth j tau 0) * cos (INR (nmodes p - 1) * (p_phi0 p - nth k phi 0))) / Rabs (val i j k)
                       else 0 in
    squeezed A [streams p; length tau; length phi] (fun idx => val (nth 0 idx 0%nat) (nth 1 idx 0%nat) (nth 2 idx 0%nat)) /\
    (forall i j k, (i < streams p)%nat -> (j < length tau)%nat -> (k < length phi)%nat -> ratio i j k <= e) /\
    (exists i j k, (i < streams p)%nat /\ (j < length tau)%nat /\ (k < length phi)%nat /\ ratio i j k = e).
Proof. exact fourier_error_value. Qed.
Print Assumptions C47_fourier_error_partial.
Example C47_partial_nonvacuous jk : exists out u, linalg_ok la_id /\ leggauss_ok (half p_dif) (lg_12 (half p_dif)) /\
  pydisort p_dif lg_12 la_id jk = Ok out /\ p_I0 p_dif = 0 /\ some_source p_dif /\ ~ has_source p_dif /\ nmodes p_dif = 2%nat /\
  po_u out = Some u /\ depths_ok p_dif [0; 1].
Proof.
  destruct (p_dif_ok jk) as (out & H). destruct (call_u p_dif lg_12 la_id jk out H eq_refl) as (u & Hu). exists out, u.
  split; [exact la_id_ok|]. split; [exact leggauss1_ok|]. split; [exact H|]. split; [reflexivity|]. split; [exact p_dif_source|]. split; [exact p_dif_nosource|].
  split; [reflexivity|]. split; [exact Hu|]. unfold depths_ok, bottom. cbn. intros t [<-|[<-|[]]]; lra.
Qed.

(** C54: boundary sources without a positive value, and no other source: all intensities are 0. *)
Theorem C54_negative_sources_refuted :
  forall jk, exists p lg la out v, linalg_ok la /\ leggauss_ok (half p) (lg (half p)) /\ pydisort p lg la jk = Ok out /\
  bc_values (p_bneg p) (half p) v /\ v 0%nat = -1 /\
  (forall U, modes_of p out U -> U 0%nat (half p) 0 = 0) /\ (exists U, modes_of p out U).
Proof. exact negative_source_lost. Qed.
Print Assumptions C54_negative_sources_refuted.
Theorem C54_negative_sources_zero_refuted :
  forall p lg la jk out, linalg_ok la -> leggauss_ok (half p) (lg (half p)) -> pydisort p lg la jk = Ok out ->
  ~ some_source p -> forall U, modes_of p out U -> forall m i t, seen p m -> (i < streams p)%nat -> 0 <= t <= bottom p -> U m i t = 0.
Proof. exact no_source_zero. Qed.
Print Assumptions C54_negative_sources_zero_refuted.
Example C54_refuted_nonvacuous jk : exists out, pydisort p_neg lg_12 la_id jk = Ok out /\ ~ some_source p_neg /\ elt (p_bneg p_neg) [] = -1.
Proof. destruct (p_neg_ok jk) as (out & H). exists out. split; [exact H|]. split; [exact p_neg_nosource|reflexivity]. Qed.
(** With any other source boundary values of either sign are met. Missing: the case above. *)
Theorem C54_negative_sources_partial :
  forall p lg la jk out, linalg_ok la -> leggauss_ok (half p) (lg (half p)) -> pydisort p lg la jk = Ok out ->
  forall U, modes_of p out U -> some_source p ->
  (forall v, bc_values (p_bneg p) (half p) v -> forall m i, seen p m -> (i < half p)%nat -> U m (half p + i)%nat 0 = if Nat.eqb m 0 then v i else 0) /\
  (p_BDRF p = [] -> forall v, bc_values (p_bpos p) (half p) v -> forall m i, seen p m -> (i < half p)%nat -> U m i (bottom p) = if Nat.eqb m 0 then v i else 0).
Proof. exact signed_boundary. Qed.
Print Assumptions C54_negative_sources_partial.
Example C54_partial_nonvacuous jk : exists out, linalg_ok la_id /\ leggauss_ok (half p_mix) (lg_12 (half p_mix)) /\
  pydisort p_mix lg_12 la_id jk = Ok out /\ some_source p_mix /\ p_BDRF p_mix = [] /\ bc_values (p_bpos p_mix) (half p_mix) (fun _ => -1).
Proof.
  destruct (p_mix_ok jk) as (out & H). exists out. split; [exact la_id_ok|]. split; [exact leggauss1_ok|]. split; [exact H|].
  split; [exact p_mix_source|]. split; [reflexivity|]. apply bc_scal; auto.
Qed.

(** C58: an atmosphere that does not scatter is always solved. *)
Theorem C58_absorbing_atmosphere_solved :
  forall p lg la jk, valid p -> leggauss_ok (half p) (lg (half p)) -> linalg_complete la ->
  (forall l, (l < nlayers p)%nat -> albedo p l = 0 \/ fwd p l = 1) ->
  (exists v, bc_values (p_bpos p) (half p) v) -> (exists v, bc_values (p_bneg p) (half p) v) ->
  (forall m, (m < length (p_BDRF p))%nat -> exists rho, mode_is (nth m (p_BDRF p) (MScal 0)) rho) ->
  (~ has_source p -> nrow (p_s p) = 1%nat \/ nrow (p_s p) = nlayers p) ->
  (has_source p -> 0 < p_I0 p \/ positive_entry (p_bpos p) \/ positive_entry (p_bneg p)) ->
  (p_NT p = true -> forall x, In x (fst (Gauss_Legendre_quad lg (half p) 0 1)) -> 1 / 100000000 <= Rabs (x - p_mu0 p)) ->
  exists out, pydisort p lg la jk = Ok out.
Proof. exact absorbing_ok. Qed.
Print Assumptions C58_absorbing_atmosphere_solved.
Example C58_nonvacuous : valid p_two /\ leggauss_ok (half p_two) (lg_12 (half p_two)) /\ linalg_complete la_id /\
  (forall l, (l < nlayers p_two)%nat -> albedo p_two l = 0) /\ bc_values (p_bpos p_two) (half p_two) (fun _ => 0) /\ nlayers p_two = 2%nat /\ 0 < p_I0 p_two.
Proof.
  destruct (p_two_ok junk0) as (out & H). split; [exact (call_valid _ _ _ _ _ H)|]. split; [exact leggauss1_ok|]. split; [apply la_id_complete|].
  split; [intros [|[|l]] Hl; cbn in *; try reflexivity; lia|]. split; [apply bc_scal; auto|]. split; [reflexivity|cbn; lra].
Qed.
