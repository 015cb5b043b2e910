(** Properties C65 and C66: which atmospheres are solved. *)
From Coq Require Import String Reals Lra Lia List Bool Arith ZArith.
From Coquelicot Require Import Coquelicot.
From Verif Require Import Base Tensor Spec M_LinAlg Spec_RTE M_Subroutines M_Assemble M_Pydisort Spec_Sol Spec_Valid Spec_Calls Spec_Unique Spec_Phys Spec_Solved
  P_Sub3 P_Pydisort2 P_Pydisort6 P_Pydisort8 P_Refine P_Spec6 P_Spec7 Examples Examples3 Examples5 Examples6.
Import ListNotations.
Local Open Scope R_scope.

(** C65: a physical atmosphere is solved exactly if its beam does not resonate. *)
Theorem C65_solved_iff_no_resonance :
  forall p rho lg la jk, physical_input p rho -> leggauss_ok (half p) (lg (half p)) -> linalg_ok la -> linalg_unique la -> linalg_complete la -> linalg_total la ->
  (exists out, pydisort p lg la jk = Ok out) <-> no_resonance p.
Proof. exact posed_iff. Qed.
Print Assumptions C65_solved_iff_no_resonance.
Example C65_nonvacuous : linalg_ok la_full /\ linalg_unique la_full /\ linalg_complete la_full /\ linalg_total la_full /\ leggauss_ok (half p_an) (lg_12 (half p_an)) /\
  physical_input p_an (fun _ _ _ => 1/2) /\ no_resonance p_an /\ nlayers p_an = 2%nat /\ nmodes p_an = 2%nat /\ (forall l, (l < 2)%nat -> 0 < wphase_s p_an l 1%nat) /\ has_source p_an /\
  physical_input p_res (fun _ _ _ => 1/2) /\ ~ no_resonance p_res.
Proof.
  split; [exact la_full_ok|]. split; [exact la_full_unique|]. split; [exact la_full_complete|]. split; [exact la_full_total|]. split; [exact lg_12_ok1|].
  split; [exact an_input|]. split; [exact an_free|]. split; [reflexivity|]. split; [reflexivity|]. split.
  - intros [|[|l]] Hl; [| |lia]; unfold wphase_s, phase_s, fwd, phase; cbn; lra.
  - split; [|split; [exact res_input|exact res_not_free]]. exists 1%nat, 0%nat. cbn. repeat split; try lia. lra.
Qed.

(** C65: without a beam every physical atmosphere is solved. *)
Theorem C65_no_beam :
  forall p rho lg la jk, physical_input p rho -> p_I0 p = 0 -> leggauss_ok (half p) (lg (half p)) -> linalg_ok la -> linalg_complete la -> linalg_total la ->
  exists out, pydisort p lg la jk = Ok out.
Proof. exact posed_no_beam. Qed.
Print Assumptions C65_no_beam.
Example C65_no_beam_nonvacuous : linalg_ok la_full /\ linalg_complete la_full /\ linalg_total la_full /\ leggauss_ok (half p_dif) (lg_12 (half p_dif)) /\
  physical_input p_dif (fun _ _ _ => 1/2) /\ p_I0 p_dif = 0 /\ (forall l, (l < nlayers p_dif)%nat -> 0 < albedo_s p_dif l).
Proof.
  split; [exact la_full_ok|]. split; [exact la_full_complete|]. split; [exact la_full_total|]. split; [exact lg_12_ok1|]. split; [exact dif_input|]. split; [reflexivity|].
  intros [|[|l]] Hl; cbn in Hl; try lia; unfold albedo_s, scl, albedo, fwd; cbn; lra.
Qed.

(** C65: no layer resonates with a beam whose cosine is far enough from every node: the relative
    distance exceeds the layer's (scaled) single-scattering albedo. *)
Theorem C65_far_from_nodes :
  forall p mu w rho l, valid p -> double_gauss (half p) mu w -> physical p mu w rho -> 0 < p_mu0 p -> (l < nlayers p)%nat ->
  (forall i, (i < half p)%nat -> albedo_s p l < Rabs (1 - nth i mu 0 / p_mu0 p)) -> forall m, ~ resonant p mu w m l.
Proof. exact far_free. Qed.
Print Assumptions C65_far_from_nodes.
Example C65_far_nonvacuous : exists mu w, valid p_an /\ double_gauss (half p_an) mu w /\ physical p_an mu w (fun _ _ _ => 1/2) /\ 0 < p_mu0 p_an /\
  (forall l i, (l < nlayers p_an)%nat -> (i < half p_an)%nat -> albedo_s p_an l < Rabs (1 - nth i mu 0 / p_mu0 p_an)).
Proof.
  pose proof (mu_arr_gauss p_an lg_12 lg_12_ok1) as HD. exists (mu_arr p_an lg_12), (quad_W p_an lg_12). split; [exact an_valid|]. split; [exact HD|].
  split; [exact (an_physical _ _ HD)|]. split; [cbn; lra|]. intros l i Hl Hi. exact (an_far _ _ l i HD Hl Hi).
Qed.

(** C65: a resonating beam is met in practice: an isotropic layer with scaled albedo 3/4 under an
    overhead sun, two streams. *)
Theorem C65_overhead_sun_unsolved :
  exists p rho, physical_input p rho /\ p_mu0 p = 1 /\ nlayers p = 1%nat /\ p_NQuad p = 2%Z /\
  forall lg la jk out, leggauss_ok (half p) (lg (half p)) -> linalg_ok la -> linalg_unique la -> pydisort p lg la jk <> Ok out.
Proof. exists p_res, (fun _ _ _ => 1/2). split; [exact res_input|]. do 3 (split; [reflexivity|]). exact res_unsolved. Qed.
Print Assumptions C65_overhead_sun_unsolved.

(** C66: for a physical atmosphere the reported modes are the only solutions of the transfer
    equation, whatever the linear algebra does with singular systems. *)
Theorem C66_only_solution :
  forall p lg la jk out, linalg_ok la -> leggauss_ok (half p) (lg (half p)) -> pydisort p lg la jk = Ok out ->
  forall U, modes_of p out U -> forall w, double_gauss (half p) (po_mu out) w ->
  (nonneg (p_bneg p) \/ some_source p) -> (nonneg (p_bpos p) \/ some_source p) ->
  forall vn vp, bc_values (p_bneg p) (half p) vn -> bc_values (p_bpos p) (half p) vp ->
  forall rho, (forall m, (m < length (p_BDRF p))%nat -> mode_is (nth m (p_BDRF p) (MScal 0)) (rho m)) ->
  physical p (po_mu out) w rho ->
  forall m, seen p m ->
  bvp p (po_mu out) w vn vp (rho m) m (U m) /\
  forall F, bvp p (po_mu out) w vn vp (rho m) m F -> forall i t, (i < streams p)%nat -> 0 <= t <= bottom p -> F i t = U m i t.
Proof. exact phys_only. Qed.
Print Assumptions C66_only_solution.
(** C66: such an answer exists. *)
Theorem C66_answer_exists :
  forall p rho lg la jk, physical_input p rho -> no_resonance p -> leggauss_ok (half p) (lg (half p)) -> linalg_ok la -> linalg_complete la -> linalg_total la ->
  exists out U w, pydisort p lg la jk = Ok out /\ modes_of p out U /\ double_gauss (half p) (po_mu out) w /\
  forall vn vp, bc_values (p_bneg p) (half p) vn -> bc_values (p_bpos p) (half p) vp ->
  (nonneg (p_bneg p) /\ nonneg (p_bpos p)) \/ some_source p ->
  forall m, seen p m -> bvp p (po_mu out) w vn vp (rho m) m (U m) /\
  forall F, bvp p (po_mu out) w vn vp (rho m) m F -> forall i t, (i < streams p)%nat -> 0 <= t <= bottom p -> F i t = U m i t.
Proof. exact posed_answer. Qed.
Print Assumptions C66_answer_exists.
(** C66: two linear algebra libraries that only verify their answers give the same values. *)
Theorem C66_linear_algebra_irrelevant :
  forall p lg la la' jk jk' out out' rho, linalg_ok la -> linalg_ok la' -> leggauss_ok (half p) (lg (half p)) ->
  pydisort p lg la jk = Ok out -> pydisort p lg la' jk' = Ok out' ->
  (forall mu w, double_gauss (half p) mu w -> physical p mu w rho) ->
  (forall m, (m < length (p_BDRF p))%nat -> mode_is (nth m (p_BDRF p) (MScal 0)) (rho m)) -> same_values out out'.
Proof. exact phys_same. Qed.
Print Assumptions C66_linear_algebra_irrelevant.
Example C66_nonvacuous jk : exists out U w, linalg_ok la_full /\ linalg_complete la_full /\ linalg_total la_full /\ leggauss_ok (half p_an) (lg_12 (half p_an)) /\
  physical_input p_an (fun _ _ _ => 1/2) /\ no_resonance p_an /\ pydisort p_an lg_12 la_full jk = Ok out /\ modes_of p_an out U /\
  double_gauss (half p_an) (po_mu out) w /\ some_source p_an /\ bc_values (p_bneg p_an) (half p_an) (fun _ => 1) /\ bc_values (p_bpos p_an) (half p_an) (fun _ => 0) /\
  (forall m, (m < length (p_BDRF p_an))%nat -> mode_is (nth m (p_BDRF p_an) (MScal 0)) (fun _ _ => 1/2)) /\ physical p_an (po_mu out) w (fun _ _ _ => 1/2) /\ seen p_an 0.
Proof.
  destruct (posed_ok p_an _ lg_12 la_full jk an_input an_free lg_12_ok1 la_full_ok la_full_complete la_full_total) as (out & H).
  destruct (modes_exist p_an lg_12 la_full jk out la_full_ok lg_12_ok1 H) as (U & HU). destruct (call_fluxes p_an lg_12 la_full jk out la_full_ok lg_12_ok1 H U HU) as (w & Hw & _).
  exists out, U, w. split; [exact la_full_ok|]. split; [exact la_full_complete|]. split; [exact la_full_total|]. split; [exact lg_12_ok1|].
  split; [exact an_input|]. split; [exact an_free|]. split; [exact H|]. split; [exact HU|]. split; [exact Hw|]. split; [left; cbn; lra|].
  split; [apply bc_scal; auto|]. split; [apply bc_zero; auto|]. split; [exact (pi_rho _ _ an_input)|]. split; [exact (an_physical _ _ Hw)|]. split; [cbn; lia|left; reflexivity].
Qed.

(** C51: cutting a layer of a physical atmosphere neither prevents the solution nor changes it. *)
Theorem C51_split_solved :
  forall p l s rho, (l < nlayers p)%nat -> top_of p l < s < bot_of p l -> physical_input p rho ->
  forall lg la la' jk jk', no_resonance p -> leggauss_ok (half p) (lg (half p)) ->
  linalg_ok la -> linalg_complete la -> linalg_total la -> linalg_ok la' -> linalg_complete la' -> linalg_total la' ->
  exists out out', pydisort p lg la jk = Ok out /\ pydisort (split p l s) lg la' jk' = Ok out' /\
  ((nonneg (p_bneg p) /\ nonneg (p_bpos p)) \/ some_source p -> same_reports (~ nt_applies p) out out').
Proof. exact split_solved. Qed.
Print Assumptions C51_split_solved.
Example C51_split_solved_nonvacuous : (1 < nlayers p_an)%nat /\ top_of p_an 1 < 2 < bot_of p_an 1 /\ physical_input p_an (fun _ _ _ => 1/2) /\ no_resonance p_an /\
  leggauss_ok (half p_an) (lg_12 (half p_an)) /\ linalg_ok la_full /\ linalg_complete la_full /\ linalg_total la_full /\ some_source p_an.
Proof.
  split; [cbn; lia|]. split; [cbn; lra|]. split; [exact an_input|]. split; [exact an_free|]. split; [exact lg_12_ok1|]. split; [exact la_full_ok|]. split; [exact la_full_complete|].
  split; [exact la_full_total|]. left. cbn. lra.
Qed.
