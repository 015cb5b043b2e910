(** Property C81: which atmospheres that lose energy are solved. *)
From Coq Require Import String Reals Lra Lia List Bool Arith ZArith.
From Coquelicot Require Import Coquelicot.
From Verif Require Import Base Tensor Spec M_LinAlg Spec_RTE M_Subroutines M_Assemble M_Pydisort Spec_Sol Spec_Valid Spec_Calls Spec_Unique Spec_Phys Spec_Solved Spec_Rates Spec_Lossy
  P_Sub3 P_Pydisort2 P_Pydisort6 P_Pydisort8 P_Refine P_Lossy2 P_Lossy3 P_Gauss Examples5 Examples6 Examples9.
Import ListNotations.
Local Open Scope R_scope.

(** C81: an atmosphere in which radiation of either symmetry loses, over a surface that does not
    amplify, is solved exactly if its beam does not resonate. *)
Theorem C81_solved_iff_no_resonance :
  forall p rho lg la jk, lossy_input p rho -> leggauss_ok (half p) (lg (half p)) -> linalg_ok la -> linalg_unique la -> linalg_complete la -> linalg_total la ->
  (exists out, pydisort p lg la jk = Ok out) <-> no_resonance p.
Proof. exact lossy_iff. Qed.
Print Assumptions C81_solved_iff_no_resonance.
Example C81_nonvacuous : linalg_ok la_full /\ linalg_unique la_full /\ linalg_complete la_full /\ linalg_total la_full /\ leggauss_ok (half (p_hgd 9)) (gauss_rule (half (p_hgd 9))) /\
  lossy_input (p_hgd 9) rho34 /\ no_resonance (p_hgd 9) /\ nmodes (p_hgd 9) = 2%nat /\ (forall mu w rho, double_gauss (half (p_hgd 9)) mu w -> ~ physical (p_hgd 9) mu w rho).
Proof.
  split; [exact la_full_ok|]. split; [exact la_full_unique|]. split; [exact la_full_complete|]. split; [exact la_full_total|]. split; [apply gauss_rule_ok|].
  split; [apply hgd_lossy; lia|]. split; [apply hgd_free; lia|]. split; [reflexivity|]. exact (hgd_unphysical 9).
Qed.

(** C81: the modes it reports are then the only solutions of the transfer equation. *)
Theorem C81_only_solution :
  forall p lg la jk out, linalg_ok la -> leggauss_ok (half p) (lg (half p)) -> pydisort p lg la jk = Ok out ->
  forall U, modes_of p out U -> forall w, double_gauss (half p) (po_mu out) w ->
  (nonneg (p_bneg p) \/ some_source p) -> (nonneg (p_bpos p) \/ some_source p) ->
  forall vn vp, bc_values (p_bneg p) (half p) vn -> bc_values (p_bpos p) (half p) vp ->
  forall rho, (forall m, (m < length (p_BDRF p))%nat -> mode_is (nth m (p_BDRF p) (MScal 0)) (rho m)) ->
  lossy p (po_mu out) w rho ->
  forall m, seen p m ->
  bvp p (po_mu out) w vn vp (rho m) m (U m) /\
  forall F, bvp p (po_mu out) w vn vp (rho m) m F -> forall i t, (i < streams p)%nat -> 0 <= t <= bottom p -> F i t = U m i t.
Proof. exact lossy_only. Qed.
Print Assumptions C81_only_solution.
(** C81: two linear algebra libraries that only verify their answers give the same values. *)
Theorem C81_linear_algebra_irrelevant :
  forall p lg la la' jk jk' out out' rho, linalg_ok la -> linalg_ok la' -> leggauss_ok (half p) (lg (half p)) ->
  pydisort p lg la jk = Ok out -> pydisort p lg la' jk' = Ok out' -> lossy_input p rho -> same_values out out'.
Proof. exact lossy_same. Qed.
Print Assumptions C81_linear_algebra_irrelevant.
Example C81_only_nonvacuous jk : exists out U w, pydisort (p_hgd 9) gauss_rule la_full jk = Ok out /\ modes_of (p_hgd 9) out U /\ double_gauss (half (p_hgd 9)) (po_mu out) w /\
  nonneg (p_bneg (p_hgd 9)) /\ nonneg (p_bpos (p_hgd 9)) /\ bc_values (p_bneg (p_hgd 9)) (half (p_hgd 9)) (fun _ => 1) /\ bc_values (p_bpos (p_hgd 9)) (half (p_hgd 9)) (fun _ => 0) /\
  (forall m, (m < length (p_BDRF (p_hgd 9)))%nat -> mode_is (nth m (p_BDRF (p_hgd 9)) (MScal 0)) (rho34 m)) /\ lossy (p_hgd 9) (po_mu out) w rho34 /\ seen (p_hgd 9) 0 /\ seen (p_hgd 9) 1.
Proof.
  assert (Hn : (2 <= 9)%nat) by lia. pose proof (proj1 (gauss_rule_ok (half (p_hgd 9)))) as Hlg.
  destruct (lossy_ok (p_hgd 9) rho34 gauss_rule la_full jk (hgd_lossy 9 Hn) (hgd_free 9 Hn) Hlg la_full_ok la_full_complete la_full_total) as (out & H).
  destruct (modes_exist (p_hgd 9) gauss_rule la_full jk out la_full_ok Hlg H) as (U & HU). destruct (call_fluxes (p_hgd 9) gauss_rule la_full jk out la_full_ok Hlg H U HU) as (w & Hw & _).
  exists out, U, w. split; [exact H|]. split; [exact HU|]. split; [exact Hw|]. split; [intros idx; cbn; lra|]. split; [intros idx; cbn; lra|]. split; [apply bc_scal; auto|]. split; [apply bc_zero; auto|].
  split; [exact (wf_rho _ _ (hgd_wf 9 Hn))|]. split; [exact (proj2 (hgd_lossy 9 Hn) _ w Hw)|].
  split; (split; [cbn; lia|right; intros (X & _); discriminate]).
Qed.

(** C81: every physical atmosphere over a reciprocal surface loses. *)
Theorem C81_physical_loses :
  forall p mu w rho, valid p -> double_gauss (half p) mu w -> physical p mu w rho -> reciprocal p mu rho -> lossy p mu w rho.
Proof. exact phys_lossy. Qed.
Print Assumptions C81_physical_loses.
(** C81: a Lambertian surface does not amplify. *)
Theorem C81_Lambertian :
  forall p mu w rho c, valid p -> double_gauss (half p) mu w -> (length (p_BDRF p) <= 1)%nat -> 0 <= c <= 1 -> (forall x y, rho 0%nat x y = c) -> no_gain p mu w rho.
Proof. exact lambert_gain. Qed.
Print Assumptions C81_Lambertian.
Example C81_physical_nonvacuous : exists mu w, valid p_an /\ double_gauss (half p_an) mu w /\ physical p_an mu w (fun _ _ _ => 1/2) /\ reciprocal p_an mu (fun _ _ _ => 1/2) /\ (length (p_BDRF p_an) <= 1)%nat.
Proof.
  pose proof (mu_arr_gauss p_an gauss_rule (proj1 (gauss_rule_ok (half p_an)))) as HD. exists (mu_arr p_an gauss_rule), (quad_W p_an gauss_rule). split; [exact an_valid|]. split; [exact HD|].
  split; [exact (an_physical _ _ HD)|]. split; [intros m i j _ _ _; reflexivity|]. cbn. lia.
Qed.

(** C81: with two streams this decides every case: a call is answered exactly if in every layer and
    mode that scatter radiation decays at a real rate, other than that of the beam. *)
Theorem C81_two_streams :
  forall p rho lg la jk, well_formed p rho -> p_NQuad p = 2%Z ->
  (forall m, (m < nmodes p)%nat -> (m < length (p_BDRF p))%nat -> Rabs (rho m (1/2) (1/2)) <= if Nat.eqb m 0 then 1 else 2) ->
  leggauss_ok (half p) (lg (half p)) -> linalg_ok la -> linalg_unique la -> linalg_complete la -> linalg_total la ->
  (exists out, pydisort p lg la jk = Ok out) <->
  forall m l, (m < nmodes p)%nat -> (l < nlayers p)%nat -> ~ negligible (albedo_s p l) (wphase_s p l) (ncoeffs p) m ->
    0 < rate2 p m l /\ (0 < p_I0 p -> 4 * rate2 p m l <> / p_mu0 p ^ 2).
Proof. exact two_iff. Qed.
Print Assumptions C81_two_streams.

(** C81: delta-M scaling with the usual fraction [g^2] repairs the calls of C80: Henyey-Greenstein
    layers of any asymmetry are then solved, unless the beam resonates. *)
Theorem C81_scaled_Henyey_Greenstein :
  forall p g rho lg la jk, well_formed p rho -> p_NQuad p = 2%Z ->
  (forall m, (m < nmodes p)%nat -> (m < length (p_BDRF p))%nat -> Rabs (rho m (1/2) (1/2)) <= if Nat.eqb m 0 then 1 else 2) ->
  0 <= g < 1 -> henyey_greenstein p g -> (forall l, (l < nlayers p)%nat -> fwd p l = g ^ 2) ->
  leggauss_ok (half p) (lg (half p)) -> linalg_ok la -> linalg_unique la -> linalg_complete la -> linalg_total la ->
  (exists out, pydisort p lg la jk = Ok out) <-> no_resonance p.
Proof. exact hg_iff. Qed.
Print Assumptions C81_scaled_Henyey_Greenstein.
Example C81_two_streams_nonvacuous : well_formed (p_hgd 9) rho34 /\ p_NQuad (p_hgd 9) = 2%Z /\
  (forall m, (m < nmodes (p_hgd 9))%nat -> (m < length (p_BDRF (p_hgd 9)))%nat -> Rabs (rho34 m (1/2) (1/2)) <= if Nat.eqb m 0 then 1 else 2) /\
  henyey_greenstein (p_hgd 9) (9/10) /\ (forall l, (l < nlayers (p_hgd 9))%nat -> fwd (p_hgd 9) l = (9/10) ^ 2) /\ leggauss_ok (half (p_hgd 9)) (gauss_rule (half (p_hgd 9))) /\ no_resonance (p_hgd 9) /\
  ~ negligible (albedo_s (p_hgd 9) 0) (wphase_s (p_hgd 9) 0) (ncoeffs (p_hgd 9)) 1.
Proof.
  split; [apply hgd_wf; lia|]. split; [reflexivity|]. split; [exact (hgd_surface 9)|]. split; [exact (hgd_hg 9)|]. split; [exact (hgd_f 9)|]. split; [apply gauss_rule_ok|]. split; [apply hgd_free; lia|].
  destruct (hgd_as 9) as (E1 & _ & E2). intros H. specialize (H 1%nat ltac:(cbn; lia)). unfold wphase_s in H. rewrite E1, E2 in H. cbn [INR] in H. rewrite Rabs_right in H; lra.
Qed.
