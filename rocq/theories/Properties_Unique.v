(** Properties C51, C59 and C60: the answer is the only one. *)
From Coq Require Import String Reals Lra Lia List Bool Arith ZArith.
From Coquelicot Require Import Coquelicot.
From Verif Require Import Base Tensor Spec M_LinAlg Spec_RTE M_Subroutines M_Assemble M_Pydisort Spec_Sol Spec_Valid Spec_Calls Spec_Unique
  P_Sub P_Sub3 P_Pydisort2 P_Pydisort4 P_Absorb P_Refute P_Error P_Unique2 P_Unique3 P_Refine Spec_NT P_NT4 P_RefineNT Examples Examples3.
Import ListNotations.
Local Open Scope R_scope.

(** C59: every reported mode solves the boundary-value problem of the transfer equation, and nothing
    else does. [linalg_unique]: the linear solvers answer only if the solution is unique (they
    report a singular matrix otherwise). *)
Theorem C59_only_solution :
  forall p lg la jk out, linalg_ok la -> linalg_unique la -> leggauss_ok (half p) (lg (half p)) -> pydisort p lg la jk = Ok out ->
  forall U, modes_of p out U -> forall w, double_gauss (half p) (po_mu out) w ->
  (nonneg (p_bneg p) \/ some_source p) -> (nonneg (p_bpos p) \/ some_source p) ->
  forall vn vp, bc_values (p_bneg p) (half p) vn -> bc_values (p_bpos p) (half p) vp ->
  forall rho, (forall m, (m < length (p_BDRF p))%nat -> mode_is (nth m (p_BDRF p) (MScal 0)) (rho m)) ->
  forall m, seen p m ->
  bvp p (po_mu out) w vn vp (rho m) m (U m) /\
  forall V, bvp p (po_mu out) w vn vp (rho m) m V -> forall i t, (i < streams p)%nat -> 0 <= t <= bottom p -> V i t = U m i t.
Proof. exact call_only. Qed.
Print Assumptions C59_only_solution.
Example C59_nonvacuous jk : exists out U w, linalg_ok (la_ex []) /\ linalg_unique (la_ex []) /\ leggauss_ok (half p1) (lg_12 (half p1)) /\
  pydisort p1 lg_12 (la_ex []) jk = Ok out /\ modes_of p1 out U /\ double_gauss (half p1) (po_mu out) w /\ some_source p1 /\
  bc_values (p_bneg p1) (half p1) (fun _ => 1) /\ bc_values (p_bpos p1) (half p1) (fun _ => 1) /\
  (forall m, (m < length (p_BDRF p1))%nat -> mode_is (nth m (p_BDRF p1) (MScal 0)) (fun _ _ => 1 / 2)) /\ seen p1 0 /\ 0 < albedo p1 0.
Proof.
  destruct (p1_facts jk) as (out & U & H1 & H2 & H3 & H4 & _). pose proof (call_rte p1 lg_12 (la_ex []) jk out H1 H2 H3 U H4) as (w & Hw & _).
  exists out, U, w. repeat (split; [first [assumption|apply la_ex_unique]|]). split; [left; cbn; lra|]. 
  split; [apply bc_scal; [reflexivity|intros; reflexivity]|]. split; [apply bc_scal; [reflexivity|intros; reflexivity]|]. split.
  - intros [|m] Hm; [left; exists (1 / 2); split; reflexivity|cbn in Hm; lia].
  - split; [split; [cbn; lia|left; reflexivity]|]. cbn. lra.
Qed.

(** C59: which eigenvectors, eigenvalue order and solutions the linear algebra returns does not
    matter. *)
Theorem C59_linear_algebra_irrelevant :
  forall p lg la la' jk jk' out out', linalg_ok la -> linalg_ok la' -> linalg_unique la -> leggauss_ok (half p) (lg (half p)) ->
  pydisort p lg la jk = Ok out -> pydisort p lg la' jk' = Ok out' -> same_values out out'.
Proof. exact same_problem. Qed.
Print Assumptions C59_linear_algebra_irrelevant.
Example C59_linear_algebra_nonvacuous jk jk' : exists la la' out out', linalg_ok la /\ linalg_ok la' /\ linalg_unique la /\
  leggauss_ok (half (p3 3)) (lg_12 (half (p3 3))) /\ pydisort (p3 3) lg_12 la jk = Ok out /\ pydisort (p3 3) lg_12 la' jk' = Ok out' /\ nlayers (p3 3) = 3%nat.
Proof.
  destruct (p3_ok_id 3 jk ltac:(lia)) as (out & H). destruct (p3_ok 3 jk' ltac:(lia)) as (out' & H').
  do 4 eexists. split; [exact la_id_ok|]. split; [apply la_ex_ok|]. split; [exact la_id_unique|]. split; [exact leggauss1_ok|]. split; [exact H|]. split; [exact H'|reflexivity].
Qed.

(** C60: NQuad determines the directions and weights; their order is the order of the nodes. *)
Theorem C60_quadrature_determined :
  forall n mu w mu' w', double_gauss n mu w -> double_gauss n mu' w' ->
  (forall i, (i < n)%nat -> exists j, (j < n)%nat /\ nth i mu 0 = nth j mu' 0 /\ w i = w' j) /\
  ((forall i, (S i < n)%nat -> nth i mu 0 < nth (S i) mu 0) -> (forall i, (S i < n)%nat -> nth i mu' 0 < nth (S i) mu' 0) ->
   mu = mu' /\ forall i, (i < n)%nat -> w i = w' i).
Proof. exact dg_determined. Qed.
Print Assumptions C60_quadrature_determined.
Theorem C60_reported_directions :
  forall p q lg lg' la la' jk jk' out out', leggauss_ok (half p) (lg (half p)) -> leggauss_ok (half q) (lg' (half q)) ->
  pydisort p lg la jk = Ok out -> pydisort q lg' la' jk' = Ok out' -> p_NQuad p = p_NQuad q ->
  forall i, (i < streams p)%nat -> exists j, (j < streams q)%nat /\ nth i (po_mu out) 0 = nth j (po_mu out') 0.
Proof. exact call_directions. Qed.
Print Assumptions C60_reported_directions.
Example C60_nonvacuous jk : exists out out' w, leggauss_ok (half p1) (lg_12 (half p1)) /\ leggauss_ok (half (p3 3)) (lg_12 (half (p3 3))) /\
  pydisort p1 lg_12 (la_ex []) jk = Ok out /\ pydisort (p3 3) lg_12 la_id jk = Ok out' /\ p_NQuad p1 = p_NQuad (p3 3) /\ double_gauss (half p1) (po_mu out) w.
Proof.
  destruct (p1_facts jk) as (out & U & H1 & H2 & H3 & H4 & _). pose proof (call_rte p1 lg_12 (la_ex []) jk out H1 H2 H3 U H4) as (w & Hw & _).
  destruct (p3_ok_id 3 jk ltac:(lia)) as (out' & H). exists out, out', w. split; [exact H2|]. split; [exact leggauss1_ok|]. split; [exact H3|]. split; [exact H|]. split; [reflexivity|exact Hw].
Qed.

(** C51: how a homogeneous part of the atmosphere is cut into layers does not matter. *)
Theorem C51_refined_layers :
  forall p q g lg la la' jk jk' out out', linalg_ok la -> linalg_ok la' -> linalg_unique la' -> leggauss_ok (half p) (lg (half p)) ->
  refines p q g -> pydisort p lg la jk = Ok out -> pydisort q lg la' jk' = Ok out' ->
  (nonneg (p_bneg p) /\ nonneg (p_bpos p)) \/ (some_source p /\ some_source q) ->
  (forall m, (m < length (p_BDRF p))%nat -> exists rho, mode_is (nth m (p_BDRF p) (MScal 0)) rho) ->
  same_reports (~ nt_applies p /\ ~ nt_applies q) out out'.
Proof. exact call_refine. Qed.
Print Assumptions C51_refined_layers.

Theorem C51_split_layer :
  forall p l s lg la la' jk jk' out out', linalg_ok la -> linalg_ok la' -> linalg_unique la' -> leggauss_ok (half p) (lg (half p)) ->
  (l < nlayers p)%nat -> top_of p l < s < bot_of p l -> pydisort p lg la jk = Ok out -> pydisort (split p l s) lg la' jk' = Ok out' ->
  (nonneg (p_bneg p) /\ nonneg (p_bpos p)) \/ some_source p ->
  (forall m, (m < length (p_BDRF p))%nat -> exists rho, mode_is (nth m (p_BDRF p) (MScal 0)) rho) ->
  same_reports (~ nt_applies p) out out'.
Proof. exact call_split. Qed.
Print Assumptions C51_split_layer.
Example C51_nonvacuous jk jk' : exists out out', linalg_ok la_id /\ linalg_unique la_id /\ leggauss_ok (half p_two) (lg_12 (half p_two)) /\
  (1 < nlayers p_two)%nat /\ top_of p_two 1 < 3 / 2 < bot_of p_two 1 /\ pydisort p_two lg_12 la_id jk = Ok out /\
  pydisort (split p_two 1 (3 / 2)) lg_12 la_id jk' = Ok out' /\ some_source p_two /\ p_tau (split p_two 1 (3 / 2)) = [1; 3 / 2; 2] /\
  refines p_two (split p_two 1 (3 / 2)) (under 1).
Proof.
  destruct (p_two_ok jk) as (out & H). assert (V : valid p_two) by exact (call_valid p_two lg_12 la_id jk out H).
  assert (Hl : (1 < nlayers p_two)%nat) by (cbn; lia). assert (Hs : top_of p_two 1 < 3 / 2 < bot_of p_two 1) by (cbn; lra).
  destruct (absorbing_ok (split p_two 1 (3 / 2)) lg_12 la_id jk') as (out' & H').
  - apply split_valid; auto.
  - exact leggauss1_ok.
  - exact la_id_complete.
  - intros l Hl'. left. unfold albedo. cbn [split p_omega]. rewrite nth_twice. cbn. destruct (under 1 l) as [|[|[|]]]; reflexivity.
  - exists (fun _ => 0). apply bc_scal; [reflexivity|intros; reflexivity].
  - exists (fun _ => 0). apply bc_scal; [reflexivity|intros; reflexivity].
  - intros m Hm. cbn in Hm. lia.
  - intros _. right. reflexivity.
  - intros _. left. cbn. lra.
  - discriminate.
  - exists out, out'. split; [exact la_id_ok|]. split; [exact la_id_unique|]. split; [exact leggauss1_ok|]. repeat (split; [assumption|]).
    split; [left; cbn; lra|]. split; [reflexivity|]. apply split_refines; auto.
Qed.

(** With the Nakajima-Tanaka corrections the intensity of the two calls differs by the second-order
    correction only, and not at all if the averages over the layers are the same. *)
Theorem C51_corrected_intensity :
  forall p q g lg la la' jk jk' out out', linalg_ok la -> linalg_ok la' -> linalg_unique la' -> leggauss_ok (half p) (lg (half p)) ->
  refines p q g -> ncol (p_Leg q) = ncol (p_Leg p) ->
  (forall l k, (l < nlayers q)%nat -> (k < ncol (p_Leg p))%nat -> phase q l k = phase p (g l) k) ->
  pydisort p lg la jk = Ok out -> pydisort q lg la' jk' = Ok out' ->
  (forall m, (m < length (p_BDRF p))%nat -> exists rho, mode_is (nth m (p_BDRF p) (MScal 0)) rho) ->
  forall u u', po_u out = Some u -> po_u out' = Some u' -> nt_finite p (po_mu out) -> nt_finite q (po_mu out') ->
  (exists f W W', second_order p (po_mu out) W /\ second_order q (po_mu out) W' /\
     nt_is p u false (fun i t phi => f i t phi + W i t phi) /\ nt_is p u' false (fun i t phi => f i t phi + W' i t phi)) /\
  (wavg q = wavg p -> favg q = favg p -> (forall k, (k < ncol (p_Leg p))%nat -> gavg q k = gavg p k) ->
   forall tau phi, nt_args p tau phi -> same_ret (u tau phi false false false) (u' tau phi false false false)).
Proof.
  intros p q g lg la la' jk jk' out out' H1 H2 H3 H4 H5 H6 H7 H8 H9 H10 u u' H11 H12 H13 H14. split.
  - exact (call_refine_nt p q g lg la la' jk jk' out out' H1 H2 H3 H4 H5 H6 H7 H8 H9 H10 u u' H11 H12 H13 H14).
  - exact (call_refine_avg p q g lg la la' jk jk' out out' H1 H2 H3 H4 H5 H6 H7 H8 H9 H10 u u' H11 H12 H13 H14).
Qed.
Print Assumptions C51_corrected_intensity.
Example C51_corrected_nonvacuous jk jk' : exists p q g out out' u u', linalg_ok la_id /\ linalg_unique la_id /\ leggauss_ok (half p) (lg_12 (half p)) /\
  refines p q g /\ nlayers p = 2%nat /\ nlayers q = 3%nat /\ ncol (p_Leg q) = ncol (p_Leg p) /\ (forall l k, phase q l k = phase p (g l) k) /\
  pydisort p lg_12 la_id jk = Ok out /\ pydisort q lg_12 la_id jk' = Ok out' /\ po_u out = Some u /\ po_u out' = Some u' /\
  nt_finite p (po_mu out) /\ nt_finite q (po_mu out') /\ wavg q = wavg p /\ favg q = favg p /\ (forall k, (k < ncol (p_Leg p))%nat -> gavg q k = gavg p k).
Proof.
  destruct (same_ok jk) as (out & H). destruct (same_ok' jk') as (out' & H'). destruct (call_u _ _ _ _ _ H eq_refl) as (u & Hu). destruct (call_u _ _ _ _ _ H' eq_refl) as (u' & Hu').
  exists p_same, q_same, (under 1), out, out', u, u'. split; [exact la_id_ok|]. split; [exact la_id_unique|]. split; [exact leggauss1_ok|]. split; [exact same_refines|].
  do 3 (split; [reflexivity|]). split; [reflexivity|]. repeat (split; [assumption|]). destruct (same_finite jk jk' out out' H H') as (F & F'). repeat (split; [assumption|]). exact same_avg.
Qed.

(** The averages over the layers in the second-order correction are weighted by the depths of the
    lower boundaries, so cutting a layer changes the reported intensity. *)
Theorem C51_corrections_refuted :
  forall jk jk', exists p l s out out' u u' tau phi, linalg_ok la_id /\ linalg_unique la_id /\ leggauss_ok (half p) (lg_12 (half p)) /\
  (l < nlayers p)%nat /\ top_of p l < s < bot_of p l /\ pydisort p lg_12 la_id jk = Ok out /\ pydisort (split p l s) lg_12 la_id jk' = Ok out' /\
  po_u out = Some u /\ po_u out' = Some u' /\ depths_ok p tau /\
  ~ same_ret (u tau phi false false false) (u' tau phi false false false).
Proof.
  intros jk jk'. destruct (cut_ok jk) as (out & H). destruct (cut_ok' jk') as (out' & H'). destruct (call_u _ _ _ _ _ H eq_refl) as (u & Hu). destruct (call_u _ _ _ _ _ H' eq_refl) as (u' & Hu').
  exists p_cut, 1%nat, (3 / 2), out, out', u, u', [1 / 2], [PI / 2]. split; [exact la_id_ok|]. split; [exact la_id_unique|]. split; [exact leggauss1_ok|]. split; [exact cut_lt|]. split; [exact cut_in|].
  repeat (split; [assumption|]). exact (cut_differs jk jk' out out' u u' H H' Hu Hu').
Qed.
Print Assumptions C51_corrections_refuted.
