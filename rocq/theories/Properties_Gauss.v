(** Properties C74 and C75: any number of streams, and almost every position of the sun. *)
From Coq Require Import String Reals Lra Lia List Bool Arith ZArith.
From Coquelicot Require Import Coquelicot.
From Verif Require Import Base Tensor Spec M_LinAlg Spec_RTE M_Subroutines M_Assemble M_Pydisort Spec_Sol Spec_Valid Spec_Calls Spec_Unique Spec_Phys Spec_Solved Spec_Sun
  P_Gauss P_Sun P_Spec7 Examples5 Examples9.
Import ListNotations.
Local Open Scope R_scope.

(** C74: what is required of numpy's rule can be met for every number of nodes, and, for nodes in
    increasing order, by one rule only: its nodes are the zeros of the Legendre polynomial. *)
Theorem C74_rule_exists : exists lg : leggauss_t, forall n, leggauss_ok n (lg n) /\ increasing (fst (lg n)).
Proof. exact (ex_intro _ gauss_rule gauss_rule_ok). Qed.
Print Assumptions C74_rule_exists.
Theorem C74_rule_unique : forall n r r', leggauss_ok n r -> leggauss_ok n r' -> increasing (fst r) -> increasing (fst r') -> r = r'.
Proof. exact ok_unique. Qed.
Print Assumptions C74_rule_unique.
Theorem C74_rule_zeros : forall n r, leggauss_ok n r -> forall i, (i < n)%nat -> legendre n (nth i (fst r) 0) = 0.
Proof. exact ok_zero. Qed.
Print Assumptions C74_rule_zeros.
Example C74_rule_nonvacuous n : exists r, leggauss_ok n r /\ increasing (fst r).
Proof. exists (gauss_rule n). apply gauss_rule_ok. Qed.

(** C74: so directions and weights exist for every number of streams. *)
Theorem C74_directions_exist : forall n, exists mu w, double_gauss n mu w.
Proof. exact directions_exist. Qed.
Print Assumptions C74_directions_exist.

(** C74: there are a quadrature rule and a linear algebra that meet all their contracts at once; with
    them the physical inputs that are solved are exactly those without resonance, whatever NQuad. *)
Theorem C74_every_NQuad :
  exists lg la, (forall n, leggauss_ok n (lg n)) /\ linalg_ok la /\ linalg_unique la /\ linalg_complete la /\ linalg_total la /\
  forall p rho jk, physical_input p rho -> ((exists out, pydisort p lg la jk = Ok out) <-> no_resonance p).
Proof.
  exact (ex_intro _ gauss_rule (ex_intro _ la_full (conj (fun n => proj1 (gauss_rule_ok n)) (conj la_full_ok (conj la_full_unique (conj la_full_complete (conj la_full_total all_solved))))))).
Qed.
Print Assumptions C74_every_NQuad.
Example C74_every_NQuad_nonvacuous n : (1 <= n)%nat -> let p := p_ns n 0 1 in
  physical_input p (fun _ _ _ => 1/2) /\ no_resonance p /\ streams p = (2 * n)%nat /\ nmodes p = 2%nat /\ nlayers p = 2%nat /\ has_source p.
Proof.
  intros Hn p. split; [apply ns_input; auto; lra|]. split; [apply ns_free; auto|]. split; [apply ns_streams|]. split; [reflexivity|]. split; [reflexivity|].
  exists 0%nat, 0%nat. cbn. repeat split; try lia. lra.
Qed.

(** C74: for a physical atmosphere the values depend on the inputs alone, not on which libraries
    compute the rule (in increasing order) and the linear algebra. *)
Theorem C74_only_inputs_matter :
  forall p lg lg' la la' jk jk' out out' rho, linalg_ok la -> linalg_ok la' -> leggauss_ok (half p) (lg (half p)) -> leggauss_ok (half p) (lg' (half p)) ->
  increasing (fst (lg (half p))) -> increasing (fst (lg' (half p))) ->
  pydisort p lg la jk = Ok out -> pydisort p lg' la' jk' = Ok out' ->
  (forall mu w, double_gauss (half p) mu w -> physical p mu w rho) ->
  (forall m, (m < length (p_BDRF p))%nat -> mode_is (nth m (p_BDRF p) (MScal 0)) (rho m)) -> same_values out out'.
Proof. exact deps_same. Qed.
Print Assumptions C74_only_inputs_matter.
Example C74_only_inputs_nonvacuous n jk : (1 <= n)%nat -> let p := p_ns n 0 1 in exists out,
  linalg_ok la_full /\ leggauss_ok (half p) (gauss_rule (half p)) /\ increasing (fst (gauss_rule (half p))) /\ pydisort p gauss_rule la_full jk = Ok out /\
  (forall mu w, double_gauss (half p) mu w -> physical p mu w (fun _ _ _ => 1/2)) /\
  (forall m, (m < length (p_BDRF p))%nat -> mode_is (nth m (p_BDRF p) (MScal 0)) (fun _ _ => 1/2)).
Proof.
  intros Hn p. assert (HP : physical_input p (fun _ _ _ => 1/2)) by (apply ns_input; auto; lra). destruct (proj2 (all_solved p _ jk HP) (ns_free n 0 1 eq_refl)) as (out & H).
  exists out. split; [exact la_full_ok|]. split; [apply gauss_rule_ok|]. split; [apply gauss_rule_ok|]. split; [exact H|]. split; [exact (pi_physical _ _ HP)|exact (pi_rho _ _ HP)].
Qed.

(** C75: for a given atmosphere at most NFourier * NLayers * NQuad / 2 positions of the sun are not
    solved, always the same ones. *)
Theorem C75_almost_every_sun :
  forall p rho, 0 < p_I0 p -> exists L, (length L <= nmodes p * (nlayers p * half p))%nat /\
  forall x lg la jk, physical_input (at_sun p x) rho -> leggauss_ok (half p) (lg (half p)) -> linalg_ok la -> linalg_unique la -> linalg_complete la -> linalg_total la ->
  ((exists out, pydisort (at_sun p x) lg la jk = Ok out) <-> ~ In x L).
Proof. exact suns. Qed.
Print Assumptions C75_almost_every_sun.
Example C75_nonvacuous n x : (1 <= n)%nat -> 0 < x <= 1 -> let p := p_ns n 1 (1/2) in
  0 < p_I0 p /\ physical_input (at_sun p x) (fun _ _ _ => 1/2) /\ leggauss_ok (half p) (gauss_rule (half p)) /\ linalg_ok la_full /\ linalg_unique la_full /\ linalg_complete la_full /\ linalg_total la_full /\
  half p = n /\ p_mu0 (at_sun p x) = x.
Proof.
  intros Hn Hx p. split; [cbn; lra|]. split; [apply (ns_input n 1 x); auto; lra|]. split; [apply gauss_rule_ok|]. split; [exact la_full_ok|]. split; [exact la_full_unique|].
  split; [exact la_full_complete|]. split; [exact la_full_total|]. split; [apply ns_half|reflexivity].
Qed.
