(** Properties C13 (whole calls) and C97: what a call sees of its surface. *)
From Coq Require Import String Reals Lra Lia List Bool Arith ZArith.
From Verif Require Import Base Tensor Spec M_LinAlg M_Subroutines M_Assemble M_Pydisort Spec_Sol Spec_Valid Spec_Cache
  P_Sub3 P_Cache2 P_Gauss Examples Examples2 Examples3 Examples4 Examples9 Examples11.
Import ListNotations.
Local Open Scope R_scope.

(** C13: the call with the cached surface is the same as the call with the surface itself: the same
    error, or the same five results, with every LAPACK and every content of uninitialised memory. The
    scalar modes must not meet a beam, a cache made for a beam must be made for the beam of the call,
    and a cache made for a beam needs four streams. *)
Theorem C13_same_solution_with_cache_partial :
  forall p lg la jk mu0 rho, leggauss_ok (half p) (lg (half p)) -> (1 <= half p)%nat ->
  (forall m, (m < length (p_BDRF p))%nat -> mode_is (nth m (p_BDRF p) (MScal 0)) (rho m)) ->
  (forall m r, (m < length (p_BDRF p))%nat -> nth m (p_BDRF p) (MScal 0) = MScal r -> p_I0 p <= 0) ->
  (2 <= half p)%nat \/ ~ (0 < mu0 <= 1) ->
  (0 < mu0 <= 1 -> p_I0 p <= 0 \/ mu0 = p_mu0 p) ->
  pydisort (with_surface p (cache_BDRF_Fourier_modes lg (half p) (p_BDRF p) mu0)) lg la jk = pydisort p lg la jk.
Proof. exact (fun p lg la jk mu0 rho Hlg HN Hr Hs => cached_same p lg Hlg HN rho mu0 Hr Hs la jk). Qed.
Print Assumptions C13_same_solution_with_cache_partial.
Example C13_same_solution_nonvacuous : let p := with_surface (p_ns 2 1 (1/3)) [pointwise_mode (fun x y => x * y); pointwise_mode (fun x y => x - y)] in
  valid p /\ leggauss_ok (half p) (gauss_rule (half p)) /\ half p = 2%nat /\ 0 < p_I0 p /\ 0 < p_mu0 p <= 1 /\
  (forall m, (m < length (p_BDRF p))%nat -> mode_is (nth m (p_BDRF p) (MScal 0)) ((fun m x y => match m with O => x * y | _ => x - y end) m)) /\
  (forall m r, nth m (p_BDRF p) (pointwise_mode (fun _ _ => 0)) <> MScal r).
Proof.
  cbv zeta. pose proof (ns_valid 2 1 (1/3) ltac:(lia) ltac:(lra) ltac:(lra)) as V.
  split; [destruct V; constructor; assumption|].
  split; [apply gauss_rule_ok; cbn; lia|]. split; [exact (ns_half 2 1 (1/3))|]. split; [cbn; lra|]. split; [cbn; lra|]. split.
  - intros [|[|m]] Hm; [right; reflexivity|right; reflexivity|cbn in Hm; lia].
  - intros [|[|[|m]]] r; cbn; discriminate.
Qed.

(** C13 fails for two streams: a cache made for a beam gives every call the column of the beam, so that
    the call is solved over another surface ... *)
Theorem C13_two_streams_other_surface : forall p lg la jk rhos mu0, leggauss_ok 1 (lg 1%nat) -> half p = 1%nat -> 0 < mu0 <= 1 ->
  pydisort (with_surface p (cache_BDRF_Fourier_modes lg 1 (map pointwise_mode rhos) mu0)) lg la jk =
  pydisort (with_surface p (map (fun f => pointwise_mode (fun x _ => f x mu0)) rhos)) lg la jk.
Proof. exact cached_two_streams. Qed.
Print Assumptions C13_two_streams_other_surface.
(** ... with results that differ: half of the upward intensity at the bottom is lost. *)
Theorem C13_two_streams_refuted : forall jk, exists p rho mu0 out out' A A',
  half p = 1%nat /\ p_BDRF p = [pointwise_mode rho] /\ 0 < mu0 <= 1 /\ p_I0 p = 0 /\
  pydisort p lg_12 (la_ex []) jk = Ok out /\
  pydisort (with_surface p (cache_BDRF_Fourier_modes lg_12 (half p) (p_BDRF p) mu0)) lg_12 (la_ex []) jk = Ok out' /\
  po_u0 out [bottom p] false false false = Ok (PVal (PT A)) /\ po_u0 out' [bottom p] false false false = Ok (PVal (PT A')) /\
  elt A [0%nat] = 2 /\ elt A' [0%nat] = 1.
Proof. exact two_streams_differ. Qed.
Print Assumptions C13_two_streams_refuted.
Example C13_two_streams_nonvacuous : leggauss_ok 1 (lg_12 1%nat) /\ linalg_ok (la_ex []) /\ half (px 0 1 2 2) = 1%nat.
Proof. split; [exact leggauss1_ok|]. split; [apply la_ex_ok|reflexivity]. Qed.

(** C13 fails for scalar modes under a beam: no such call is answered, although the same call without
    the cache can be. *)
Theorem C13_scalar_mode_with_beam_refuted :
  (forall p lg la jk mu0 m x, leggauss_ok (half p) (lg (half p)) -> (m < length (p_BDRF p))%nat -> (m < nmodes p)%nat ->
     nth m (p_BDRF p) (MScal 0) = MScal x -> 0 < p_I0 p ->
     forall out, pydisort (with_surface p (cache_BDRF_Fourier_modes lg (half p) (p_BDRF p) mu0)) lg la jk <> Ok out) /\
  (forall jk, exists p out, leggauss_ok (half p) (lg_12 (half p)) /\ p_BDRF p = [MScal (1/2)] /\ 0 < p_I0 p /\ (0 < nmodes p)%nat /\
     pydisort p lg_12 (la_ex []) jk = Ok out).
Proof. exact (conj cached_scalar_fails scalar_solved). Qed.
Print Assumptions C13_scalar_mode_with_beam_refuted.

(** C97: two surfaces with the same values in the directions of the quadrature, and for light from the
    direction of the beam if there is a beam, are the same surface: the same error or the same results. *)
Theorem C97_surface_seen_at_nodes :
  forall p lg la jk l l' rho rho', leggauss_ok (half p) (lg (half p)) -> (1 <= half p)%nat -> length l = length l' ->
  (forall m, (m < length l)%nat -> mode_is (nth m l (MScal 0)) (rho m) /\ mode_is (nth m l' (MScal 0)) (rho' m)) ->
  let nodes := fst (Gauss_Legendre_quad lg (half p) 0 1) in
  (forall m x y, (m < length l)%nat -> In x nodes -> In y nodes -> rho m x y = rho' m x y) ->
  (0 < p_I0 p -> forall m x, (m < length l)%nat -> In x nodes -> rho m x (p_mu0 p) = rho' m x (p_mu0 p)) ->
  pydisort (with_surface p l) lg la jk = pydisort (with_surface p l') lg la jk.
Proof. exact surface_nodes. Qed.
Print Assumptions C97_surface_seen_at_nodes.
(** Consequently a number and a constant function are the same mode. *)
Theorem C97_scalar_is_constant_function :
  forall p lg la jk rs, leggauss_ok (half p) (lg (half p)) -> (1 <= half p)%nat ->
  pydisort (with_surface p (map MScal rs)) lg la jk = pydisort (with_surface p (map (fun r => pointwise_mode (fun _ _ => r)) rs)) lg la jk.
Proof. exact scalar_constant. Qed.
Print Assumptions C97_scalar_is_constant_function.
Example C97_nonvacuous jk : exists out, leggauss_ok 1 (lg_12 1%nat) /\
  pydisort (with_surface (px 0 1 2 2) [pointwise_mode surf_eq1]) lg_12 (la_ex []) jk = Ok out /\
  surf_eq1 0 0 <> 1/2 /\ (forall x, In x (fst (Gauss_Legendre_quad lg_12 1 0 1)) -> surf_eq1 x x = 1/2).
Proof.
  destruct (eq_differs jk) as (out & _ & _ & _ & H & _). exists out. split; [exact leggauss1_ok|]. split; [exact H|].
  split; [unfold surf_eq1; lra|]. intros x Hx. apply nodes_half in Hx. subst x. unfold surf_eq1. lra.
Qed.
