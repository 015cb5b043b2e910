(** Properties of the functions made by subroutines.interpolate from the functions pydisort returns.

    [interpolate lg f = Ok it]: interpolating [f] gave [it]. [i_call it o c j] is one call of the
    resulting function with arguments [c] (cosines, depths, azimuths, flags); [o] are the interpolator
    objects as earlier calls left them and [j] is what freshly allocated memory contains.
    [interpolant n nodes mu A F] and the vocabulary for interleaved calls are in Spec_Interp.v. *)
From Coq Require Import String Reals Lra Lia List Bool Arith ZArith.
From Verif Require Import Base Tensor M_Subroutines M_LinAlg M_Assemble M_Pydisort M_Interp Spec Spec_RTE Spec_Sol Spec_Valid Spec_Interp Spec_Calls
  P_Sub3 P_Error P_Pydisort2 P_Interp3 P_Interp4 P_Interp5 Examples Examples3.
Import ListNotations.
Local Open Scope R_scope.

(** C14: the zeroth mode can always be interpolated, the intensity if no corrections apply to it. *)
Theorem C14_interpolate_accepts :
  forall p lg la jk out, linalg_ok la -> leggauss_ok (half p) (lg (half p)) -> pydisort p lg la jk = Ok out ->
  (exists it, interpolate lg (FU0 (po_u0 out)) = Ok it) /\
  (forall u, po_u out = Some u -> ~ nt_applies p -> exists it, interpolate lg (FU u) = Ok it).
Proof. intros p lg la jk out H1 H2 H3. split; [exact (interpolate_u0 p lg la jk out H1 H2 H3)|exact (interpolate_u p lg la jk out H1 H2 H3)]. Qed.
Print Assumptions C14_interpolate_accepts.
(** The value is, in each hemisphere, the polynomial of degree below N through the values at the
    quadrature cosines. *)
Theorem C14_interpolate_value :
  forall p lg la jk out, leggauss_ok (half p) (lg (half p)) -> pydisort p lg la jk = Ok out ->
  forall f it, returned out f -> interpolate lg f = Ok it ->
  forall o mu tau phi anti j A, cosines_ok mu -> plain f tau phi anti = Ok (PVal (PT A)) ->
  exists B F, snd (i_call it o (mkIA mu tau phi anti false false) j) = Ok (PVal (PT B)) /\
    squeezed B (length mu :: tl (shp A)) F /\ interpolant (half p) (po_mu out) mu A F.
Proof. intros p lg la jk out H2 H3 f it. exact (plain_value p lg la jk out H2 H3 f it). Qed.
Print Assumptions C14_interpolate_value.
(** In particular it is the value of the interpolated function at every quadrature cosine. *)
Theorem C14_interpolate_nodes :
  forall p lg la jk out, leggauss_ok (half p) (lg (half p)) -> pydisort p lg la jk = Ok out ->
  forall f it, returned out f -> interpolate lg f = Ok it ->
  forall o mu tau phi anti j A, cosines_ok mu -> plain f tau phi anti = Ok (PVal (PT A)) ->
  exists B F, snd (i_call it o (mkIA mu tau phi anti false false) j) = Ok (PVal (PT B)) /\ squeezed B (length mu :: tl (shp A)) F /\
    forall k i idx, (k < length mu)%nat -> (i < length (po_mu out))%nat -> inb (tl (shp A)) idx ->
      nth k mu 0 = nth i (po_mu out) 0 -> F (k :: idx) = elt A (i :: idx).
Proof. exact value_nodes. Qed.
Print Assumptions C14_interpolate_nodes.
(** Polynomials of degree below N in each hemisphere are reproduced at all cosines. *)
Theorem C14_interpolate_polynomials :
  forall p lg la jk out, leggauss_ok (half p) (lg (half p)) -> pydisort p lg la jk = Ok out ->
  forall f it, returned out f -> interpolate lg f = Ok it ->
  forall o mu tau phi anti j A, cosines_ok mu -> plain f tau phi anti = Ok (PVal (PT A)) ->
  exists B F, snd (i_call it o (mkIA mu tau phi anti false false) j) = Ok (PVal (PT B)) /\ squeezed B (length mu :: tl (shp A)) F /\
    forall idx (pu pd : list R), inb (tl (shp A)) idx -> (length pu <= half p)%nat -> (length pd <= half p)%nat ->
      (forall i, (i < length (po_mu out))%nat -> let x := nth i (po_mu out) 0 in
         elt A (i :: idx) = if Rlt_dec 0 x then peval pu x else peval pd x) ->
      forall k, (k < length mu)%nat -> let x := nth k mu 0 in
        F (k :: idx) = if Rlt_dec 0 x then peval pu x else peval pd x.
Proof. exact value_poly. Qed.
Print Assumptions C14_interpolate_polynomials.
(** Errors: cosines outside [-1, 1], and whatever error the interpolated function raises. *)
Theorem C14_interpolate_range :
  forall it o c j x, In x (ia_mu c) -> 1 < Rabs x -> exists msg, snd (i_call it o c j) = Err (EValue msg).
Proof. exact call_range. Qed.
Print Assumptions C14_interpolate_range.
Theorem C14_interpolate_passes_errors :
  forall p lg la jk out, pydisort p lg la jk = Ok out ->
  forall f it, returned out f -> interpolate lg f = Ok it ->
  forall o mu tau phi anti j e, cosines_ok mu -> plain f tau phi anti = Err e ->
  snd (i_call it o (mkIA mu tau phi anti false false) j) = Err e.
Proof. intros p lg la jk out H3 f it. exact (plain_error p lg la jk out H3 f it). Qed.
Print Assumptions C14_interpolate_passes_errors.
Theorem C14_interpolate_rejects_fluxes : forall lg g, exists e, interpolate lg (FFlux g) = Err e.
Proof. exact flux_rejected. Qed.
Print Assumptions C14_interpolate_rejects_fluxes.
Example C14_nonvacuous jk : exists out u it, linalg_ok (la_ex []) /\ leggauss_ok (half p1) (lg_12 (half p1)) /\
  pydisort p1 lg_12 (la_ex []) jk = Ok out /\ po_u out = Some u /\ ~ nt_applies p1 /\ interpolate lg_12 (FU u) = Ok it /\
  cosines_ok [1 / 2; - 1 / 3; 0; 1] /\ exists A, u [0; 1] [0; 1 / 2] false false false = Ok (PVal (PT A)) /\ shp A = [2; 2; 2]%nat.
Proof. apply interp_facts. Qed.

(** C15: the intensity. The result is what [u] returns for the same flags with the intensity replaced by
    its interpolant; the depths are the last output if asked for. *)
Theorem C15_extra_outputs_of_u :
  forall p lg la jk out, leggauss_ok (half p) (lg (half p)) -> pydisort p lg la jk = Ok out ->
  forall u it, po_u out = Some u -> interpolate lg (FU u) = Ok it ->
  forall o mu tau phi anti e t j r, cosines_ok mu -> u tau phi anti e t = Ok r ->
  exists r' A B F, snd (i_call it o (mkIA mu tau phi anti e t) j) = Ok r' /\ first_replaced r r' A B /\
    squeezed B (length mu :: tl (shp A)) F /\ interpolant (half p) (po_mu out) mu A F /\
    (t = true -> exists vs, r' = PTup vs /\ last vs (PR 0) = PA (p_tau p)).
Proof. exact extra_u. Qed.
Print Assumptions C15_extra_outputs_of_u.
(** The zeroth mode: asking for the depths does not give them. The flags are handed to [u0] by position,
    where [return_Fourier_error] is read as [return_tau_arr] and [return_tau_arr] as an internal flag. *)
Theorem C15_extra_outputs_of_u0_by_position :
  forall p lg la jk out, leggauss_ok (half p) (lg (half p)) -> pydisort p lg la jk = Ok out ->
  forall it, interpolate lg (FU0 (po_u0 out)) = Ok it ->
  forall o mu tau phi anti e t j r, cosines_ok mu -> po_u0 out tau anti e t = Ok r ->
  exists r' A B F, snd (i_call it o (mkIA mu tau phi anti e t) j) = Ok r' /\ first_replaced r r' A B /\
    squeezed B (length mu :: tl (shp A)) F /\ interpolant (half p) (po_mu out) mu A F.
Proof. exact extra_u0. Qed.
Print Assumptions C15_extra_outputs_of_u0_by_position.
Theorem C15_depths_of_u0_refuted :
  forall p lg la jk out, linalg_ok la -> leggauss_ok (half p) (lg (half p)) -> pydisort p lg la jk = Ok out ->
  forall it, interpolate lg (FU0 (po_u0 out)) = Ok it ->
  forall o mu tau phi j, cosines_ok mu -> depths_ok p tau -> (forall l, (l < nlayers p)%nat -> scl p l = 1) ->
  exists B D, snd (i_call it o (mkIA mu tau phi false false true) j) = Ok (PTup [PT B; PT D]) /\ shp D = [] /\ elt D [] = 0.
Proof. exact extra_u0_wrong. Qed.
Print Assumptions C15_depths_of_u0_refuted.
Example C15_nonvacuous jk : exists out u it, linalg_ok (la_ex []) /\ leggauss_ok (half p1) (lg_12 (half p1)) /\
  pydisort p1 lg_12 (la_ex []) jk = Ok out /\ po_u out = Some u /\ ~ nt_applies p1 /\ interpolate lg_12 (FU u) = Ok it /\
  cosines_ok [1 / 2; - 1 / 3; 0; 1] /\ exists A, u [0; 1] [0; 1 / 2] false false false = Ok (PVal (PT A)) /\ shp A = [2; 2; 2]%nat.
Proof. apply interp_facts. Qed.
Example C15_refuted_nonvacuous jk : exists out it, linalg_ok la_id /\ leggauss_ok (half p_dif) (lg_12 (half p_dif)) /\
  pydisort p_dif lg_12 la_id jk = Ok out /\ interpolate lg_12 (FU0 (po_u0 out)) = Ok it /\
  depths_ok p_dif [0; 1] /\ forall l, (l < nlayers p_dif)%nat -> scl p_dif l = 1.
Proof. apply dif_facts. Qed.

(** C16: a call gives the same whatever calls [hist] came before. *)
Theorem C16_interpolate_no_memory :
  forall p lg la jk out, leggauss_ok (half p) (lg (half p)) -> pydisort p lg la jk = Ok out ->
  forall f it, returned out f -> interpolate lg f = Ok it ->
  forall o o' hist c j j', same_ret (snd (i_call it (fst (i_calls it o hist)) c j)) (snd (i_call it o' c j')).
Proof. intros p lg la jk out H2 H3 f it. exact (history p lg la jk out H2 H3 f it). Qed.
Print Assumptions C16_interpolate_no_memory.
Example C16_nonvacuous jk : exists out u it, linalg_ok (la_ex []) /\ leggauss_ok (half p1) (lg_12 (half p1)) /\
  pydisort p1 lg_12 (la_ex []) jk = Ok out /\ po_u out = Some u /\ ~ nt_applies p1 /\ interpolate lg_12 (FU u) = Ok it /\
  cosines_ok [1 / 2; - 1 / 3; 0; 1] /\ exists A, u [0; 1] [0; 1 / 2] false false false = Ok (PVal (PT A)) /\ shp A = [2; 2; 2]%nat.
Proof. apply interp_facts. Qed.

(** C53: calls in progress at the same time. Every schedule in which no call overwrites values that
    another one has stored but not yet read gives every call the answer it would give alone; the full
    property, which has no such condition, is false. *)
Theorem C53_interleaved_calls_partial :
  forall p lg la jk out, leggauss_ok (half p) (lg (half p)) -> pydisort p lg la jk = Ok out ->
  forall f it, returned out f -> interpolate lg f = Ok it ->
  forall o calls sched i c j r,
  let w := (o, map (fun cj => TStart (fst cj) (snd cj)) calls) in
  exclusive it sched w -> nth_error calls i = Some (c, j) -> nth_error (snd (wrun it sched w)) i = Some (TDone r) ->
  same_ret r (alone it c).
Proof. intros p lg la jk out H2 H3 f it. exact (no_conflict p lg la jk out H2 H3 f it). Qed.
Print Assumptions C53_interleaved_calls_partial.
(** Calls no two of which have cosines in the same hemisphere can be interleaved in any way. *)
Theorem C53_different_hemispheres_partial :
  forall p lg la jk out, leggauss_ok (half p) (lg (half p)) -> pydisort p lg la jk = Ok out ->
  forall f it, returned out f -> interpolate lg f = Ok it ->
  forall o calls sched i c j r,
  (forall a b c1 j1 c2 j2 x y, a <> b -> nth_error calls a = Some (c1, j1) -> nth_error calls b = Some (c2, j2) ->
     In x (ia_mu c1) -> In y (ia_mu c2) -> 0 < x /\ y <= 0 \/ x <= 0 /\ 0 < y) ->
  let w := (o, map (fun cj => TStart (fst cj) (snd cj)) calls) in
  nth_error calls i = Some (c, j) -> nth_error (snd (wrun it sched w)) i = Some (TDone r) -> same_ret r (alone it c).
Proof. exact hemispheres. Qed.
Print Assumptions C53_different_hemispheres_partial.
(** Two calls with the same cosines that take turns: both return the answer of the second one. *)
Theorem C53_calls_in_turn_refuted :
  forall p lg la jk out, leggauss_ok (half p) (lg (half p)) -> pydisort p lg la jk = Ok out ->
  forall f it, returned out f -> interpolate lg f = Ok it ->
  forall o mu tau tau' phi phi' anti j j' A A', cosines_ok mu ->
  plain f tau phi anti = Ok (PVal (PT A)) -> plain f tau' phi' anti = Ok (PVal (PT A')) -> shp A = shp A' ->
  let c := mkIA mu tau phi anti false false in let c' := mkIA mu tau' phi' anti false false in
  exists r r', snd (wrun it (alternating 5) (o, [TStart c j; TStart c' j'])) = [TDone r; TDone r'] /\
    same_ret r (alone it c') /\ same_ret r' (alone it c').
Proof. intros p lg la jk out H2 H3 f it. exact (in_turn p lg la jk out H2 H3 f it). Qed.
Print Assumptions C53_calls_in_turn_refuted.
Theorem C53_interference_refuted : exists p lg la, linalg_ok la /\ leggauss_ok (half p) (lg (half p)) /\ forall jk, exists out it c c',
  pydisort p lg la jk = Ok out /\ interpolate lg (FU0 (po_u0 out)) = Ok it /\
  forall o j j', exists r r', snd (wrun it (alternating 5) (o, [TStart c j; TStart c' j'])) = [TDone r; TDone r'] /\
    same_ret r (alone it c') /\ ~ same_ret r (alone it c).
Proof. exact race_example. Qed.
Print Assumptions C53_interference_refuted.
(** Whatever the schedule, a call ends after at most five of its own steps. *)
Theorem C53_calls_end :
  forall it o calls sched i c j, nth_error calls i = Some (c, j) -> (5 <= count_occ Nat.eq_dec sched i)%nat ->
  exists r, nth_error (snd (wrun it sched (o, map (fun cj => TStart (fst cj) (snd cj)) calls))) i = Some (TDone r).
Proof. exact finishes. Qed.
Print Assumptions C53_calls_end.
(** Two calls in different hemispheres whose steps alternate. *)
Example C53_nonvacuous jk : exists out it c c', leggauss_ok (half p1) (lg_12 (half p1)) /\
  pydisort p1 lg_12 (la_ex []) jk = Ok out /\ interpolate lg_12 (FU0 (po_u0 out)) = Ok it /\ ia_mu c = [1 / 2] /\ ia_mu c' = [- 1 / 2] /\
  forall o j j', exclusive it (alternating 5) (o, [TStart c j; TStart c' j']) /\
    exists r r', snd (wrun it (alternating 5) (o, [TStart c j; TStart c' j'])) = [TDone r; TDone r'].
Proof. apply two_hemispheres. Qed.
