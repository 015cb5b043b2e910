(** Properties of pairs of calls of pydisort that differ in options which should not matter.

    [with_banded p bn], [with_NFourier p nf], [with_only_flux p fl] and [with_autograd p ag] are the
    arguments [p] with one option replaced. [same_outputs out out'] says that the functions returned
    by two calls give the same answers for all arguments and flags; [same_fluxes] leaves out the
    intensity function. [linalg_unique la] says that the linear solvers of [la] answer only when
    the answer is unique, [linalg_complete la] that they answer whenever exactly one answer exists. *)
From Coq Require Import String Reals Lra Lia List Bool Arith ZArith.
From Verif Require Import Base Tensor Spec M_LinAlg Spec_RTE M_Subroutines M_GenPart M_Coeffs M_Assemble M_Pydisort Spec_Sol Spec_Calls
  P_Sub3 P_Cong P_Whole P_Options P_Pydisort2 Examples Examples2 Examples3.
Import ListNotations.
Local Open Scope R_scope.

(** C24: the diagonal-ordered matrix holds the dense matrix. *)
Theorem C24_banded_matrix_is_dense_matrix :
  forall g m bd, (1 <= sc_N g)%nat -> (1 <= sc_NLayers g)%nat ->
  let n := (sc_NLayers g * (2 * sc_N g))%nat in
  exists F, band_lhs g m bd (fun _ => 0) = Ok F /\
    (forall i j, (i < n)%nat -> (j < n)%nat ->
       banded_elt (3 * sc_N g - 1) (3 * sc_N g - 1) (rows (6 * sc_N g - 1) n (dof_mat g F)) i j = dense_lhs g m bd (fun _ _ => 0) i j) /\
    (forall i j, (i < n)%nat -> (j < n)%nat -> (i + (3 * sc_N g - 1) < j \/ j + (3 * sc_N g - 1) < i)%nat ->
       dense_lhs g m bd (fun _ _ => 0) i j = 0).
Proof. exact banded_is_dense. Qed.
Print Assumptions C24_banded_matrix_is_dense_matrix.
(** The choice of the solver does not change any output. *)
Theorem C24_banded_threshold_irrelevant :
  forall p lg la bn jk jk' out out', linalg_ok la -> linalg_unique la -> leggauss_ok (half p) (lg (half p)) ->
  pydisort p lg la jk = Ok out -> pydisort (with_banded p bn) lg la jk' = Ok out' -> same_outputs out out'.
Proof. exact call_banded. Qed.
Print Assumptions C24_banded_threshold_irrelevant.
(** With exact solvers it does not change whether the call succeeds either. *)
Theorem C24_banded_threshold_same_success :
  forall p lg la bn jk jk' out, linalg_ok la -> linalg_unique la -> linalg_complete la -> leggauss_ok (half p) (lg (half p)) ->
  pydisort p lg la jk = Ok out -> (3 <= bn)%Z -> exists out', pydisort (with_banded p bn) lg la jk' = Ok out' /\ same_outputs out out'.
Proof. exact call_banded_ok. Qed.
Print Assumptions C24_banded_threshold_same_success.
Example C24_nonvacuous jk jk' : exists out out', linalg_ok la_id /\ linalg_unique la_id /\ linalg_complete la_id /\
  leggauss_ok (half (p3 3)) (lg_12 (half (p3 3))) /\
  pydisort (p3 3) lg_12 la_id jk = Ok out /\ pydisort (with_banded (p3 3) 10) lg_12 la_id jk' = Ok out' /\
  (p_banded (p3 3) <= Z.of_nat (nlayers (p3 3)) < 10)%Z.
Proof.
  destruct (p3_ok_id 3 jk ltac:(lia)) as (out & H). destruct (p3_ok_id 10 jk' ltac:(lia)) as (out' & H'). exists out, out'.
  split; [exact la_id_ok|]. split; [exact la_id_unique|]. split; [exact la_id_complete|]. split; [exact leggauss1_ok|].
  split; [exact H|]. split; [exact H'|]. cbn. lia.
Qed.

(** C25: a Fourier mode does not depend on which other modes are computed. *)
Theorem C25_modes_do_not_leak :
  forall p lg la nf jk jk' out, linalg_ok la -> leggauss_ok (half p) (lg (half p)) ->
  pydisort p lg la jk = Ok out -> (1 <= nmodes (with_NFourier p nf) <= nmodes p)%nat ->
  exists out', pydisort (with_NFourier p nf) lg la jk' = Ok out' /\
    forall U U', modes_of p out U -> modes_of (with_NFourier p nf) out' U' ->
    forall m i t, seen p m -> seen (with_NFourier p nf) m -> (i < streams p)%nat -> 0 <= t <= bottom p -> U m i t = U' m i t.
Proof. exact call_modes. Qed.
Print Assumptions C25_modes_do_not_leak.
(** The loop over modes gives for each mode what one step on zeroed buffers gives. *)
Theorem C25_fresh_buffers :
  forall g la clob jC jR, (1 <= sc_N g)%nat -> (1 <= sc_NLayers g)%nat ->
  let fresh := mkSS (fun _ _ => 0) (fun _ => 0) (fun _ => 0) (fun _ _ => 0) in
  match solve_for_coeffs g la clob jC jR with
  | Ok GC => forall m, (m < sc_NFourier g)%nat ->
      exists s, sc_step g la (fun _ _ => 0) fresh m = Ok s /\
        forall l i j, GC m l i j = sc_G g m l i j * ss_C s m (l * (2 * sc_N g) + j)%nat
  | Err e => exists m, (m < sc_NFourier g)%nat /\ sc_step g la (fun _ _ => 0) fresh m = Err e
  end.
Proof. exact fresh_buffers. Qed.
Print Assumptions C25_fresh_buffers.
Example C25_nonvacuous jk jk' : exists out out' U U', linalg_ok (la_ex []) /\ leggauss_ok (half p1) (lg_12 (half p1)) /\
  pydisort p1 lg_12 (la_ex []) jk = Ok out /\ nmodes p1 = 2%nat /\ nmodes (with_NFourier p1 (Some 1%Z)) = 1%nat /\
  pydisort (with_NFourier p1 (Some 1%Z)) lg_12 (la_ex []) jk' = Ok out' /\
  modes_of p1 out U /\ modes_of (with_NFourier p1 (Some 1%Z)) out' U' /\ seen p1 0 /\ seen (with_NFourier p1 (Some 1%Z)) 0.
Proof.
  destruct (p1_facts jk) as (out & U & H). exists out.
  destruct (call_modes p1 lg_12 (la_ex []) (Some 1%Z) jk jk' out) as (out' & H' & _); try tauto; [cbn; lia|].
  destruct (call_Umode (with_NFourier p1 (Some 1%Z)) lg_12 (la_ex []) jk' out' (la_ex_ok []) leggauss1_ok H') as (ss & r & sv & _ & _ & _ & HU').
  exists out', U, (Umode (with_NFourier p1 (Some 1%Z)) lg_12 ss r sv). repeat (split; [first [tauto|reflexivity]|]).
  split; (split; [cbn; lia|left; reflexivity]).
Qed.

(** C42: only_flux. *)
Theorem C42_only_flux_irrelevant_for_fluxes :
  forall p lg la jk jk' out, linalg_ok la -> leggauss_ok (half p) (lg (half p)) ->
  pydisort (with_only_flux p false) lg la jk = Ok out ->
  exists out', pydisort (with_only_flux p true) lg la jk' = Ok out' /\ same_fluxes out out' /\ po_u out' = None.
Proof. exact call_only_flux. Qed.
Print Assumptions C42_only_flux_irrelevant_for_fluxes.
Example C42_nonvacuous jk : exists out, linalg_ok (la_ex []) /\ leggauss_ok (half p1) (lg_12 (half p1)) /\
  pydisort (with_only_flux p1 false) lg_12 (la_ex []) jk = Ok out /\ exists u, po_u out = Some u.
Proof. destruct (p1_facts jk) as (out & U & H). exists out. repeat (split; [tauto|]). tauto. Qed.

(** C55: uninitialised memory. *)
Theorem C55_uninitialised_memory_irrelevant :
  forall p lg la jk jk', linalg_ok la -> leggauss_ok (half p) (lg (half p)) ->
  match pydisort p lg la jk, pydisort p lg la jk' with
  | Ok out, Ok out' => same_outputs out out'
  | Err e, Err e' => e = e'
  | _, _ => False
  end.
Proof. exact call_junk. Qed.
Print Assumptions C55_uninitialised_memory_irrelevant.
Example C55_nonvacuous jk jk' : exists out out', linalg_ok (la_ex []) /\ leggauss_ok (half p1) (lg_12 (half p1)) /\
  pydisort p1 lg_12 (la_ex []) jk = Ok out /\ pydisort p1 lg_12 (la_ex []) jk' = Ok out'.
Proof. destruct (p1_ok jk) as (out & H), (p1_ok jk') as (out' & H'). exists out, out'. split; [apply la_ex_ok|]. split; [exact leggauss1_ok|]. auto. Qed.

(** C56: the autograd flag. [same_intensity_values]: the intensity itself at one or more azimuth angles. *)
Theorem C56_autograd_flag_irrelevant :
  forall p lg la ag jk jk' out, linalg_ok la -> leggauss_ok (half p) (lg (half p)) ->
  pydisort p lg la jk = Ok out ->
  exists out', pydisort (with_autograd p ag) lg la jk' = Ok out' /\ same_fluxes out out' /\ same_intensity_values out out' /\
    ((nt_applies p -> (4 <= p_NQuad p)%Z) -> same_intensity out out').
Proof. exact call_autograd. Qed.
Print Assumptions C56_autograd_flag_irrelevant.
Example C56_nonvacuous jk : exists out, linalg_ok (la_ex []) /\ leggauss_ok (half p1) (lg_12 (half p1)) /\
  pydisort p1 lg_12 (la_ex []) jk = Ok out /\ (nt_applies p1 -> (4 <= p_NQuad p1)%Z).
Proof. destruct (p1_facts jk) as (out & U & H). exists out. repeat (split; [tauto|]). tauto. Qed.

(** C57: the number of Fourier modes. *)
Theorem C57_fluxes_independent_of_NFourier :
  forall p lg la nf jk jk' out, linalg_ok la -> leggauss_ok (half p) (lg (half p)) ->
  pydisort p lg la jk = Ok out -> (1 <= nmodes (with_NFourier p nf) <= nmodes p)%nat ->
  exists out', pydisort (with_NFourier p nf) lg la jk' = Ok out' /\ same_fluxes out out'.
Proof. exact call_NFourier. Qed.
Print Assumptions C57_fluxes_independent_of_NFourier.
Example C57_nonvacuous jk : exists out, linalg_ok (la_ex []) /\ leggauss_ok (half p1) (lg_12 (half p1)) /\
  pydisort p1 lg_12 (la_ex []) jk = Ok out /\ nmodes p1 = 2%nat /\ nmodes (with_NFourier p1 (Some 1%Z)) = 1%nat.
Proof. destruct (p1_facts jk) as (out & U & H). exists out. repeat (split; [tauto|]). reflexivity. Qed.
