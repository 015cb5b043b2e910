(** Vocabulary for statements about the comparison with reference results. *)
From Coq Require Import Reals List Arith.
From Verif Require Import Base Tensor M_Assemble M_Pydisort M_Compare Spec_Sol.
Import ListNotations.
Local Open Scope R_scope.

(** A difference relative to the reference value [r]; 0 by convention if the reference is 0. *)
Definition ratio (x r : R) : R := if Req_EM_T r 0 then 0 else x / r.
(** A pair of arrays of shape [s] holds the differences between [ref] and [val] and their ratios. *)
Definition pointwise (dq : tensor * tensor) (s : list nat) (ref val : list nat -> R) : Prop :=
  shp (fst dq) = s /\ shp (snd dq) = s /\
  forall idx, inb s idx -> elt (fst dq) idx = Rabs (ref idx - val idx) /\ elt (snd dq) idx = ratio (Rabs (ref idx - val idx)) (ref idx).
(** The largest entry of an array. *)
Definition largest (A : tensor) (x : R) : Prop :=
  (exists idx, inb (shp A) idx /\ elt A idx = x) /\ forall idx, inb (shp A) idx -> elt A idx <= x.
(** [x] is the largest entry of a 3-d array and [t] a depth where it occurs. *)
Definition largest_at (tau : list R) (A : tensor) (tx : R * R) : Prop :=
  largest A (snd tx) /\ exists i k h, inb (shp A) [i; k; h] /\ elt A [i; k; h] = snd tx /\ fst tx = nth k tau 0.
(** Directions that a mask selects, in order. *)
Definition selected (mask : list bool) : list nat := filter (fun i => nth i mask false) (seq 0 (length mask)).
(** Two values count as equal if they differ by at most [a] or relatively by less than [tol]. *)
Definition agrees (a tol ref val : R) : Prop := Rabs (ref - val) <= a \/ Rabs (ref - val) < tol * Rabs ref.

(** Reference arrays, mask and order of the directions have the shapes of the test-suite: [n] depths
    inside the atmosphere, every direction of the call, one or more azimuth angles. *)
Record comparable (p : py_in) (rd : refdata) (mask : list bool) (reorder : list nat) : Prop := mkCp {
  cp_depths : depths_ok p (rd_tau rd);
  cp_some : (0 < length (rd_tau rd))%nat /\ (0 < length (rd_phi rd))%nat;
  cp_up : shp (rd_flup rd) = [length (rd_tau rd)];
  cp_down : shp (rd_rfldn rd) = [length (rd_tau rd)];
  cp_direct : shp (rd_rfldir rd) = [length (rd_tau rd)];
  cp_u : shp (rd_uu rd) = [streams p; length (rd_tau rd); length (rd_phi rd)];
  cp_order : length reorder = streams p /\ forall i, In i reorder -> (i < streams p)%nat;
  cp_mask : length mask = streams p /\ In true mask
}.
Section Result.
  Variables (p : py_in) (rd : refdata).
  Let n := length (rd_tau rd).
  Let depth (idx : list nat) : R := nth (nth 0 idx 0%nat) (rd_tau rd) 0.
  (** The result [r] of a comparison with functions that report the upward, downward diffuse and
      direct fluxes [Fu], [Fd], [Fb]: differences and ratios at every depth, and their printed maxima. *)
  Definition fluxes_compared (Fu Fd Fb : R -> R) (r : compared) : Prop :=
    pointwise (cm_up r) [n] (elt (rd_flup rd)) (fun idx => Fu (depth idx)) /\
    pointwise (cm_down r) [n] (elt (rd_rfldn rd)) (fun idx => Fd (depth idx)) /\
    pointwise (cm_direct r) [n] (elt (rd_rfldir rd)) (fun idx => if Rlt_dec 0 (p_I0 p) then Fb (depth idx) else 0) /\
    Forall2 (fun dq xy => largest (fst dq) (fst xy) /\ largest (snd dq) (snd xy)) [cm_up r; cm_down r; cm_direct r] (cm_print r).
  (** The same for the intensity [G i t phi] in the selected directions. *)
  Definition intensities_compared (mask : list bool) (reorder : list nat) (G : nat -> R -> R -> R) (r : compared) : Prop :=
    exists dq w, cm_u r = Some dq /\ cm_print_u r = Some w /\
    pointwise dq [length (selected mask); n; length (rd_phi rd)]
      (fun idx => elt (rd_uu rd) [nth (nth 0 idx 0%nat) (selected mask) 0%nat; nth 1 idx 0%nat; nth 2 idx 0%nat])
      (fun idx => G (nth (nth (nth 0 idx 0%nat) (selected mask) 0%nat) reorder 0%nat) (nth (nth 1 idx 0%nat) (rd_tau rd) 0) (nth (nth 2 idx 0%nat) (rd_phi rd) 0)) /\
    largest_at (rd_tau rd) (fst dq) (fst w) /\ largest_at (rd_tau rd) (snd dq) (snd w).
  (** The test-suite's assertions about the fluxes. *)
  Definition fluxes_pass (a tol : R) (r : compared) : Prop :=
    assertion a tol (cm_up r) = true /\ assertion a tol (cm_down r) = true /\ assertion a tol (cm_direct r) = true.
End Result.
