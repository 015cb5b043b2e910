(** Vocabulary for statements about subroutines.interpolate. *)
From Coq Require Import Reals List Bool Arith.
From Verif Require Import Base Tensor M_Subroutines M_Assemble M_Pydisort M_Interp Spec.
Import ListNotations.
Local Open Scope R_scope.

(** [F], as a function of the index of a cosine and the remaining indices, is in each hemisphere
    the polynomial of degree below [n] through the rows of [A] at the [n] cosines [nodes] of that hemisphere
    (upward ones first); mu = 0 belongs to the downward hemisphere. *)
Definition interpolant (n : nat) (nodes mu : list R) (A : tensor) (F : list nat -> R) : Prop :=
  forall idx, inb (tl (shp A)) idx -> exists P Q : list R,
    (length P <= n)%nat /\ (length Q <= n)%nat /\
    (forall i, (i < n)%nat -> peval P (nth i nodes 0) = elt A (i :: idx) /\
                              peval Q (nth (n + i) nodes 0) = elt A ((n + i)%nat :: idx)) /\
    forall k, (k < length mu)%nat ->
      F (k :: idx) = if Rlt_dec 0 (nth k mu 0) then peval P (nth k mu 0) else peval Q (nth k mu 0).

(** The second returned value is the first one with the array [A] (the only or the first output)
    replaced by [B]. *)
Definition first_replaced (r r' : pret) (A B : tensor) : Prop :=
  (r = PVal (PT A) /\ r' = PVal (PT B)) \/
  (exists rest, r = PTup (PT A :: rest) /\ r' = PTup (PT B :: rest)).
Definition cosines_ok (mu : list R) : Prop := forall x, In x mu -> Rabs x <= 1.

(** Call [t] is about to give new values to an interpolator object from which call [t'] has yet to
    read the values it gave it. *)
Definition conflict (t t' : thread) : Prop :=
  (exists l l', t = TSetPos l /\ t' = TEvalPos l' /\ exists x, In x (lo_mu l) /\ 0 < x) \/
  (exists l l', t = TSetNeg l /\ t' = TEvalNeg l' /\ exists x, In x (lo_mu l) /\ x <= 0).
(** A schedule without conflicts. *)
Fixpoint exclusive (it : interp) (sched : list nat) (w : world) : Prop :=
  match sched with
  | [] => True
  | i :: r => (forall j t t', j <> i -> nth_error (snd w) i = Some t -> nth_error (snd w) j = Some t' -> ~ conflict t t') /\
              exclusive it r (wstep it w i)
  end.
(** Two calls that take steps in turn. *)
Definition alternating (n : nat) : list nat := concat (repeat [0%nat; 1%nat] n).
(** No call has used the objects yet; a call on its own. *)
Definition fresh : objs := mkOB None None.
Definition alone (it : interp) (c : iargs) : res pret := snd (i_call it fresh c (fun _ => 0)).

(** The functions of a result of pydisort that can be interpolated. *)
Definition returned (out : py_out) (f : pyfun) : Prop :=
  f = FU0 (po_u0 out) \/ exists u, po_u out = Some u /\ f = FU u.
(** Calling such a function without extra outputs ([phi] only for [u]). *)
Definition plain (f : pyfun) (tau phi : list R) (anti : bool) : res pret :=
  match f with
  | FU u => u tau phi anti false false
  | FU0 g => g tau anti false false
  | FFlux g => g tau anti false
  end.
