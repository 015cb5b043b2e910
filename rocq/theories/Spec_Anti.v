(** Vocabulary for the functions returned by pydisort with the flag is_antiderivative_wrt_tau. *)
From Coq Require Import String Reals Lra Lia List Bool Arith ZArith.
From Coquelicot Require Import Coquelicot.
From Verif Require Import Base Tensor M_Subroutines M_Assemble M_Pydisort Spec_Sol.
Import ListNotations.
Local Open Scope R_scope.

Section Anti.
  Variable p : py_in.
  (** [g], called with the flag [anti] for all depths, reports the values of [f]. *)
  Definition flux_is (g : list R -> bool -> bool -> res pret) (anti : bool) (f : R -> R) : Prop :=
    forall tau, depths_ok p tau -> exists A, g tau anti false = Ok (PVal (PT A)) /\
      squeezed A [length tau] (fun idx => f (nth (nth 0 idx 0%nat) tau 0)).
  (** The same for the pair of downward fluxes (diffuse, direct); [many] restricts the depths. *)
  Definition down_is (many : list R -> Prop) (g : list R -> bool -> bool -> res pret) (anti : bool) (fd fb : R -> R) : Prop :=
    forall tau, depths_ok p tau -> many tau -> exists A B, g tau anti false = Ok (PTup [PT A; PT B]) /\
      squeezed A [length tau] (fun idx => fd (nth (nth 0 idx 0%nat) tau 0)) /\
      (0 < p_I0 p -> squeezed B [length tau] (fun idx => fb (nth (nth 0 idx 0%nat) tau 0))).
  Definition u0_is (g : list R -> bool -> bool -> bool -> res pret) (anti : bool) (f : nat -> R -> R) : Prop :=
    forall tau, depths_ok p tau -> exists A, g tau anti false false = Ok (PVal (PT A)) /\
      squeezed A [streams p; length tau] (fun idx => f (nth 0 idx 0%nat) (nth (nth 1 idx 0%nat) tau 0)).
  Definition u_is (u : list R -> list R -> bool -> bool -> bool -> res pret) (anti : bool) (f : nat -> R -> R -> R) : Prop :=
    forall tau phi, depths_ok p tau -> exists A, u tau phi anti false false = Ok (PVal (PT A)) /\
      squeezed A [streams p; length tau; length phi] (fun idx => f (nth 0 idx 0%nat) (nth (nth 1 idx 0%nat) tau 0) (nth (nth 2 idx 0%nat) phi 0)).
  (** [F] is an antiderivative of [f] inside every layer. *)
  Definition antiderivative (F f : R -> R) : Prop :=
    forall l t, (l < nlayers p)%nat -> top_of p l < t < bot_of p l -> is_derive F t (f t).
End Anti.
