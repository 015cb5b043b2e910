(** The mean intensity when all scattering is kept. *)
From Coq Require Import String Reals Lra Lia List Bool Arith ZArith.
From Coquelicot Require Import Coquelicot.
From Verif Require Import Base Tensor Spec Spec_RTE Calc M_Subroutines M_Assemble M_Pydisort Spec_Sol.
Import ListNotations.
Local Open Scope R_scope.

(** [V i t] solves the discrete-ordinates equation of the mean intensity with the given phase functions, however weak
    the scattering is, and the boundary conditions: [bvp] of [Spec_Unique] for mode 0 with [wphase_s] itself. *)
Record keeps_all (p : py_in) (mu : list R) (w : nat -> R) (vn vp : nat -> R) (rho : R -> R -> R) (V : nat -> R -> R) : Prop := mkKA {
  ka_rte : forall l i t, (l < nlayers p)%nat -> (i < streams p)%nat -> top_of p l < t < bot_of p l ->
    is_derive (V i) t (rte p mu w (wphase_s p l) 0 l i t (fun j => V j t) / nth i mu 0);
  ka_cont : forall i, (i < streams p)%nat -> cont_on 0 (bottom p) (V i);
  ka_top : forall i, (i < half p)%nat -> V (half p + i)%nat 0 = vn i;
  ka_bottom : forall i, (i < half p)%nat -> V i (bottom p) = vp i +
    (if Nat.ltb 0 (length (p_BDRF p)) then
       2 * rsum (half p) (fun j => rho (nth i mu 0) (nth j mu 0) * nth j mu 0 * w j * V (half p + j)%nat (bottom p))
       + p_mu0 p * p_I0 p / PI * rho (nth i mu 0) (p_mu0 p) * exp (- depth_s p (nlayers p - 1) (bottom p) / p_mu0 p)
     else 0)
}.

(** The call reports [V] as the mean intensity at all depths. *)
Definition reports_u0 (p : py_in) (out : py_out) (V : nat -> R -> R) : Prop :=
  forall tau, depths_ok p tau -> exists A, po_u0 out tau false false false = Ok (PVal (PT A)) /\
    squeezed A [streams p; length tau] (fun idx => V (nth 0 idx 0%nat) (nth (nth 1 idx 0%nat) tau 0)).
