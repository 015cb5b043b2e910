(** Vocabulary for the energy budget of the atmosphere. *)
From Coq Require Import String Reals Lra Lia List Bool Arith ZArith.
From Verif Require Import Base Tensor M_LinAlg M_Subroutines M_Assemble M_Pydisort Spec_Sol Spec_Phys.
Import ListNotations.
Local Open Scope R_scope.

(** Power per unit area that enters at the top: the diffuse illumination [vn], one value per downward
    direction, and the beam. *)
Definition received (p : py_in) (mu : list R) (w : nat -> R) (vn : nat -> R) : R :=
  2 * PI * rsum (half p) (fun i => w i * nth i mu 0 * vn i) + p_mu0 p * p_I0 p.

(** Share of the power arriving at the surface under the direction cosine [y] that leaves it upwards;
    [rho] is the azimuthal mean of the surface reflection. *)
Definition returned (p : py_in) (mu : list R) (w : nat -> R) (rho : R -> R -> R) (y : R) : R :=
  if Nat.ltb 0 (length (p_BDRF p)) then 2 * rsum (half p) (fun i => w i * nth i mu 0 * rho (nth i mu 0) y) else 0.
(** The surface returns at most what arrives, from every quadrature direction and from the sun. *)
Record returns_no_more (p : py_in) (mu : list R) (w : nat -> R) (rho : R -> R -> R) : Prop := mkRet {
  rt_diffuse : forall j, (j < half p)%nat -> returned p mu w rho (nth j mu 0) <= 1;
  rt_beam : 0 < p_I0 p -> returned p mu w rho (p_mu0 p) <= 1
}.

(** Two calls without a beam whose sources add up to those of thermal equilibrium at the intensity [B]:
    inside every layer, at the top, and at a surface whose emissivity is 1 minus its reflectance. *)
Record complementary (B : R) (p p' : py_in) (mu : list R) (w : nat -> R) (rho : R -> R -> R) (vn vp vn' vp' : nat -> R) : Prop := mkComp {
  co_beam : p_I0 p = 0 /\ p_I0 p' = 0;
  co_s : forall l t, (l < nlayers p)%nat -> top_of p l < t < bot_of p l -> source p l t + source p' l t = B;
  co_n : forall i, (i < half p)%nat -> vn i + vn' i = B;
  co_p : forall i, (i < half p)%nat -> vp i + vp' i = (1 - reflectance p mu w rho i) * B
}.
Definition add_up (A A' : tensor) (x : R) : Prop := shp A = shp A' /\ forall idx, inb (shp A) idx -> elt A idx + elt A' idx = x.
