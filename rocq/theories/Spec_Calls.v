(** Vocabulary for statements that compare two calls of pydisort. *)
From Coq Require Import String Reals Lra Lia List Bool Arith ZArith.
From Verif Require Import Base Tensor M_Subroutines M_Assemble M_Pydisort.
Import ListNotations.
Local Open Scope R_scope.

(** Equality of the values Python functions return: arrays by shape and elements. *)
Definition pv_eq (x y : pv) : Prop :=
  match x, y with
  | PT A, PT B => teq A B | PR r, PR r' => r = r' | PA l, PA l' => l = l' | PI_ l, PI_ l' => l = l'
  | _, _ => False
  end.
Definition pret_eq (x y : pret) : Prop :=
  match x, y with
  | PVal v, PVal w => pv_eq v w
  | PTup vs, PTup ws => Forall2 pv_eq vs ws
  | _, _ => False
  end.
(** Both calls return equal values, or both raise the same exception. *)
Definition same_ret (x y : res pret) : Prop :=
  match x, y with Ok v, Ok w => pret_eq v w | Err e, Err e' => e = e' | _, _ => False end.

(** The results of two calls of pydisort cannot be told apart: the returned functions give the same
    for all arguments and flags. [same_fluxes] leaves out the intensity function. *)
Record same_fluxes (out out' : py_out) : Prop := mkSF {
  sf_mu : po_mu out = po_mu out';
  sf_up : forall tau anti rt, same_ret (po_flux_up out tau anti rt) (po_flux_up out' tau anti rt);
  sf_down : forall tau anti rt, same_ret (po_flux_down out tau anti rt) (po_flux_down out' tau anti rt);
  sf_u0 : forall tau anti rt ra, same_ret (po_u0 out tau anti rt ra) (po_u0 out' tau anti rt ra);
  sf_Leg : po_Leg out = po_Leg out'
}.
Definition same_intensity (out out' : py_out) : Prop :=
  match po_u out, po_u out' with
  | Some u, Some u' => forall tau phi anti re rt, same_ret (u tau phi anti re rt) (u' tau phi anti re rt)
  | None, None => True
  | _, _ => False
  end.
(** The same for the intensity itself (not its antiderivative) at one or more azimuth angles. *)
Definition same_intensity_values (out out' : py_out) : Prop :=
  match po_u out, po_u out' with
  | Some u, Some u' => forall tau phi re rt, phi <> [] -> same_ret (u tau phi false re rt) (u' tau phi false re rt)
  | None, None => True
  | _, _ => False
  end.
Definition same_outputs (out out' : py_out) : Prop := same_fluxes out out' /\ same_intensity out out'.

(** Changing one argument of a call. *)
Definition with_options (p : py_in) (nf : option Z) (fl : bool) (bn : Z) (ag : bool) : py_in :=
  mkPI (p_tau p) (p_omega p) (p_NQuad p) (p_Leg p) (p_mu0 p) (p_I0 p) (p_phi0 p) (p_NLeg p) nf (p_bpos p) (p_bneg p)
       fl (p_f p) (p_NT p) (p_BDRF p) (p_s p) bn ag.
Definition with_only_flux (p : py_in) (fl : bool) : py_in := with_options p (p_NFourier p) fl (p_banded p) (p_autograd p).
Definition with_NFourier (p : py_in) (nf : option Z) : py_in := with_options p nf (p_only_flux p) (p_banded p) (p_autograd p).
Definition with_banded (p : py_in) (bn : Z) : py_in := with_options p (p_NFourier p) (p_only_flux p) bn (p_autograd p).
Definition with_autograd (p : py_in) (ag : bool) : py_in := with_options p (p_NFourier p) (p_only_flux p) (p_banded p) ag.

(** The second value is [c] times the first: arrays are multiplied by [c]; numbers (the Fourier
    error is relative), tau_arr and indices are the same. *)
Definition pv_scaled (c : R) (x y : pv) : Prop :=
  match x, y with PT A, PT B => teq (tscal c A) B | PT _, _ | _, PT _ => False | _, _ => pv_eq x y end.
Definition pret_scaled (c : R) (x y : pret) : Prop :=
  match x, y with
  | PVal v, PVal w => pv_scaled c v w
  | PTup vs, PTup ws => Forall2 (pv_scaled c) vs ws
  | _, _ => False
  end.
Definition ret_scaled (c : R) (x y : res pret) : Prop :=
  match x, y with Ok v, Ok w => pret_scaled c v w | Err e, Err e' => e = e' | _, _ => False end.
(** Every function of the second result gives [c] times what the first gives. *)
Record scaled_outputs (c : R) (out out' : py_out) : Prop := mkSO {
  so_mu : po_mu out = po_mu out';
  so_up : forall tau anti rt, ret_scaled c (po_flux_up out tau anti rt) (po_flux_up out' tau anti rt);
  so_down : forall tau anti rt, ret_scaled c (po_flux_down out tau anti rt) (po_flux_down out' tau anti rt);
  so_u0 : forall tau anti rt, ret_scaled c (po_u0 out tau anti rt false) (po_u0 out' tau anti rt false);
  so_u : match po_u out, po_u out' with
         | Some u, Some u' => forall tau phi anti re rt, ret_scaled c (u tau phi anti re rt) (u' tau phi anti re rt)
         | None, None => True
         | _, _ => False
         end
}.
(** The same call with all sources (beam, both boundaries, isotropic) multiplied by [c]. *)
Definition times_sources (c : R) (p : py_in) : py_in :=
  mkPI (p_tau p) (p_omega p) (p_NQuad p) (p_Leg p) (p_mu0 p) (c * p_I0 p) (p_phi0 p) (p_NLeg p) (p_NFourier p)
       (tscal c (p_bpos p)) (tscal c (p_bneg p)) (p_only_flux p) (p_f p) (p_NT p) (p_BDRF p)
       (mkA2 (nrow (p_s p)) (ncol (p_s p)) (fun l j => c * at2 (p_s p) l j)) (p_banded p) (p_autograd p).

(** A boundary source with a positive value. *)
Definition positive_entry (b : tensor) : Prop := exists idx, inb (shp b) idx /\ 0 < elt b idx.
