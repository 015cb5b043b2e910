(** Vocabulary for statements about the uniqueness of the reported solution. *)
From Coq Require Import String Reals Lra Lia List Bool Arith ZArith.
From Coquelicot Require Import Coquelicot.
From Verif Require Import Base Tensor Spec M_LinAlg Spec_RTE M_Subroutines M_Assemble M_Pydisort Spec_Sol Spec_Calls.
Import ListNotations.
Local Open Scope R_scope.

(** The two-point boundary-value problem for Fourier mode [m] of the intensity: [V i t] in direction
    [i] at optical depth [t]; [mu], [w] the quadrature; [vn], [vp] the prescribed intensities at the
    top and at the bottom; [rho] mode [m] of the surface reflection. *)
Record bvp (p : py_in) (mu : list R) (w : nat -> R) (vn vp : nat -> R) (rho : R -> R -> R) (m : nat) (V : nat -> R -> R) : Prop := mkBVP {
  bvp_rte : forall l i wg t, (l < nlayers p)%nat -> (i < streams p)%nat -> top_of p l < t < bot_of p l ->
    is_cutoff (albedo_s p l) (wphase_s p l) (ncoeffs p) m wg ->
    is_derive (V i) t (rte p mu w wg m l i t (fun j => V j t) / nth i mu 0);
  bvp_cont : forall i, (i < streams p)%nat -> cont_on 0 (bottom p) (V i);
  bvp_top : forall i, (i < half p)%nat -> V (half p + i)%nat 0 = if Nat.eqb m 0 then vn i else 0;
  bvp_bottom : forall i, (i < half p)%nat -> V i (bottom p) = (if Nat.eqb m 0 then vp i else 0) +
    (if Nat.ltb m (length (p_BDRF p)) then
       (if Nat.eqb m 0 then 2 else 1)
         * rsum (half p) (fun j => rho (nth i mu 0) (nth j mu 0) * nth j mu 0 * w j * V (half p + j)%nat (bottom p))
       + p_mu0 p * p_I0 p / PI * rho (nth i mu 0) (p_mu0 p) * exp (- depth_s p (nlayers p - 1) (bottom p) / p_mu0 p)
     else 0)
}.

(** The results of two calls report the same intensities and fluxes (not antiderivatives, not the
    Fourier error). *)
Record same_values (out out' : py_out) : Prop := mkSV {
  sv_mu : po_mu out = po_mu out';
  sv_up : forall tau rt, same_ret (po_flux_up out tau false rt) (po_flux_up out' tau false rt);
  sv_down : forall tau rt, same_ret (po_flux_down out tau false rt) (po_flux_down out' tau false rt);
  sv_u0 : forall tau rt ra, same_ret (po_u0 out tau false rt ra) (po_u0 out' tau false rt ra);
  sv_u : match po_u out, po_u out' with
         | Some u, Some u' => forall tau phi rt, same_ret (u tau phi false false rt) (u' tau phi false false rt)
         | None, None => True
         | _, _ => False
         end
}.

(** The layers of [q] cut the atmosphere of [p] more finely: layer [l] of [q] is a part of layer
    [g l] of [p] with the same optical properties. The other arguments agree. *)
Record refines (p q : py_in) (g : nat -> nat) : Prop := mkRF {
  rf_bottom : bottom q = bottom p;
  rf_layer : forall l, (l < nlayers q)%nat -> (g l < nlayers p)%nat /\ top_of p (g l) <= top_of q l /\ bot_of q l <= bot_of p (g l);
  rf_albedo : forall l, (l < nlayers q)%nat -> albedo q l = albedo p (g l);
  rf_fwd : forall l, (l < nlayers q)%nat -> fwd q l = fwd p (g l);
  rf_phase : forall l k, (l < nlayers q)%nat -> (k < ncoeffs p)%nat -> phase q l k = phase p (g l) k;
  rf_source : forall l t, (l < nlayers q)%nat -> source q l t = source p (g l) t;
  rf_NQuad : p_NQuad q = p_NQuad p;
  rf_ncoeffs : ncoeffs q = ncoeffs p;
  rf_nmodes : nmodes q = nmodes p;
  rf_flux : p_only_flux q = p_only_flux p;
  rf_beam : p_mu0 q = p_mu0 p /\ p_I0 q = p_I0 p /\ p_phi0 q = p_phi0 p;
  rf_bneg : p_bneg q = p_bneg p;
  rf_bpos : p_bpos q = p_bpos p;
  rf_BDRF : p_BDRF q = p_BDRF p
}.

(** Two results report the same intensities and fluxes, without the optional extra outputs; the
    azimuth-dependent intensity [u] only if [withu]. *)
Record same_reports (withu : Prop) (out out' : py_out) : Prop := mkSR {
  sr_mu : po_mu out = po_mu out';
  sr_up : forall tau, same_ret (po_flux_up out tau false false) (po_flux_up out' tau false false);
  sr_down : forall tau, same_ret (po_flux_down out tau false false) (po_flux_down out' tau false false);
  sr_u0 : forall tau, same_ret (po_u0 out tau false false false) (po_u0 out' tau false false false);
  sr_u : withu -> match po_u out, po_u out' with
         | Some u, Some u' => forall tau phi, same_ret (u tau phi false false false) (u' tau phi false false false)
         | None, None => True
         | _, _ => False
         end
}.

(** Layer [l] cut at the optical depth [s]: its entry is repeated in every list of layers. *)
Definition twice {A} (l : nat) (xs : list A) : list A := firstn (S l) xs ++ skipn l xs.
Definition twice_row (l : nat) (a : arr2) : arr2 := mkA2 (S (nrow a)) (ncol a) (fun i j => at2 a (if Nat.leb i l then i else i - 1)%nat j).
Definition split (p : py_in) (l : nat) (s : R) : py_in :=
  mkPI (firstn l (p_tau p) ++ s :: skipn l (p_tau p)) (twice l (p_omega p)) (p_NQuad p) (twice_row l (p_Leg p))
    (p_mu0 p) (p_I0 p) (p_phi0 p) (p_NLeg p) (p_NFourier p) (p_bpos p) (p_bneg p) (p_only_flux p)
    (twice l (p_f p)) (p_NT p) (p_BDRF p) (if Nat.eqb (nrow (p_s p)) (nlayers p) then twice_row l (p_s p) else p_s p) (p_banded p) (p_autograd p).
