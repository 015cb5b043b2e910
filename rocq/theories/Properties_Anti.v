(** Property C43: antiderivatives with respect to optical depth. *)
From Coq Require Import String Reals Lra Lia List Bool Arith ZArith.
From Coquelicot Require Import Coquelicot.
From Verif Require Import Base Tensor Spec M_LinAlg M_Subroutines M_Assemble M_Pydisort Spec_Sol Spec_Valid Spec_Anti
  P_Sub P_Sub3 P_Pydisort4 P_Refute P_Error P_Anti2 Examples Examples3.
Import ListNotations.
Local Open Scope R_scope.

(** With one layer or without an isotropic source, the flagged functions report antiderivatives of
    the unflagged ones inside every layer: the upward flux, the downward fluxes (without a beam,
    or for one layer, or for one depth per call), the zeroth mode (with a beam) and the
    intensity (without the corrections for the truncated phase function). *)
Theorem C43_antiderivatives_partial :
  forall p lg la jk out, linalg_ok la -> leggauss_ok (half p) (lg (half p)) -> pydisort p lg la jk = Ok out ->
  nlayers p = 1%nat \/ ~ has_source p ->
  (exists f F, flux_is p (po_flux_up out) false f /\ flux_is p (po_flux_up out) true F /\ antiderivative p F f) /\
  (exists fd fb Fd Fb, down_is p (fun _ => True) (po_flux_down out) false fd fb /\
     down_is p (fun tau => p_I0 p = 0 \/ nlayers p = 1%nat \/ length tau = 1%nat) (po_flux_down out) true Fd Fb /\
     antiderivative p Fd fd /\ antiderivative p Fb fb) /\
  (0 < p_I0 p -> exists f F, u0_is p (po_u0 out) false f /\ u0_is p (po_u0 out) true F /\
     forall i, (i < streams p)%nat -> antiderivative p (F i) (f i)) /\
  (forall u, po_u out = Some u -> ~ nt_applies p -> exists f F, u_is p u false f /\ u_is p u true F /\
     forall i phi, (i < streams p)%nat -> antiderivative p (fun t => F i t phi) (fun t => f i t phi)).
Proof. exact call_anti. Qed.
Print Assumptions C43_antiderivatives_partial.
Example C43_nonvacuous jk : exists out u, linalg_ok la_id /\ leggauss_ok (half p_two) (lg_12 (half p_two)) /\ pydisort p_two lg_12 la_id jk = Ok out /\
  nlayers p_two = 2%nat /\ ~ has_source p_two /\ 0 < p_I0 p_two /\ po_u out = Some u /\ ~ nt_applies p_two.
Proof.
  destruct (p_two_ok jk) as (out & H). destruct (call_u p_two lg_12 la_id jk out H eq_refl) as (u & Hu). exists out, u.
  split; [exact la_id_ok|]. split; [exact lg_12_ok1|]. split; [exact H|]. split; [reflexivity|]. split; [exact p_two_nosource|].
  split; [cbn; lra|]. split; [exact Hu|]. intros [E _]. discriminate.
Qed.

(** The full property is false: with several layers and a beam the flagged downward flux raises
    an error for most numbers of depths, *)
Theorem C43_downward_flux_refuted :
  (forall p lg la jk out tau rt, leggauss_ok (half p) (lg (half p)) -> pydisort p lg la jk = Ok out ->
   0 < p_I0 p -> ~ has_source p -> (2 <= nlayers p)%nat -> (2 <= length tau)%nat -> length tau <> nlayers p -> depths_ok p tau ->
   po_flux_down out tau true rt = Err EShape) /\
  (forall jk, exists out, pydisort p_two lg_12 la_id jk = Ok out /\ po_flux_down out [0; 1; 2] true false = Err EShape).
Proof.
  split; [exact (fun p lg la jk out tau rt => fun Hlg Hok => down_anti_err p lg la jk out Hok tau rt)|].
  intros jk. destruct (p_two_ok jk) as (out & H). exists out. split; [exact H|].
  apply (down_anti_err p_two lg_12 la_id jk out H); try (cbn; lia); [cbn; lra|exact p_two_nosource|].
  intros t [<-|[<-|[<-|[]]]]; cbn; lra.
Qed.
Print Assumptions C43_downward_flux_refuted.

(** so does every flagged function with several layers and an isotropic source, *)
Theorem C43_isotropic_source_refuted :
  (forall p lg la jk out tau rt, leggauss_ok (half p) (lg (half p)) -> pydisort p lg la jk = Ok out ->
   has_source p -> (ncol (p_s p) <= 2)%nat -> (2 <= nlayers p)%nat -> (2 <= length tau)%nat -> length tau <> nlayers p -> depths_ok p tau ->
   po_flux_up out tau true rt = Err EShape /\ po_flux_down out tau true rt = Err EShape /\ po_u0 out tau true rt false = Err EShape /\
   (forall u phi e, po_u out = Some u -> ~ nt_applies p -> u tau phi true e rt = Err EShape)) /\
  (forall jk, exists out, pydisort p_iso2 lg_12 la_id jk = Ok out /\ po_flux_up out [0; 1; 2] true false = Err EShape).
Proof.
  split; [exact (fun p lg la jk out tau rt Hlg Hok => iso_anti_err p lg la jk out Hlg Hok tau rt)|].
  intros jk. destruct (p_iso2_ok jk) as (out & H). exists out. split; [exact H|].
  apply (iso_anti_err p_iso2 lg_12 la_id jk out lg_12_ok1 H); try (cbn; lia); [exact p_iso2_source|].
  intros t [<-|[<-|[<-|[]]]]; cbn; lra.
Qed.
Print Assumptions C43_isotropic_source_refuted.

(** and without a beam the flag of u0 leaves out the integration of the homogeneous part. *)
Theorem C43_u0_without_beam_refuted :
  (forall p lg la jk out tau rt, pydisort p lg la jk = Ok out -> p_I0 p = 0 -> ~ has_source p ->
   po_u0 out tau true rt false = po_u0 out tau false rt false) /\
  (forall jk, exists out, pydisort p_dif lg_12 la_id jk = Ok out /\
   forall f F, u0_is p_dif (po_u0 out) false f -> u0_is p_dif (po_u0 out) true F -> ~ antiderivative p_dif (F 1%nat) (f 1%nat)).
Proof. exact (conj (fun p lg la jk out tau rt Hok => u0_anti_ignored p lg la jk out Hok tau rt) u0_anti_wrong). Qed.
Print Assumptions C43_u0_without_beam_refuted.
