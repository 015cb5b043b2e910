(** Property C69: what the package's own comparison with reference results establishes. *)
From Coq Require Import String Reals Lra Lia List Bool Arith ZArith.
From Verif Require Import Base Tensor M_LinAlg M_Subroutines M_Assemble M_Pydisort M_Compare Spec_Sol Spec_Phys Spec_Full Spec_Compare
  P_Sub3 P_Pydisort6 P_Pydisort8 P_Max4 P_Full3 P_Compare Examples Examples3 Examples5 Examples6 Examples7.
Import ListNotations.
Local Open Scope R_scope.

(** C69: the comparison returns the absolute and relative differences of every flux and of every
    selected intensity, paired with the reference of the same depth, direction and azimuth, and
    prints their maxima and a depth where they occur. *)
Theorem C69_comparison_is_pointwise :
  forall p rd mask reorder gu gd u Fu Fd Fb G, 0 <= p_I0 p -> reports p gu Fu -> reports_down p gd Fd Fb -> comparable p rd mask reorder ->
  (2 <= streams p)%nat -> reports_u p u G ->
  exists r, compare rd mask reorder gu gd (Some u) = Ok r /\ fluxes_compared p rd Fu Fd Fb r /\ intensities_compared rd mask reorder G r.
Proof. exact compare_all. Qed.
Print Assumptions C69_comparison_is_pointwise.

(** C69, full property: if the assertions of the test-suite pass, all compared values agree with
    the references. Proved where the reference is positive; false elsewhere. *)
Theorem C69_passing_means_agreement_partial :
  forall p rd mask reorder gu gd u Fu Fd Fb G r a tol tolu, 0 <= p_I0 p -> (2 <= streams p)%nat ->
  reports p gu Fu -> reports_down p gd Fd Fb -> reports_u p u G -> comparable p rd mask reorder ->
  compare rd mask reorder gu gd (Some u) = Ok r -> fluxes_pass a tol r -> (forall dq, cm_u r = Some dq -> assertion a tolu dq = true) ->
  (forall k, (k < length (rd_tau rd))%nat -> let t := nth k (rd_tau rd) 0 in
    (0 < elt (rd_flup rd) [k] -> agrees a tol (elt (rd_flup rd) [k]) (Fu t)) /\
    (0 < elt (rd_rfldn rd) [k] -> agrees a tol (elt (rd_rfldn rd) [k]) (Fd t)) /\
    (0 < p_I0 p -> 0 < elt (rd_rfldir rd) [k] -> agrees a tol (elt (rd_rfldir rd) [k]) (Fb t))) /\
  (forall i k h, (i < streams p)%nat -> (k < length (rd_tau rd))%nat -> (h < length (rd_phi rd))%nat -> nth i mask false = true ->
    0 < elt (rd_uu rd) [i; k; h] -> agrees a tolu (elt (rd_uu rd) [i; k; h]) (G (nth i reorder 0%nat) (nth k (rd_tau rd) 0) (nth h (rd_phi rd) 0))).
Proof. exact compare_pass. Qed.
Print Assumptions C69_passing_means_agreement_partial.

(** C69 is false where the reference is 0 or negative: the assertions pass whatever is reported. *)
Theorem C69_passing_means_agreement_refuted :
  forall p rd mask reorder gu gd Fu Fd Fb, 0 <= p_I0 p -> reports p gu Fu -> reports_down p gd Fd Fb -> comparable p rd mask reorder ->
  (forall k, (k < length (rd_tau rd))%nat -> elt (rd_flup rd) [k] <= 0 /\ elt (rd_rfldn rd) [k] <= 0 /\ elt (rd_rfldir rd) [k] <= 0) ->
  exists r, compare rd mask reorder gu gd None = Ok r /\ forall a tol, 0 < tol -> fluxes_pass a tol r.
Proof. exact compare_blind. Qed.
Print Assumptions C69_passing_means_agreement_refuted.

(** A call in equilibrium whose fluxes are [PI * 2]: references 0 pass the assertions. *)
Example C69_nonvacuous jk : let p := p_az 0 1 2 2 in exists out u Fu Fd Fb G, pydisort p lg_12 la_full jk = Ok out /\ po_u out = Some u /\
  0 <= p_I0 p /\ (2 <= streams p)%nat /\ reports p (po_flux_up out) Fu /\ reports_down p (po_flux_down out) Fd Fb /\ reports_u p u G /\
  (forall x, comparable p (rd0 x) [true; false] [1; 0]%nat) /\ Fu 0 = PI * 2.
Proof.
  cbv zeta. destruct (az_ok 0 1 2 2 ltac:(lra) ltac:(lra) jk) as (out & H). destruct (az_facts 0 1 2 2 jk out H) as (u & w & F1 & F2 & F3 & F4).
  destruct (modes_exist (p_az 0 1 2 2) lg_12 la_full jk out la_full_ok lg_12_ok1 H) as (U & HU). destruct (call_fluxes (p_az 0 1 2 2) lg_12 la_full jk out la_full_ok lg_12_ok1 H U HU) as (w' & D & R1 & R2).
  destruct (rep_solves (p_az 0 1 2 2) lg_12 la_full jk out u la_full_ok lg_12_ok1 H F1 (az_modes 0 1 2 2) w (fun _ => 2) (fun _ => 1) (fun _ _ _ => 1/2) F2 (az_bd 0 1 2 2 ltac:(lra) ltac:(lra))) as ((G & HG) & _).
  exists out, u. do 2 eexists. exists (direct (p_az 0 1 2 2)), G. split; [exact H|]. split; [exact F1|]. split; [cbn; lra|]. split; [cbn; lia|]. split; [exact R1|]. split; [exact R2|]. split; [exact HG|]. split.
  - intros x. assert (D0 : depths_ok (p_az 0 1 2 2) [0; 3]) by (intros t [<-|[<-|[]]]; cbn; lra).
    constructor; try reflexivity; cbn; auto.
    + split; [reflexivity|]. intros i [<-|[<-|[]]]; lia.
  - assert (D0 : depths_ok (p_az 0 1 2 2) [0]) by (intros t [<-|[]]; cbn; lra).
    assert (X : exists A, po_flux_up out [0] false false = Ok (PVal (PT A)) /\ all_eq A (PI * 2)).
    { eapply (call_equi (p_az 0 1 2 2) lg_12 la_full jk out) with (w := w) (vn := fun _ => 2) (vp := fun _ => 1) (rho := fun _ _ _ => 1/2); try exact D0.
      all: try exact la_full_ok. all: try exact lg_12_ok1. all: try exact la_full_unique. all: try exact H. all: try exact F2. all: try (apply az_bd; lra). all: try reflexivity.
      - intros l Hl. right. destruct (az_ab 0 1 2 2 l Hl) as (Z & _). lra.
      - intros l t Hl _. apply az_source. exact Hl.
      - intros i Hi. rewrite F4 by exact Hi. lra. }
    destruct X as (A & EA & QA). destruct (R1 [0] D0) as (A' & EA' & [SA SE]). assert (A' = A) as -> by congruence.
    unfold tsqueeze in SA, SE. cbn [shp elt] in SA, SE. rewrite SA in SE. specialize (SE [] I). rewrite (QA []) in SE by (rewrite SA; exact I). cbn [unsq length Nat.eqb nth] in SE. symmetry. exact SE.
Qed.
