(** Properties C72-C73: symmetries of the reported radiation. *)
From Coq Require Import String Reals Lra Lia List Bool Arith ZArith.
From Verif Require Import Base Tensor Spec M_LinAlg Spec_RTE M_Subroutines M_Assemble M_Pydisort Spec_Sol Spec_Valid Spec_Calls Spec_Phys Spec_Sym
  P_Sub3 P_Pydisort4 P_Max3 P_Sym Examples Examples2 Examples3 Examples5 Examples8.
Import ListNotations.
Local Open Scope R_scope.

(** C72: reciprocity. Two calls with the same layers and the same reciprocal surface, lit only at the
    boundaries: the radiation that leaves the first, weighted with the illumination of the second,
    equals the radiation that leaves the second, weighted with the illumination of the first. *)
Theorem C72_reciprocity :
  forall p q lg la la' jk jk' out out', linalg_ok la -> linalg_ok la' -> leggauss_ok (half p) (lg (half p)) ->
  pydisort p lg la jk = Ok out -> pydisort q lg la' jk' = Ok out' -> same_medium p q ->
  forall w vn vp vn' vp' rho, double_gauss (half p) (po_mu out) w -> boundary_data p vn vp rho -> boundary_data q vn' vp' rho ->
  no_emission p -> no_emission q -> reciprocal_surface p (po_mu out) (rho 0%nat) ->
  exists A B, po_u0 out [0; bottom p] false false false = Ok (PVal (PT A)) /\ po_u0 out' [0; bottom p] false false false = Ok (PVal (PT B)) /\
    shp A = [(2 * half p)%nat; 2%nat] /\ shp B = [(2 * half p)%nat; 2%nat] /\
    rsum (half p) (fun i => w i * nth i (po_mu out) 0 * (elt A [i; 0%nat] * vn' i + elt A [(half p + i)%nat; 1%nat] * vp' i)) =
    rsum (half p) (fun i => w i * nth i (po_mu out) 0 * (elt B [i; 0%nat] * vn i + elt B [(half p + i)%nat; 1%nat] * vp i)).
Proof. exact call_recip. Qed.
Print Assumptions C72_reciprocity.
Example C72_nonvacuous jk jk' : let p := p_mo (1/2) (1/2) 0 1 2 0 in let q := p_mo (1/2) (1/2) 0 5 3 0 in
  exists out out' w, linalg_ok la_full /\ leggauss_ok (half p) (lg_12 (half p)) /\ pydisort p lg_12 la_full jk = Ok out /\ pydisort q lg_12 la_full jk' = Ok out' /\ same_medium p q /\
  double_gauss (half p) (po_mu out) w /\ boundary_data p (fun _ => 2) (fun _ => 1) (fun _ _ _ => 1/2) /\ boundary_data q (fun _ => 3) (fun _ => 5) (fun _ _ _ => 1/2) /\
  no_emission p /\ no_emission q /\ reciprocal_surface p (po_mu out) (fun _ _ => 1/2) /\ 0 < albedo_s p 0.
Proof.
  cbv zeta. destruct (mo_ok (1/2) (1/2) 0 1 2 0 ltac:(lra) ltac:(lra) ltac:(lra) ltac:(lra) jk) as (out & H). destruct (mo_ok (1/2) (1/2) 0 5 3 0 ltac:(lra) ltac:(lra) ltac:(lra) ltac:(lra) jk') as (out' & H').
  destruct (mo_facts (1/2) (1/2) 0 1 2 0 ltac:(lra) ltac:(lra) ltac:(lra) jk out H) as (w & F1 & _).
  exists out, out', w. split; [exact la_full_ok|]. split; [exact lg_12_ok1|]. split; [exact H|]. split; [exact H'|]. split; [constructor; reflexivity|]. split; [exact F1|].
  split; [apply mo_bd; lra|]. split; [apply mo_bd; lra|]. split; [split; [reflexivity|]; intros l t Hl _; apply mo_source; exact Hl|]. split; [split; [reflexivity|]; intros l t Hl _; apply mo_source; exact Hl|].
  split; [intros _ i j _ _; reflexivity|]. unfold albedo_s, scl, albedo, fwd. cbn. lra.
Qed.

(** C73: the atmosphere upside down. Without a beam and a surface, reversing the layers and exchanging
    the sources at the top and at the bottom exchanges upward and downward radiation. *)
Theorem C73_upside_down :
  forall p q lg la la' jk jk' out out', linalg_ok la -> linalg_ok la' -> leggauss_ok (half p) (lg (half p)) ->
  pydisort p lg la jk = Ok out -> pydisort q lg la' jk' = Ok out' -> linalg_unique la' -> upside_down p q ->
  forall vn vp rho rho', boundary_data p vn vp rho -> boundary_data q vp vn rho' ->
  forall tau, depths_ok q tau -> let tau' := map (fun t => bottom p - t) tau in
  (exists A B f, po_u0 out' tau false false false = Ok (PVal (PT A)) /\ po_u0 out tau' false false false = Ok (PVal (PT B)) /\
     squeezed B [streams p; length tau] f /\ squeezed A [streams p; length tau] (fun idx => f [opposite (half p) (nth 0 idx 0%nat); nth 1 idx 0%nat])) /\
  (exists A B B0, po_flux_up out' tau false false = Ok (PVal (PT A)) /\ po_flux_down out tau' false false = Ok (PTup [PT B; PT B0]) /\ teq A B) /\
  (exists A A0 B, po_flux_down out' tau false false = Ok (PTup [PT A; PT A0]) /\ po_flux_up out tau' false false = Ok (PVal (PT B)) /\ teq A B).
Proof. exact call_flip. Qed.
Print Assumptions C73_upside_down.
Example C73_nonvacuous jk jk' : let p := p_ud 1 (1/2) (4/5) (1/4) (1/5) 1 2 3 4 in let q := p_ud 2 (4/5) (1/2) (1/5) (1/4) 2 1 4 3 in
  exists out out', linalg_ok la_full /\ leggauss_ok (half p) (lg_12 (half p)) /\ pydisort p lg_12 la_full jk = Ok out /\ pydisort q lg_12 la_full jk' = Ok out' /\ linalg_unique la_full /\ upside_down p q /\
  boundary_data p (fun _ => 2) (fun _ => 1) (fun _ _ _ => 0) /\ boundary_data q (fun _ => 1) (fun _ => 2) (fun _ _ _ => 0).
Proof.
  cbv zeta. destruct (ud_ok 1 (1/2) (4/5) (1/4) (1/5) 1 2 3 4 ltac:(lra) ltac:(lra) ltac:(lra) ltac:(lra) ltac:(lra) ltac:(lra) jk) as (out & H).
  destruct (ud_ok 2 (4/5) (1/2) (1/5) (1/4) 2 1 4 3 ltac:(lra) ltac:(lra) ltac:(lra) ltac:(lra) ltac:(lra) ltac:(lra) jk') as (out' & H').
  exists out, out'. split; [exact la_full_ok|]. split; [exact lg_12_ok1|]. split; [exact H|]. split; [exact H'|]. split; [exact la_full_unique|]. split; [|split; apply ud_bd; lra].
  constructor; try reflexivity; try (split; reflexivity).
  - intros [|[|l]] Hl; [| |cbn in Hl; lia]; cbn; ring.
  - intros [|[|l]] Hl; [| |cbn in Hl; lia]; cbn; ring.
  - intros [|[|l]] Hl; [| |cbn in Hl; lia]; reflexivity.
  - intros [|[|l]] Hl; [| |cbn in Hl; lia]; reflexivity.
  - intros [|[|l]] k Hl Hk; [| |cbn in Hl; lia]; unfold phase; destruct k as [|[|k]]; reflexivity.
  - intros [|[|l]] t Hl _; [| |cbn in Hl; lia]; unfold source; cbn; ring.
Qed.
