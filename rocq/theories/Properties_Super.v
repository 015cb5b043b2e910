(** Property C64, the corrected intensity. *)
From Coq Require Import String Reals Lra Lia List Bool Arith ZArith.
From Verif Require Import Base Tensor Spec M_LinAlg M_Subroutines M_Assemble M_Pydisort Spec_Sol Spec_Valid Spec_Phys Spec_NT
  P_Gauss P_Pydisort4 P_Pydisort8 P_Super2 P_Lossy3 P_NT3 Examples5 Examples13.
Import ListNotations.
Local Open Scope R_scope.

(** C64: superposition with the Nakajima-Tanaka corrections. All three calls ask for the corrections
    or none does; a call without a beam is not corrected, so that a difference of two corrected
    intensities with the same beam is an uncorrected one. Where the corrections take part, their
    averages must be finite (C50) and no depth may lie in a layer that scatters forward only. *)
Theorem C64_superposition_corrected :
  forall a b p p' q lg la la' la'' jk jk' jk'' out out' out'', linalg_ok la -> linalg_ok la' -> linalg_ok la'' -> linalg_unique la'' ->
  leggauss_ok (half q) (lg (half q)) ->
  pydisort p lg la jk = Ok out -> pydisort p' lg la' jk' = Ok out' -> pydisort q lg la'' jk'' = Ok out'' ->
  same_medium p q -> same_medium p' q ->
  forall vn vp vn' vp' vn'' vp'' rho, boundary_data p vn vp rho -> boundary_data p' vn' vp' rho -> boundary_data q vn'' vp'' rho ->
  superposed a b p p' q vn vp vn' vp' vn'' vp'' ->
  forall u u' u'', po_u out = Some u -> po_u out' = Some u' -> po_u out'' = Some u'' ->
  p_phi0 p = p_phi0 q -> p_phi0 p' = p_phi0 q -> nmodes p = nmodes q -> nmodes p' = nmodes q ->
  p_NT p = p_NT q -> p_NT p' = p_NT q ->
  (nt_applies p -> nt_finite p (po_mu out)) -> (nt_applies p' -> nt_finite p' (po_mu out')) -> (nt_applies q -> nt_finite q (po_mu out'')) ->
  forall tau phi, nt_args q tau phi ->
  exists A B C, u tau phi false false false = Ok (PVal (PT A)) /\ u' tau phi false false false = Ok (PVal (PT B)) /\
    u'' tau phi false false false = Ok (PVal (PT C)) /\ tcomb a b A B C.
Proof. exact call_super_corrected. Qed.
Print Assumptions C64_superposition_corrected.
(** Twice a corrected intensity minus another is the uncorrected one without a beam. *)
Example C64_corrected_nonvacuous jk jk' jk'' : let p := p_sp 1 3 0 in let p' := p_sp 2 1 0 in let q := p_sp 0 5 0 in exists out out' out'' u u' u'',
  linalg_ok la_full /\ linalg_unique la_full /\ leggauss_ok (half q) (gauss_rule (half q)) /\
  pydisort p gauss_rule la_full jk = Ok out /\ pydisort p' gauss_rule la_full jk' = Ok out' /\ pydisort q gauss_rule la_full jk'' = Ok out'' /\
  same_medium p q /\ same_medium p' q /\
  boundary_data p (fun _ => 3) (fun _ => 0) rho34 /\ boundary_data p' (fun _ => 1) (fun _ => 0) rho34 /\ boundary_data q (fun _ => 5) (fun _ => 0) rho34 /\
  superposed 2 (-1) p p' q (fun _ => 3) (fun _ => 0) (fun _ => 1) (fun _ => 0) (fun _ => 5) (fun _ => 0) /\
  po_u out = Some u /\ po_u out' = Some u' /\ po_u out'' = Some u'' /\ nmodes p = nmodes q /\
  nt_finite p (po_mu out) /\ nt_finite p' (po_mu out') /\ ~ nt_applies q /\ nt_args q [1/2; 2] [0].
Proof.
  intros p p' q. pose proof PI_RGT_0. assert (Hph : 0 <= 0 < 2 * PI) by lra.
  destruct (sp_answer 1 3 0 ltac:(lra) Hph jk) as (out & H1). destruct (sp_answer 2 1 0 ltac:(lra) Hph jk') as (out' & H2). destruct (sp_answer 0 5 0 ltac:(lra) Hph jk'') as (out'' & H3).
  destruct (call_u _ _ _ _ _ H1 eq_refl) as (u & U1). destruct (call_u _ _ _ _ _ H2 eq_refl) as (u' & U2). destruct (call_u _ _ _ _ _ H3 eq_refl) as (u'' & U3).
  exists out, out', out'', u, u', u''. split; [exact la_full_ok|]. split; [exact la_full_unique|]. split; [apply gauss_rule_ok|].
  split; [exact H1|]. split; [exact H2|]. split; [exact H3|]. split; [constructor; reflexivity|]. split; [constructor; reflexivity|].
  split; [destruct (sp_data 1 3 0) as [?|?]; [assumption|lra]|]. split; [destruct (sp_data 2 1 0) as [?|?]; [assumption|lra]|]. split; [destruct (sp_data 0 5 0) as [?|?]; [assumption|lra]|].
  split. { constructor; [cbn; lra| |intros; lra|intros; lra]. intros l t Hl Ht. unfold source. cbn. destruct (Nat.ltb l 2); ring. }
  do 3 (split; [assumption|]). split; [reflexivity|].
  split; [rewrite (sp_mu 1 3 0 jk out H1); apply sp_finite; lra|]. split; [rewrite (sp_mu 2 1 0 jk' out' H2); apply sp_finite; lra|].
  split; [|apply sp_args]. intros (_ & _ & K & _). cbn in K. lra.
Qed.
