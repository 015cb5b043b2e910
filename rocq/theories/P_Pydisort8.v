(** Whole-call statements in the form used for the properties. *)
From Coq Require Import String Reals Lra Lia List Bool Arith ZArith.
From Coquelicot Require Import Coquelicot.
From Verif Require Import Base Tensor Spec M_LinAlg Spec_RTE Calc M_Subroutines M_GenPart M_MathscrV M_Coeffs M_Assemble M_Pydisort
  P_Sub P_GenPart3 P_Tensor P_Coeffs2 P_Coeffs3 P_Assemble P_Solve Spec_Sol P_Valid P_Pydisort P_Pydisort2 P_Pydisort3 P_Pydisort4 P_Pydisort5 P_Pydisort6 P_Pydisort7.
Import ListNotations.
Local Open Scope R_scope.

Section Call.
  Variables (p : py_in) (lg : leggauss_t) (la : linalg) (jk : junk) (out : py_out).
  Hypothesis Hla : linalg_ok la.
  Hypothesis Hlg : leggauss_ok (half p) (lg (half p)).
  Hypothesis Hok : pydisort p lg la jk = Ok out.

  (** Both sides of every interior boundary. *)
  Theorem call_interfaces U : modes_of p out U -> forall m i l, seen p m -> (i < streams p)%nat -> (S l < nlayers p)%nat ->
    let x := bot_of p l in
    is_lim (U m i) x (U m i x) /\
    exists above below : R -> R, (forall t, top_of p l < t <= x -> U m i t = above t) /\ (forall t, x < t <= bot_of p (S l) -> U m i t = below t) /\
      (exists d, is_derive above x d) /\ (exists d, is_derive below x d) /\ above x = below x.
  Proof.
    intros HU m i l Hm Hi Hl x. pose proof (call_valid p lg la jk out Hok) as V.
    assert (Hx : 0 < x < bottom p).
    { split; [apply (v_tau p V l); lia|]. rewrite (bottom_eq p). pose proof (v_inc p V (S l) Hl) as H. change (bot_of p l < bot_of p (S l)) in H.
      pose proof (bots_mono p V (S l) (nlayers p - 1) ltac:(lia) ltac:(unfold nlayers in *; lia)). unfold x. unfold nlayers in *. lra. }
    destruct (call_layers p lg la jk out Hla Hlg Hok U HU m i Hm Hi) as (F & HF).
    assert (Ea : forall t, top_of p l <= t <= x -> U m i t = F l t) by (apply HF; lia).
    assert (Eb : forall t, x <= t <= bot_of p (S l) -> U m i t = F (S l) t) by (exact (proj1 (HF (S l) Hl))).
    pose proof (v_inc p V l ltac:(lia)) as H1. pose proof (v_inc p V (S l) Hl) as H2. change (bot_of p l < bot_of p (S l)) in H2. fold x in H1, H2.
    split.
    - pose proof (call_continuous p lg la jk out Hla Hlg Hok U HU m i Hm Hi) as C.
      apply (is_lim_continuity (U m i) x). intros eps Heps. destruct (C x ltac:(lra) eps Heps) as (d & Hd & H).
      exists (Rmin d (Rmin x (bottom p - x))). split; [repeat apply Rmin_pos; lra|]. intros y [_ Hy]. apply H.
      + unfold dist in Hy; simpl in Hy; unfold R_dist in Hy.
        assert (Rabs (y - x) < x) by (eapply Rlt_le_trans; [exact Hy|]; eapply Rle_trans; [apply Rmin_r|apply Rmin_l]).
        assert (Rabs (y - x) < bottom p - x) by (eapply Rlt_le_trans; [exact Hy|]; eapply Rle_trans; [apply Rmin_r|apply Rmin_r]).
        unfold Rabs in *. destruct (Rcase_abs _); lra.
      + eapply Rlt_le_trans; [exact Hy|apply Rmin_l].
    - exists (F l), (F (S l)). split; [intros t Ht; apply Ea; lra|]. split; [intros t Ht; apply Eb; lra|].
      split; [apply (HF l ltac:(lia))|]. split; [apply (HF (S l) Hl)|]. rewrite <- Ea, <- Eb by lra. reflexivity.
  Qed.

  (** Exponents. *)
  Theorem call_exponents : exists ss r o sv, scaled_s p = Ok ss /\ rescale p ss = Ok r /\
    let a := assemble_args p lg r ss in let g := sc_of a o in
    gen_and_part_sols (gp_of a) la (j_G jk) (j_K jk) (j_A jk) (j_X jk) (j_Gi jk) = Ok o /\
    solve_all a la jk = Ok sv /\
    po_u0 out = cl_u0 a sv /\ po_flux_up out = cl_flux_up a sv /\ po_flux_down out = cl_flux_down a sv /\
    (forall m k t, (m < nmodes p)%nat -> (k < streams p)%nat -> 0 <= t <= bottom p -> exponent a sv m k t <= 0) /\
    (forall m j, (m < nmodes p)%nat -> (j < half p)%nat ->
       E_01 g m j <= 1 /\ E_L g m j <= 1 /\
       forall l, (S l < nlayers p)%nat -> E_lm1l g m l j <= 1 /\ E_llp1 g m l j <= 1).
  Proof.
    destruct (pydisort_parts _ _ _ _ _ Hok) as (V & ss & r & sv & Hss & Hr & Hsv & Emu & Eup & Edn & Eu0 & Eu).
    destruct (solve_parts _ (a_good p V lg Hlg ss r) la jk sv Hsv) as (o & Ho & _).
    exists ss, r, o, sv. split; [exact Hss|]. split; [exact Hr|]. cbv zeta. split; [exact Ho|]. split; [exact Hsv|].
    split; [exact Eu0|]. split; [exact Eup|]. split; [exact Edn|]. split.
    - intros m k t. apply (exponents_eval p lg la jk Hla Hlg V ss r sv Hsv).
    - intros m j Hm Hj. destruct (exponents_matrix p lg la jk Hla Hlg V ss r sv Hsv o m Ho Hm) as (H1 & H2 & H3).
      split; [apply H1; auto|]. split; [apply H2; auto|]. intros l Hl. destruct (H3 l j Hl Hj). split; tauto.
  Qed.

  (** Layer lookup and scaled depth. *)
  Theorem call_layer_of : exists ss r, scaled_s p = Ok ss /\ rescale p ss = Ok r /\
    let a := assemble_args p lg r ss in
    forall t, 0 <= t <= bottom p ->
      (exists l, layer_at p t l) /\ (forall l, layer_of a t = l <-> layer_at p t l) /\ scaled_of a t = sdepth p t.
  Proof.
    destruct (pydisort_parts _ _ _ _ _ Hok) as (V & ss & r & sv & Hss & Hr & _). exists ss, r. split; [exact Hss|]. split; [exact Hr|].
    intros a t Ht. split; [apply layer_at_ex; auto|]. split; [intros l; apply (layer_of_at p V lg r ss Hlg); auto|apply (scaled_of_sdepth p V lg r ss Hlg); auto].
  Qed.

  Theorem call_sdepth : sdepth p 0 = 0 /\ cont_on 0 (bottom p) (sdepth p) /\
    (forall x y, 0 <= x -> x < y -> y <= bottom p -> sdepth p x < sdepth p y) /\
    (forall l, (l < nlayers p)%nat ->
       sdepth p (bot_of p l) = rsum (S l) (fun k => (1 - albedo p k * fwd p k) * (bot_of p k - top_of p k)) /\
       forall t, top_of p l <= t <= bot_of p l -> sdepth p t = sdepth p (top_of p l) + (1 - albedo p l * fwd p l) * (t - top_of p l)) /\
    ((forall l, (l < nlayers p)%nat -> albedo p l * fwd p l = 0) -> forall t, 0 <= t <= bottom p -> sdepth p t = t).
  Proof.
    pose proof (call_valid p lg la jk out Hok) as V. pose proof (v_ne p V) as Hne.
    split; [|split; [apply sdepth_cont; auto|split; [intros x y; apply sdepth_mono; auto|split; [|apply sdepth_unscaled; auto]]]].
    - rewrite (sdepth_closed p V 0 0) by (auto; pose proof (v_tau p V 0%nat Hne); unfold top_of; lra). unfold depth_s. cbn. ring.
    - intros l Hl. pose proof (v_inc p V l Hl) as Hi. split.
      + rewrite (sdepth_closed p V l) by (auto; lra). reflexivity.
      + intros t Ht. rewrite (sdepth_closed p V l t), (sdepth_closed p V l (top_of p l)) by (auto; lra). unfold depth_s, scl. ring.
  Qed.

  (** The direct flux keeps the shape of its argument only with a beam. *)
  Theorem call_direct tau : depths_ok p tau -> 0 < p_I0 p -> exists A B, po_flux_down out tau false false = Ok (PTup [PT A; PT B]) /\
    squeezed B [length tau] (fun idx => p_I0 p * p_mu0 p * exp (- nth (nth 0 idx 0%nat) tau 0 / p_mu0 p)).
  Proof.
    intros Ht HI. destruct (solution_exists p lg la jk out Hla Hlg Hok) as (w & U & F & _ & HU & _).
    destruct (call_fluxes p lg la jk out Hla Hlg Hok U HU) as (w' & _ & _ & H). destruct (H tau Ht) as (A & B & E & _ & SB & _).
    exists A, B. split; [exact E|]. refine (squeezed_ext _ _ _ _ (SB HI) _). intros idx _. unfold direct. ring.
  Qed.
End Call.

Theorem accepted_sound p lg la jk out : pydisort p lg la jk = Ok out ->
  let NLeg := match p_NLeg p with None => p_NQuad p | Some n => n end in
  let NFou := if p_only_flux p then 1%Z else match p_NFourier p with None => p_NQuad p | Some n => n end in
  (1 <= length (p_tau p))%nat /\
  (forall t, In t (p_tau p) -> 0 < t) /\ (forall i j, (i < j < length (p_tau p))%nat -> nth i (p_tau p) 0 < nth j (p_tau p) 0) /\
  (forall w, In w (p_omega p) -> 0 <= w < 1) /\
  (2 <= p_NQuad p)%Z /\ (p_NQuad p mod 2 = 0)%Z /\
  (0 < NFou)%Z /\ (NFou <= NLeg)%Z /\ (NLeg <= p_NQuad p)%Z /\ (NLeg <= Z.of_nat (ncol (p_Leg p)))%Z /\
  nrow (p_Leg p) = length (p_tau p) /\ length (p_omega p) = length (p_tau p) /\
  ((exists f, In f (p_f p) /\ f <> 0) -> length (p_f p) = length (p_tau p)) /\
  ((exists i j, (i < nrow (p_s p))%nat /\ (j < ncol (p_s p))%nat /\ at2 (p_s p) i j <> 0) -> nrow (p_s p) = length (p_tau p)) /\
  (forall l k, (l < length (p_tau p))%nat -> (1 <= k < ncol (p_Leg p))%nat -> -1 < at2 (p_Leg p) l k < 1) /\
  (forall f, In f (p_f p) -> 0 <= f <= 1) /\
  0 <= p_I0 p /\ (0 < p_I0 p -> 0 < p_mu0 p <= 1 /\ 0 <= p_phi0 p < 2 * PI) /\
  (3 <= p_banded p)%Z.
Proof.
  intros H. pose proof (call_valid p lg la jk out H) as V. cbv zeta.
  pose proof (v_leg p V) as [H1 H2]. pose proof (v_nfou p V) as [H3 H4]. pose proof (v_nlq p V) as H5.
  split; [apply (v_ne p V)|].
  split; [intros t Ht; destruct (In_nth _ _ 0 Ht) as (l & Hl & <-); apply (v_tau p V l Hl)|].
  split.
  { intros i j Hij. pose proof (bots_mono p V (S i) j ltac:(lia) ltac:(unfold nlayers; lia)) as A.
    pose proof (v_inc p V (S i) ltac:(unfold nlayers in *; lia)) as B. change (bot_of p i < bot_of p (S i)) in B. unfold bot_of in *. lra. }
  split; [apply (v_om p V)|]. split; [apply (v_nq p V)|]. split; [apply (v_even p V)|].
  split; [exact H3|]. split; [exact H4|]. split; [exact H5|]. split; [exact H2|].
  split; [apply (v_nrow p V)|]. split; [apply (v_nom p V)|]. split; [apply (v_nf p V)|]. split; [apply (v_ns p V)|].
  split; [apply (v_g p V)|]. split; [apply (v_f p V)|]. split; [apply (v_I0 p V)|].
  split; [intros HI; split; [apply (v_mu0 p V HI)|apply (v_phi0 p V HI)]|]. apply (v_band p V).
Qed.

Theorem modes_exist p lg la jk out : linalg_ok la -> leggauss_ok (half p) (lg (half p)) -> pydisort p lg la jk = Ok out ->
  exists U, modes_of p out U.
Proof. intros Hla Hlg Hok. destruct (solution_exists p lg la jk out Hla Hlg Hok) as (w & U & F & _ & HU & _). exists U. exact HU. Qed.

Theorem call_delta p lg la jk out : pydisort p lg la jk = Ok out ->
  exists ss, scaled_s p = Ok ss /\ scaled_tau0 p 0 = 0 /\
  forall l, (l < nlayers p)%nat ->
    scaled_tau0 p l < scaled_tau0 p (S l) /\
    0 <= scaled_omega p l < 1 /\
    (1 - scaled_omega p l) * (scaled_tau0 p (S l) - scaled_tau0 p l) = (1 - albedo p l) * (bot_of p l - top_of p l) /\
    (fwd p l < 1 -> albedo p l <> 0 -> scaled_Leg p l 0 = 1) /\
    (has_iso p = true -> forall t,
       scale_tau p l * rsum (e_Ns p) (fun j => ss l j * (scaled_tau0 p l + scale_tau p l * (t - top_of p l)) ^ j)
       = (1 - albedo p l) * source p l t).
Proof.
  intros Hok. destruct (pydisort_parts p lg la jk out Hok) as (V & ss & r & sv & Hss & _). exists ss. split; [exact Hss|].
  exact (scaling_physics p V ss Hss).
Qed.
