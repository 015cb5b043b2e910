(** The scaled quantities that the program computes: the depth in the returned functions, and the values of the delta-M scaling. *)
From Coq Require Import String Reals Lra Lia List Bool Arith ZArith.
From Coquelicot Require Import Coquelicot.
From Verif Require Import Base Tensor Spec M_LinAlg Spec_RTE Calc M_Subroutines M_Assemble M_Pydisort Spec_Sol P_Valid P_Pydisort P_Pydisort2 P_Pydisort3 P_Pydisort4 P_Pydisort5 P_Pydisort6 P_Pydisort7 P_Pydisort8 P_Max P_Unique2.
Import ListNotations.
Local Open Scope R_scope.

Theorem call_scaled_of p lg la jk out : leggauss_ok (half p) (lg (half p)) -> pydisort p lg la jk = Ok out ->
  exists ss r, scaled_s p = Ok ss /\ rescale p ss = Ok r /\
  let D := scaled_of (assemble_args p lg r ss) in
  D 0 = 0 /\ cont_on 0 (bottom p) D /\
  (forall x y, 0 <= x -> x < y -> y <= bottom p -> D x < D y) /\
  (forall l, (l < nlayers p)%nat ->
     D (bot_of p l) = scaled_tau0 p (S l) /\
     D (bot_of p l) = rsum (S l) (fun k => (1 - albedo p k * fwd p k) * (bot_of p k - top_of p k)) /\
     forall t, top_of p l <= t <= bot_of p l -> D t = D (top_of p l) + (1 - albedo p l * fwd p l) * (t - top_of p l)) /\
  ((forall l, (l < nlayers p)%nat -> albedo p l * fwd p l = 0) -> forall t, 0 <= t <= bottom p -> D t = t).
Proof.
  intros Hlg Hok. pose proof (call_valid p lg la jk out Hok) as V. destruct (call_layer_of p lg la jk out Hlg Hok) as (ss & r & Hss & Hr & HL). exists ss, r. split; [exact Hss|]. split; [exact Hr|]. cbv zeta in *.
  set (D := scaled_of (assemble_args p lg r ss)) in *. assert (E : forall t, 0 <= t <= bottom p -> D t = sdepth p t) by (intros t Ht; apply (HL t Ht)).
  destruct (call_sdepth p lg la jk out Hok) as (S0 & SC & SM & SL & SU).
  assert (Hb : 0 < bottom p) by (rewrite (bottom_eq p); apply (v_tau p V); pose proof (v_ne p V); lia).
  assert (HR : forall l, (l < nlayers p)%nat -> 0 <= top_of p l /\ top_of p l < bot_of p l /\ bot_of p l <= bottom p).
  { intros l Hl. pose proof (v_inc p V l Hl). destruct (layer_in p V l Hl). lra. }
  split; [rewrite E by lra; exact S0|]. split; [|split; [|split]].
  - intros t Ht e He. destruct (SC t Ht e He) as (d & Hd & H). exists d. split; [exact Hd|]. intros y Hy Hyt. rewrite !E by assumption. apply H; assumption.
  - intros x y Hx Hxy Hy. rewrite !E by lra. apply SM; assumption.
  - intros l Hl. destruct (HR l Hl) as (R1 & R2 & R3). destruct (SL l Hl) as (L1 & L2). split; [|split].
    + rewrite E, L1 by lra. symmetry. apply (scaled_tau0_eq p V). exact Hl.
    + rewrite E by lra. exact L1.
    + intros t Ht. rewrite !E by lra. apply L2. exact Ht.
  - intros H t Ht. rewrite E by exact Ht. apply SU; assumption.
Qed.

Theorem call_scaling p lg la jk out : pydisort p lg la jk = Ok out ->
  exists ss, scaled_s p = Ok ss /\ scaled_tau0 p 0 = 0 /\
  forall l, (l < nlayers p)%nat ->
    scaled_tau0 p l < scaled_tau0 p (S l) /\
    scaled_tau0 p (S l) - scaled_tau0 p l = (1 - albedo p l * fwd p l) * (bot_of p l - top_of p l) /\
    0 <= scaled_omega p l < 1 /\
    scaled_omega p l * (1 - albedo p l * fwd p l) = (1 - fwd p l) * albedo p l /\
    (1 - scaled_omega p l) * (scaled_tau0 p (S l) - scaled_tau0 p l) = (1 - albedo p l) * (bot_of p l - top_of p l) /\
    (fwd p l < 1 -> albedo p l <> 0 -> scaled_Leg p l 0 = 1) /\
    (fwd p l < 1 -> albedo p l <> 0 -> forall k, weighted_scaled_Leg p l k = (2 * INR k + 1) * scaled_Leg p l k /\ scaled_Leg p l k * (1 - fwd p l) = phase p l k - fwd p l) /\
    (has_iso p = true -> forall t,
       scale_tau p l * rsum (e_Ns p) (fun j => ss l j * (scaled_tau0 p l + scale_tau p l * (t - top_of p l)) ^ j)
       = (1 - albedo p l) * source p l t).
Proof.
  intros Hok. pose proof (call_valid p lg la jk out Hok) as V. destruct (call_delta p lg la jk out Hok) as (ss & Hss & H0 & H). exists ss. split; [exact Hss|]. split; [exact H0|].
  intros l Hl. destruct (H l Hl) as (A1 & A2 & A3 & A4 & A5). split; [exact A1|]. split; [|split; [exact A2|split; [|split; [exact A3|split; [exact A4|split; [|exact A5]]]]]].
  - rewrite !(scaled_tau0_eq p V) by (unfold nlayers in *; lia). cbn [rsum]. unfold scl. ring.
  - rewrite (scaled_omega_eq p V l Hl). unfold albedo_s. pose proof (scl_pos p V l Hl) as Hs. unfold scl in *. field. lra.
  - intros Hf Ha k. split; [unfold weighted_scaled_Leg; ring|]. unfold scaled_Leg. pose proof (leg0 p l k Hl) as HL. apply Rmult_eq_reg_l in HL; [|exact Ha]. rewrite HL.
    destruct (delta_M p) eqn:E; [change (f_at p l) with (fwd p l); field; lra|]. rewrite (delta_M_false p V E l). ring.
Qed.

(** The check of the directions against the sun. *)
Theorem call_angle p lg la jk mu w : valid p -> leggauss_ok (half p) (lg (half p)) -> double_gauss (half p) mu w -> p_NT p = true ->
  ((exists i, (i < half p)%nat /\ Rabs (nth i mu 0 - p_mu0 p) < 1 / 100000000) ->
   pydisort p lg la jk = Err (EValue "Some quadrature angles come too close to `mu0`. Perturb `NQuad` or `mu0` to rectify this error.")) /\
  ((exists out, pydisort p lg la jk = Ok out) -> forall i, (i < half p)%nat -> 1 / 100000000 <= Rabs (nth i mu 0 - p_mu0 p)).
Proof.
  intros V Hlg HG HNT.
  assert (X : (exists i, (i < half p)%nat /\ Rabs (nth i mu 0 - p_mu0 p) < 1 / 100000000) ->
    pydisort p lg la jk = Err (EValue "Some quadrature angles come too close to `mu0`. Perturb `NQuad` or `mu0` to rectify this error.")).
  { intros (i & Hi & H). unfold pydisort. rewrite (proj2 (validate_iff p) V). cbn [bind].
    assert (E : NT_angle_ok p lg = false); [|rewrite E; reflexivity].
    unfold NT_angle_ok. rewrite HNT. cbn [andb]. apply negb_false_iff. apply existsb_exists.
    destruct (dg_nodes _ _ _ _ _ HG (mu_arr_gauss p lg Hlg) i Hi) as (j & Hj & E & _). rewrite (mu_arr_node p lg) in E by lia. unfold node in E. rewrite (proj2 (Nat.ltb_lt j (half p))) in E by lia.
    exists j. split; [apply in_seq; change (pN p) with (half p); lia|]. apply Rltb_iff. rewrite <- E. exact H. }
  split; [exact X|]. intros (out & Hok) i Hi. apply Rnot_lt_le. intros H. rewrite X in Hok by eauto. discriminate.
Qed.
