(** Whole-call statements: exponents of the eigen-solutions, validation, delta-M scaling. *)
From Coq Require Import String Reals Lra Lia List Bool Arith ZArith.
From Coquelicot Require Import Coquelicot.
From Verif Require Import Base Tensor Spec M_LinAlg Spec_RTE Calc M_Subroutines M_GenPart M_MathscrV M_Coeffs M_Assemble M_Pydisort
  P_Sub P_GenPart3 P_Tensor P_Coeffs2 P_Coeffs3 P_Assemble P_Solve Spec_Sol P_Valid P_Pydisort P_Pydisort2 P_Pydisort3 P_Pydisort4 P_Pydisort5.
Import ListNotations.
Local Open Scope R_scope.

Section Call.
  Variables (p : py_in) (lg : leggauss_t) (la : linalg) (jk : junk).
  Hypothesis Hla : linalg_ok la.
  Hypothesis Hlg : leggauss_ok (half p) (lg (half p)).
  Hypothesis V : valid p.
  Variables (ss : nat -> vec) (r : R) (sv : solved).
  Let a := assemble_args p lg r ss.
  Hypothesis Hsv : solve_all a la jk = Ok sv.

  Lemma K_sign m l j : (m < nmodes p)%nat -> (l < nlayers p)%nat -> (j < half p)%nat ->
    0 < sv_K sv m l (half p + j)%nat /\ sv_K sv m l j < 0.
  Proof.
    intros Hm Hl Hj. pose proof (sv_K_sign a (a_good p V lg Hlg ss r) la Hla jk sv Hsv m l j) as H.
    rewrite (nmodes_eq p) in Hm. destruct (H Hm Hl Hj) as [H1 H2]. cbn [a assemble_args a_N] in H1, H2.
    change (pN p) with (half p) in *. split; [exact H1|]. rewrite H2. lra.
  Qed.

  Lemma exponents_eval m k t : (m < nmodes p)%nat -> (k < streams p)%nat -> 0 <= t <= bottom p -> exponent a sv m k t <= 0.
  Proof.
    intros Hm Hk Ht. pose proof (lay_at p V t Ht) as [Hl HH]. pose proof (layer_of_lay p V lg r ss Hlg t Ht) as EL.
    pose proof (scaled_of_sdepth p V lg r ss Hlg t Ht) as ES. fold a in EL, ES. unfold exponent. cbv zeta. rewrite EL, ES.
    cbn [a assemble_args a_N a_stau0]. change (pN p) with (half p). rewrite (streams_eq p V) in Hk.
    assert (Hc : top_of p (lay p t) <= t <= bot_of p (lay p t)).
    { destruct HH as [H|[E1 E2]]; [lra|]. rewrite E1, E2. pose proof (v_tau p V 0%nat (v_ne p V)). unfold top_of. lra. }
    rewrite (depth_s_top p V), (depth_s_bot p V) by (auto; unfold nlayers in *; lia). unfold sdepth.
    pose proof (scl_pos p V (lay p t) Hl) as Hs. destruct (Nat.ltb_spec k (half p)) as [H|H].
    - pose proof (K_sign m (lay p t) k Hm Hl H) as [_ HK]. unfold depth_s.
      set (x := sv_K _ _ _ _) in *. assert (0 <= scl p (lay p t) * (t - top_of p (lay p t))) by (apply Rmult_le_pos; lra). nra.
    - pose proof (K_sign m (lay p t) (k - half p) Hm Hl ltac:(lia)) as [HK _]. replace (half p + (k - half p))%nat with k in HK by lia.
      set (x := sv_K _ _ _ _) in *. assert (0 <= scl p (lay p t) * (bot_of p (lay p t) - t)) by (apply Rmult_le_pos; lra). unfold depth_s. nra.
  Qed.

  Lemma stau0_inc l : (l < nlayers p)%nat -> scaled_tau0 p l < scaled_tau0 p (S l).
  Proof.
    intros Hl. rewrite (depth_s_top p V), (depth_s_bot p V) by (auto; unfold nlayers in *; lia). apply (depth_s_mono p V); auto. apply (v_inc p V); auto.
  Qed.

  Lemma exp_le1 x : x <= 0 -> 0 < exp x <= 1.
  Proof. intros H. split; [apply exp_pos|]. rewrite <- exp_0. destruct H as [H|H]; [left; apply exp_increasing; auto|rewrite H; lra]. Qed.

  (** Factors of the boundary-value matrix. *)
  Lemma exponents_matrix o m : gen_and_part_sols (gp_of a) la (j_G jk) (j_K jk) (j_A jk) (j_X jk) (j_Gi jk) = Ok o -> (m < nmodes p)%nat ->
    let g := sc_of a o in
    (forall j, (j < half p)%nat -> 0 < E_01 g m j <= 1) /\
    (forall j, (j < half p)%nat -> 0 < E_L g m j <= 1) /\
    (forall l j, (S l < nlayers p)%nat -> (j < half p)%nat -> 0 < E_lm1l g m l j <= 1 /\ 0 < E_llp1 g m l j <= 1).
  Proof.
    intros Ho Hm g. pose proof (v_ne p V) as Hne.
    assert (EK : forall l j, sc_K g m l j = sv_K sv m l j).
    { intros l j. pose proof (solve_parts a (a_good p V lg Hlg ss r) la jk sv Hsv) as (o' & Ho' & _ & EK & _). fold a in Ho'. rewrite Ho in Ho'. injection Ho' as <-.
      rewrite EK. reflexivity. }
    assert (EN : sc_N g = half p) by reflexivity. assert (ENL : sc_NLayers g = nlayers p) by reflexivity.
    assert (Et : forall l, sc_tau0 g l = scaled_tau0 p l) by reflexivity.
    assert (Hprod : forall l j, (l < nlayers p)%nat -> (j < half p)%nat ->
      sv_K sv m l j * (scaled_tau0 p (S l) - scaled_tau0 p l) <= 0 /\ sv_K sv m l (half p + j)%nat * (scaled_tau0 p l - scaled_tau0 p (S l)) <= 0).
    { intros l j Hl Hj. pose proof (stau0_inc l Hl). pose proof (K_sign m l j Hm Hl Hj). split; nra. }
    split; [|split].
    - intros j Hj. unfold E_01. apply exp_le1. rewrite EK, Et. destruct (Hprod 0%nat j Hne Hj) as [H _].
      assert (E0 : scaled_tau0 p 0 = 0) by (unfold scaled_tau0; destruct (delta_M p); reflexivity). rewrite E0 in H. lra.
    - intros j Hj. unfold E_L. apply exp_le1. rewrite EK, !Et, ENL. destruct (Hprod (nlayers p - 1)%nat j ltac:(unfold nlayers in *; lia) Hj) as [H _].
      replace (S (nlayers p - 1)) with (nlayers p) in H by (unfold nlayers in *; lia). exact H.
    - intros l j Hl Hj. unfold E_lm1l, E_llp1. rewrite !EK, !Et, EN. split; apply exp_le1.
      + replace (l + 1)%nat with (S l) by lia. apply Hprod; auto; lia.
      + replace (l + 2)%nat with (S (S l)) by lia. replace (l + 1)%nat with (S l) by lia. apply Hprod; auto.
  Qed.
End Call.

Lemma binom_diag n : binom n n = 1%nat.
Proof. induction n; [reflexivity|]. cbn. rewrite IHn, binom_lt by lia. lia. Qed.

(** Delta-M scaling. *)
Section Scaling.
  Variable p : py_in.
  Hypothesis V : valid p.

  Theorem scaling_physics ss : scaled_s p = Ok ss ->
    scaled_tau0 p 0 = 0 /\
    forall l, (l < nlayers p)%nat ->
      scaled_tau0 p l < scaled_tau0 p (S l) /\
      0 <= scaled_omega p l < 1 /\
      (1 - scaled_omega p l) * (scaled_tau0 p (S l) - scaled_tau0 p l) = (1 - albedo p l) * (bot_of p l - top_of p l) /\
      (fwd p l < 1 -> albedo p l <> 0 -> scaled_Leg p l 0 = 1) /\
      (has_iso p = true -> forall t, scale_tau p l * rsum (e_Ns p) (fun j => ss l j * (scaled_tau0 p l + scale_tau p l * (t - top_of p l)) ^ j)
                         = (1 - albedo p l) * source p l t).
  Proof.
    intros Hss. split; [unfold scaled_tau0; destruct (delta_M p); reflexivity|]. intros l Hl.
    pose proof (scl_pos p V l Hl) as Hs. pose proof (stau0_inc p V l Hl) as Hi.
    split; [exact Hi|]. split; [rewrite (scaled_omega_eq p V) by auto; apply albedo_s_range; auto|]. split; [|split].
    - rewrite (scaled_omega_eq p V) by auto. rewrite !(scaled_tau0_eq p V) by (auto; unfold nlayers in *; lia). cbn [rsum].
      assert (E : scl p l * (1 - albedo_s p l) = 1 - albedo p l) by (unfold albedo_s; field_simplify; [unfold scl; ring|lra]).
      rewrite <- E. ring.
    - intros Hf Ha. unfold scaled_Leg. assert (E : Leg_all p l 0%nat = 1).
      { pose proof (leg0 p l 0%nat Hl) as H. unfold phase in H. cbn [Nat.eqb] in H. apply Rmult_eq_reg_l with (albedo p l); auto. }
      rewrite E. destruct (delta_M p); [|reflexivity]. change (f_at p l) with (fwd p l). field. lra.
    - intros Hiso t. rewrite <- (scaled_s_val p V ss Hss Hiso l t Hl). rewrite (scale_tau_eq p V). f_equal.
      rewrite (depth_s_top p V) by (auto; unfold nlayers in *; lia). apply rsum_ext. intros j Hj. f_equal. f_equal. unfold depth_s. ring.
  Qed.

  Theorem scaling_shortcut : (forall f, In f (p_f p) -> ~ 0 < f) ->
    forall l, (l < nlayers p)%nat ->
      scale_tau p l = 1 - albedo p l * fwd p l /\
      scaled_tau0 p (S l) = rsum (S l) (fun k => (1 - albedo p k * fwd p k) * (bot_of p k - top_of p k)) /\
      (forall k, scaled_Leg p l k = (Leg_all p l k - fwd p l) / (1 - fwd p l)) /\
      scaled_omega p l = (1 - fwd p l) / (1 - albedo p l * fwd p l) * albedo p l /\
      (forall ss, has_iso p = true -> scaled_s p = Ok ss ->
         exists rows, affine_transform_poly_coeffs (ncol (p_s p)) (map (s_row p) (seq 0 (nlayers p)))
             (map (fun k => 1 - albedo p k * fwd p k) (seq 0 (nlayers p)))
             (map (fun k => rsum k (fun r => (1 - albedo p r * fwd p r) * (bot_of p r - top_of p r)) - (1 - albedo p k * fwd p k) * top_of p k) (seq 0 (nlayers p))) = Ok rows /\
           forall j, (j < ncol (p_s p))%nat -> ss l j = nth j (nth l rows []) 0 / (1 - albedo p l * fwd p l) * (1 - albedo p l)).
  Proof.
    intros Hf l Hl. assert (EM : delta_M p = false).
    { unfold delta_M. destruct (existsb _ _) eqn:E; auto. apply existsb_exists in E as (f & H1 & H2). apply Rltb_iff in H2. destruct (Hf f H1 H2). }
    pose proof (delta_M_false p V EM) as H0.
    split; [unfold scale_tau; rewrite EM, H0; ring|]. split; [rewrite (scaled_tau0_eq p V) by (auto; unfold nlayers in *; lia); reflexivity|].
    split; [intros k; unfold scaled_Leg; rewrite EM, H0; field|]. split; [unfold scaled_omega; rewrite EM, H0; change (omega_at p l) with (albedo p l); field|].
    intros ss Hiso Hss. eexists. split.
    - apply affine_ok; rewrite !map_length, !seq_length; auto; [exact (v_ne p V)|]. intros k Hk. rewrite nth_seq0_map by auto. rewrite H0. lra.
    - intros j Hj. rewrite map_length, seq_length. rewrite nth_seq0_map by auto. rewrite !nth_seq0_map by auto. unfold scaled_s in Hss. rewrite Hiso, EM in Hss. injection Hss as <-.
      assert (E0 : rsum l (fun r => (1 - albedo p r * fwd p r) * (bot_of p r - top_of p r)) - (1 - albedo p l * fwd p l) * top_of p l = 0).
      { pose proof (scaled_tau0_eq p V l ltac:(unfold nlayers in *; lia)) as E. unfold scl in E. rewrite <- E. unfold scaled_tau0. rewrite EM, H0. change (tau_top p l) with (top_of p l). ring. }
      rewrite E0, H0. unfold affine_row. rewrite nth_seq0_map by auto. rewrite (rsum_single _ j); auto.
      + unfold pascal_upper. rewrite binom_diag. cbn [Nat.eqb INR]. rewrite Nat.sub_diag. unfold s_row. rewrite nth_seq0_map by auto.
        replace (1 / (1 - albedo p l * 0)) with 1 by field. rewrite pow1. cbn [pow]. change (omega_at p l) with (albedo p l). field.
      + intros k Hk Hne. destruct (Nat.eqb_spec (pascal_upper j k) 0) as [E|E]; [rewrite E; cbn [INR]; ring|]. assert (j <= k)%nat.
        { destruct (Nat.lt_ge_cases k j); auto. exfalso. apply E. unfold pascal_upper. apply binom_lt; auto. }
        rewrite Ropp_0, pow_i by lia. ring.
  Qed.
End Scaling.
