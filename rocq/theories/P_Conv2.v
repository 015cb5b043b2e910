(** The exact radiation field depends continuously on the direction, uniformly in depth. *)
From Coq Require Import Classical String Reals Lra Lia List Bool Arith ZArith.
From Coquelicot Require Import Coquelicot.
From Verif Require Import Base Tensor Spec M_LinAlg Spec_RTE Calc M_Subroutines M_GenPart M_MathscrV M_Coeffs M_Assemble M_Pydisort
  Spec_Sol Spec_Valid Spec_Calls Spec_Unique Spec_Phys Spec_Mono Spec_Depend Spec_Exact P_Special P_Addition P_Quad P_Sub P_Solve P_Energy P_Pydisort P_Pydisort2 P_Pydisort3 P_Pydisort4 P_Pydisort5 P_Pydisort6 P_Pydisort8 P_Teq P_NT3 P_Unique2 P_Refine P_Max P_Max2 P_Max3 P_Max4 P_Mono P_Sym P_Depend P_Depend2 P_Gauss P_Conv.
Import ListNotations.
Local Open Scope R_scope.

Lemma poly_lip q : exists L B, 0 <= L /\ 0 <= B /\ (forall x, -1 <= x <= 1 -> Rabs (peval q x) <= B) /\ forall x x', -1 <= x <= 1 -> -1 <= x' <= 1 -> Rabs (peval q x - peval q x') <= L * Rabs (x - x').
Proof.
  induction q as [|c q (L & B & HL & HB & H1 & H2)].
  - exists 0, 0. cbn. repeat split; try lra; intros; rewrite ?Rminus_eq_0, Rabs_R0; lra.
  - exists (L + B), (Rabs c + B). pose proof (Rabs_pos c). split; [lra|]. split; [lra|]. split.
    + intros x Hx. cbn [peval]. eapply Rle_trans; [apply Rabs_triang|]. apply Rplus_le_compat_l. rewrite Rabs_mult. pose proof (H1 x Hx). assert (Rabs x <= 1) by (apply Rabs_le; lra). pose proof (Rabs_pos x). pose proof (Rabs_pos (peval q x)). nra.
    + intros x x' Hx Hx'. cbn [peval]. replace (c + x * peval q x - (c + x' * peval q x')) with (x * (peval q x - peval q x') + (x - x') * peval q x') by ring.
      eapply Rle_trans; [apply Rabs_triang|]. rewrite !Rabs_mult, Rmult_plus_distr_r. pose proof (H1 x' Hx'). pose proof (H2 x x' Hx Hx'). assert (Rabs x <= 1) by (apply Rabs_le; lra).
      pose proof (Rabs_pos x). pose proof (Rabs_pos (peval q x - peval q x')). pose proof (Rabs_pos (x - x')). apply Rplus_le_compat; [|rewrite (Rmult_comm B); apply Rmult_le_compat_l; auto]. nra.
Qed.
Lemma leg_lips n : exists L, 0 <= L /\ forall k x x', (k < n)%nat -> -1 <= x <= 1 -> -1 <= x' <= 1 -> Rabs (legendre k x - legendre k x') <= L * Rabs (x - x').
Proof.
  induction n as [|n (L & HL & H)]; [exists 0; split; [lra|intros; lia]|]. destruct (poly_lip (legendre_poly n)) as (L' & B & HL' & _ & _ & H'). exists (L + L'). split; [lra|].
  intros k x x' Hk Hx Hx'. pose proof (Rabs_pos (x - x')). destruct (Nat.eq_dec k n) as [-> | Hne].
  - eapply Rle_trans; [apply H'; auto|]. nra.
  - eapply Rle_trans; [apply H; auto; lia|]. nra.
Qed.

(** One layer: growth of the difference of two directions. *)
Lemma decay_up a b k eta (d r : R -> R) : a < b -> 0 <= k -> 0 <= eta -> cont_on a b d -> (forall t, a < t < b -> is_derive d t (k * d t + r t)) -> (forall t, a < t < b -> Rabs (r t) <= eta) ->
  Rabs (d a) <= Rabs (d b) + eta * (b - a).
Proof.
  intros Hab Hk He Hc Hd Hr.
  assert (Ce : cont_on a b (fun t => exp (- k * t))). { apply cont_on_derive. intros x _. exists ((- k * 1) * exp (- k * x)). apply der_exp, der_scal, der_id. }
  destruct (cont_mvt a b (fun t => d t * exp (- k * t)) (fun t => r t * exp (- k * t)) Hab) as (c & Hc1 & Hc2).
  { apply cont_on_mult; [lra|exact Hc|exact Ce]. }
  { intros t Ht. refine (der_eq _ _ _ _ _ (der_mult _ _ _ _ _ (Hd t Ht) (der_exp _ _ _ (der_scal _ (- k) _ _ (der_id t))))). ring. }
  assert (E : d a = d b * exp (- k * (b - a)) - r c * exp (- k * (c - a)) * (b - a)).
  { apply (Rmult_eq_reg_r (exp (- k * a))); [|apply Rgt_not_eq, exp_pos]. rewrite Rmult_minus_distr_r.
    replace (d b * exp (- k * (b - a)) * exp (- k * a)) with (d b * exp (- k * b)) by (rewrite Rmult_assoc, <- exp_plus; do 2 f_equal; ring).
    replace (r c * exp (- k * (c - a)) * (b - a) * exp (- k * a)) with (r c * exp (- k * c) * (b - a)) by (replace (- k * c) with (- k * (c - a) + - k * a) by ring; rewrite exp_plus; ring). lra. }
  assert (X : forall y, 0 <= y -> 0 < exp (- k * y) <= 1). { intros y Hy. split; [apply exp_pos|]. rewrite <- exp_0. apply exp_mono. assert (0 <= k * y) by (apply Rmult_le_pos; lra). lra. }
  rewrite E. unfold Rminus at 1. eapply Rle_trans; [apply Rabs_triang|]. rewrite Rabs_Ropp, !Rabs_mult. destruct (X (b - a) ltac:(lra)) as [X1 X2]. destruct (X (c - a) ltac:(lra)) as [X3 X4].
  rewrite (Rabs_pos_eq (exp (- k * (b - a)))), (Rabs_pos_eq (exp (- k * (c - a)))), (Rabs_pos_eq (b - a)) by lra. pose proof (Hr c Hc1). pose proof (Rabs_pos (d b)). pose proof (Rabs_pos (r c)).
  apply Rplus_le_compat; [nra|]. apply Rmult_le_compat_r; [lra|]. nra.
Qed.
Lemma cont_on_flip a b f : cont_on a b f -> cont_on a b (fun t => f (a + b - t)).
Proof.
  intros H x Hx e He. destruct (H (a + b - x) ltac:(lra) e He) as (d & Hd & K). exists d. split; [exact Hd|]. intros y Hy Hyx. apply K; [lra|]. replace (a + b - y - (a + b - x)) with (- (y - x)) by ring. rewrite Rabs_Ropp. exact Hyx.
Qed.
Lemma decay_down a b k eta (d r : R -> R) : a < b -> 0 <= k -> 0 <= eta -> cont_on a b d -> (forall t, a < t < b -> is_derive d t (- k * d t + r t)) -> (forall t, a < t < b -> Rabs (r t) <= eta) ->
  Rabs (d b) <= Rabs (d a) + eta * (b - a).
Proof.
  intros Hab Hk He Hc Hd Hr. pose proof (decay_up a b k eta (fun t => d (a + b - t)) (fun t => - r (a + b - t)) Hab Hk He (cont_on_flip a b d Hc)) as H. cbv beta in H.
  replace (a + b - a) with b in H by ring. replace (a + b - b) with a in H by ring. apply H.
  - intros t Ht. assert (Di : is_derive (fun t => a + b - t) t (0 - 1)) by (apply der_minus; [apply der_const|apply der_id]). refine (der_eq _ _ _ _ _ (der_comp d (fun t => a + b - t) t _ _ Di (Hd (a + b - t) ltac:(lra)))). ring.
  - intros t Ht. rewrite Rabs_Ropp. apply Hr. lra.
Qed.

Section Exact.
  Variables (p : py_in) (V : valid p) (bn bp : R -> R) (rho : R -> R -> R) (J : R -> R -> R).
  Hypothesis EF : exact_field p bn bp rho J.
  Notation NL := (nlayers p).
  Notation K := (scatters p).

  Lemma K_skernel l x y : K l x y = skernel p l x y. Proof. reflexivity. Qed.
  Lemma K_sym l x y : K l x y = K l y x. Proof. unfold scatters. f_equal. apply rsum_ext. intros; ring. Qed.
  Lemma K_bound : exists B, 0 <= B /\ forall l x y, (l < NL)%nat -> -1 <= x <= 1 -> -1 <= y <= 1 -> Rabs (K l x y) <= B.
  Proof.
    destruct (fin_upper NL (fun l => / 2 * scattering_size p l)) as (B & HB & H). exists B. split; [exact HB|]. intros l x y Hl Hx Hy. rewrite K_skernel. eapply Rle_trans; [apply kernel_size; auto|].
    eapply Rle_trans; [|apply (H l Hl)]. apply Rle_abs.
  Qed.
  Lemma K_lip : exists L, 0 <= L /\ forall l x x' y, (l < NL)%nat -> -1 <= x <= 1 -> -1 <= x' <= 1 -> -1 <= y <= 1 -> Rabs (K l x y - K l x' y) <= L * Rabs (x - x').
  Proof.
    destruct (leg_lips (ncoeffs p)) as (Lg & HLg & HL). destruct (fin_upper NL (fun l => / 2 * scattering_size p l)) as (B & HB & H). exists (B * Lg). split; [apply Rmult_le_pos; auto|].
    intros l x x' y Hl Hx Hx' Hy. pose proof (H l Hl) as H0. pose proof (size_nonneg p l) as Hs. rewrite Rabs_pos_eq in H0 by lra. pose proof (Rabs_pos (x - x')) as Hr.
    apply Rle_trans with (/ 2 * scattering_size p l * (Lg * Rabs (x - x'))); [|rewrite (Rmult_assoc B); apply Rmult_le_compat_r; [apply Rmult_le_pos; auto|exact H0]].
    unfold scatters. rewrite <- Rmult_minus_distr_l, <- rsum_minus, Rabs_mult, (Rabs_pos_eq (/ 2)), (Rmult_assoc (/ 2)) by lra. apply Rmult_le_compat_l; [lra|]. eapply Rle_trans; [apply rsum_abs|].
    unfold scattering_size. rewrite <- rsum_scal_r. apply rsum_le. intros k Hk. pose proof (pos_INR k).
    replace ((2 * INR k + 1) * scattering p l k * legendre k x * legendre k y - (2 * INR k + 1) * scattering p l k * legendre k x' * legendre k y)
      with ((2 * INR k + 1) * (scattering p l k * ((legendre k x - legendre k x') * legendre k y))) by ring.
    rewrite Rabs_mult, (Rabs_pos_eq (2 * INR k + 1)), Rmult_assoc by lra. apply Rmult_le_compat_l; [lra|]. rewrite Rabs_mult. apply Rmult_le_compat_l; [apply Rabs_pos|].
    rewrite Rabs_mult. pose proof (HL k x x' Hk Hx Hx') as H1'. pose proof (legendre_abs k y Hy) as H2'. pose proof (Rabs_pos (legendre k x - legendre k x')). pose proof (Rabs_pos (legendre k y)). nra.
  Qed.

  Lemma J_bound : exists M, 0 <= M /\ forall x t, direction x -> 0 <= t <= bottom p -> Rabs (J x t) <= M.
  Proof.
    destruct (ef_bounded _ _ _ _ _ EF) as (M & H). exists M. split; [|exact H]. eapply Rle_trans; [apply Rabs_pos|apply (H 1 0)]; [split; lra|]. destruct (layer_in p V 0 ltac:(pose proof (v_ne p V); lia)). pose proof (v_inc p V 0 ltac:(pose proof (v_ne p V); lia)). lra.
  Qed.
  Lemma K_cont l x s : (l < NL)%nat -> -1 <= x <= 1 -> s = 1 \/ s = -1 -> cont_on 0 1 (fun y => K l x (s * y)).
  Proof.
    intros Hl Hx Hs y Hy e He. destruct K_lip as (L & HL & H). exists (e / (L + 1)). split; [apply Rdiv_lt_0_compat; lra|]. intros y' Hy' Hyy. rewrite (K_sym l x), (K_sym l x (s * y)).
    assert (S1 : forall z, 0 <= z <= 1 -> -1 <= s * z <= 1) by (intros z Hz; destruct Hs as [-> | ->]; lra).
    eapply Rle_lt_trans; [apply H; auto|]. replace (Rabs (s * y' - s * y)) with (Rabs (y' - y)).
    2: { rewrite <- Rmult_minus_distr_l, Rabs_mult. replace (Rabs s) with 1; [ring|]. destruct Hs as [-> | ->]; [rewrite Rabs_R1; reflexivity|rewrite Rabs_left by lra; lra]. }
    apply Rle_lt_trans with ((L + 1) * Rabs (y' - y)); [pose proof (Rabs_pos (y' - y)); nra|]. apply (Rmult_lt_reg_l (/ (L + 1))); [apply Rinv_0_lt_compat; lra|].
    rewrite <- Rmult_assoc, Rinv_l, Rmult_1_l by lra. unfold Rdiv in Hyy. lra.
  Qed.
  Lemma KJ_int l x t s : (l < NL)%nat -> -1 <= x <= 1 -> s = 1 \/ s = -1 -> 0 <= t <= bottom p -> ex_RInt (fun y => K l x (s * y) * J (s * y) t) 0 1.
  Proof.
    intros Hl Hx Hs Ht. pose proof (ef_integrable _ _ _ _ _ EF _ t (K_cont l x s Hl Hx Hs) Ht) as [A B].
    destruct Hs as [-> | ->].
    - eapply ex_RInt_ext; [|exact A]. intros y Hy. cbv beta. rewrite Rmult_1_l. reflexivity.
    - eapply ex_RInt_ext; [|exact B]. intros y Hy. cbv beta. replace (-1 * y) with (- y) by ring. reflexivity.
  Qed.

  Definition inscat (l : nat) (x t : R) : R := RInt (fun y => K l x y * J y t) 0 1 + RInt (fun y => K l x (- y) * J (- y) t) 0 1.
  Definition beam (l : nat) (x t : R) : R := 2 * (p_I0 p / (4 * PI)) * K l x (- p_mu0 p) * exp (- depth_s p l t / p_mu0 p).
  Definition src (l : nat) (x t : R) : R := inscat l x t + beam l x t + (1 - albedo p l) * source p l t.
  Lemma transfer l x t : (l < NL)%nat -> direction x -> top_of p l < t < bot_of p l -> is_derive (J x) t ((scl p l * J x t - src l x t) / x).
  Proof. intros Hl Hx Ht. refine (der_eq _ _ _ _ _ (ef_transfer _ _ _ _ _ EF l x t Hl Hx Ht)). unfold src, inscat, beam. f_equal. ring. Qed.

  Lemma in_bottom l t : (l < NL)%nat -> top_of p l <= t <= bot_of p l -> 0 <= t <= bottom p.
  Proof. intros Hl Ht. destruct (layer_in p V l Hl). lra. Qed.
  Lemma KJ1 l x t : (l < NL)%nat -> -1 <= x <= 1 -> 0 <= t <= bottom p -> ex_RInt (fun y => K l x y * J y t) 0 1.
  Proof. intros Hl Hx Ht. eapply ex_RInt_ext; [|apply (KJ_int l x t 1 Hl Hx (or_introl eq_refl) Ht)]. intros y _. cbv beta. rewrite Rmult_1_l. reflexivity. Qed.
  Lemma KJ2 l x t : (l < NL)%nat -> -1 <= x <= 1 -> 0 <= t <= bottom p -> ex_RInt (fun y => K l x (- y) * J (- y) t) 0 1.
  Proof. intros Hl Hx Ht. eapply ex_RInt_ext; [|apply (KJ_int l x t (-1) Hl Hx (or_intror eq_refl) Ht)]. intros y _. cbv beta. replace (-1 * y) with (- y) by ring. reflexivity. Qed.
  Lemma ex_0 : ex_RInt (fun _ : R => 0) 0 1. Proof. apply (ex_RInt_const (V := R_NormedModule)). Qed.
  Lemma RInt_0 : RInt (fun _ : R => 0) 0 1 = 0. Proof. rewrite (RInt_const (V := R_CompleteNormedModule)). unfold scal; cbn; unfold mult; cbn. ring. Qed.
  Lemma RInt_abs1 (f : R -> R) e : ex_RInt f 0 1 -> (forall x, 0 < x < 1 -> Rabs (f x) <= e) -> Rabs (RInt f 0 1) <= e.
  Proof. intros Hf H. replace (RInt f 0 1) with (RInt f 0 1 - RInt (fun _ => 0) 0 1) by (rewrite RInt_0; ring). apply RInt_near; [exact Hf|apply ex_0|]. intros x Hx. rewrite Rminus_0_r. auto. Qed.

  Lemma beam_exp l t : 0 < p_I0 p -> (l < NL)%nat -> top_of p l <= t -> 0 < exp (- depth_s p l t / p_mu0 p) <= 1.
  Proof.
    intros HI Hl Ht. split; [apply exp_pos|]. rewrite <- exp_0. apply exp_mono. pose proof (depth_nonneg p V l t Hl Ht) as H0. pose proof (v_mu0 p V HI) as Hm.
    assert (0 <= depth_s p l t / p_mu0 p) by (apply Rmult_le_pos; [exact H0|apply Rlt_le, Rinv_0_lt_compat; lra]). unfold Rdiv in *. lra.
  Qed.
  Lemma beam_facts : exists B L, 0 <= B /\ 0 <= L /\ forall l x x' t, (l < NL)%nat -> -1 <= x <= 1 -> -1 <= x' <= 1 -> top_of p l <= t <= bot_of p l ->
    Rabs (beam l x t) <= B /\ Rabs (beam l x t - beam l x' t) <= L * Rabs (x - x').
  Proof.
    pose proof (v_I0 p V) as HI. pose proof PI_RGT_0 as HPI. destruct (Rle_lt_or_eq_dec 0 (p_I0 p) ltac:(lra)) as [Hlt|E].
    2: { exists 0, 0. split; [lra|]. split; [lra|]. intros l x x' t _ _ _ _. unfold beam. rewrite <- E. unfold Rdiv. rewrite !Rmult_0_l, Rmult_0_r, !Rmult_0_l, Rminus_0_r, Rabs_R0. lra. }
    destruct K_bound as (B & HB & H1). destruct K_lip as (L & HL & H2). set (c := 2 * (p_I0 p / (4 * PI))). assert (Hc : 0 < c) by (unfold c; apply Rmult_lt_0_compat; [lra|apply Rdiv_lt_0_compat; lra]).
    exists (c * B), (c * L). split; [apply Rmult_le_pos; lra|]. split; [apply Rmult_le_pos; lra|]. intros l x x' t Hl Hx Hx' Ht. pose proof (v_mu0 p V Hlt) as Hm. pose proof (beam_exp l t Hlt Hl ltac:(lra)) as He.
    unfold beam. fold c. set (E := exp _) in *. pose proof (H1 l x (- p_mu0 p) Hl Hx ltac:(lra)) as A1. pose proof (H2 l x x' (- p_mu0 p) Hl Hx Hx' ltac:(lra)) as A2. split.
    - rewrite !Rabs_mult, (Rabs_pos_eq c), (Rabs_pos_eq E) by lra. pose proof (Rabs_pos (K l x (- p_mu0 p))). assert (c * Rabs (K l x (- p_mu0 p)) <= c * B) by (apply Rmult_le_compat_l; lra). apply Rle_trans with (c * Rabs (K l x (- p_mu0 p)) * 1); [apply Rmult_le_compat_l; [apply Rmult_le_pos; lra|lra]|lra].
    - rewrite <- Rmult_minus_distr_r, <- Rmult_minus_distr_l, !Rabs_mult, (Rabs_pos_eq c), (Rabs_pos_eq E) by lra. rewrite (Rmult_assoc c L). set (dK := Rabs (_ - _)) in *. pose proof (Rabs_pos (K l x (- p_mu0 p) - K l x' (- p_mu0 p))) as Hp. fold dK in Hp.
      assert (c * dK <= c * (L * Rabs (x - x'))) by (apply Rmult_le_compat_l; lra). assert (0 <= c * dK) by (apply Rmult_le_pos; lra). apply Rle_trans with (c * dK * 1); [apply Rmult_le_compat_l; lra|lra].
  Qed.
  Lemma dir_pm y : 0 < y <= 1 -> direction y /\ direction (- y). Proof. intros; split; split; lra. Qed.

  Lemma src_facts : exists C L, 0 <= C /\ 0 <= L /\ forall l x x' t, (l < NL)%nat -> -1 <= x <= 1 -> -1 <= x' <= 1 -> top_of p l <= t <= bot_of p l ->
    Rabs (src l x t) <= C /\ Rabs (src l x t - src l x' t) <= L * Rabs (x - x').
  Proof.
    destruct beam_facts as (B1 & L1 & HB1 & HL1 & H1). destruct K_bound as (B & HB & H2). destruct K_lip as (L & HL & H3). destruct J_bound as (M & HM & H4). destruct (source_bounded p V) as (S0 & HS & H5).
    exists (B * M + B * M + B1 + S0), (L * M + L * M + L1). assert (0 <= B * M) by (apply Rmult_le_pos; auto). assert (0 <= L * M) by (apply Rmult_le_pos; auto). split; [lra|]. split; [lra|].
    intros l x x' t Hl Hx Hx' Ht. destruct (H1 l x x' t Hl Hx Hx' Ht) as [A1 A2]. pose proof (in_bottom l t Hl Ht) as Htb.
    assert (P : forall a b c d, Rabs a <= c -> Rabs b <= d -> Rabs (a * b) <= c * d) by (intros; rewrite Rabs_mult; apply Rmult_le_compat; auto using Rabs_pos). split.
    - unfold src, inscat. eapply Rle_trans; [apply Rabs_triang|]. apply Rplus_le_compat; [eapply Rle_trans; [apply Rabs_triang|]; apply Rplus_le_compat; [|exact A1]; eapply Rle_trans; [apply Rabs_triang|]; apply Rplus_le_compat|].
      + apply RInt_abs1; [apply KJ1; auto|]. intros y Hy. apply P; [apply H2; auto; lra|apply H4; [apply dir_pm; lra|auto]].
      + apply RInt_abs1; [apply KJ2; auto|]. intros y Hy. apply P; [apply H2; auto; lra|apply H4; [apply (dir_pm y); lra|auto]].
      + rewrite Rabs_mult. pose proof (albedo_range p V l Hl) as Ha. rewrite (Rabs_pos_eq (1 - _)) by lra. pose proof (H5 l t Hl Htb). pose proof (Rabs_pos (source p l t)). nra.
    - unfold src, inscat.
      match goal with |- Rabs (?a + ?b + ?c + ?d - (?a' + ?b' + ?c' + ?d)) <= _ => replace (a + b + c + d - (a' + b' + c' + d)) with ((a - a') + (b - b') + (c - c')) by ring end.
      rewrite !Rmult_plus_distr_r. eapply Rle_trans; [apply Rabs_triang|]. apply Rplus_le_compat; [|exact A2]. eapply Rle_trans; [apply Rabs_triang|]. apply Rplus_le_compat.
      + apply RInt_near; [apply KJ1; auto|apply KJ1; auto|]. intros y Hy. rewrite <- Rmult_minus_distr_r. replace (L * M * Rabs (x - x')) with (L * Rabs (x - x') * M) by ring. apply P; [apply H3; auto; lra|apply H4; [apply dir_pm; lra|auto]].
      + apply RInt_near; [apply KJ2; auto|apply KJ2; auto|]. intros y Hy. rewrite <- Rmult_minus_distr_r. replace (L * M * Rabs (x - x')) with (L * Rabs (x - x') * M) by ring. apply P; [apply H3; auto; lra|apply H4; [apply (dir_pm y); lra|auto]].
  Qed.

  (** The difference of two directions of the same hemisphere grows by at most [eta] per unit of depth. *)
  Lemma diff_facts : exists Q, 0 <= Q /\ forall dl s x x', 0 < dl <= 1 -> s = 1 \/ s = -1 -> dl <= x <= 1 -> dl <= x' <= 1 -> forall l, (l < NL)%nat -> exists r k, 0 <= k /\
    (forall t, top_of p l < t < bot_of p l -> is_derive (fun t => J (s * x) t - J (s * x') t) t (s * k * (J (s * x) t - J (s * x') t) + r t)) /\
    (forall t, top_of p l < t < bot_of p l -> Rabs (r t) <= Q / (dl * dl) * Rabs (x - x')).
  Proof.
    destruct src_facts as (C & L & HC & HL & H). destruct J_bound as (M & HM & HJ). exists (M + C + L). split; [lra|]. intros dl s x x' Hdl Hs Hx Hx' l Hl.
    assert (Dx : forall z, dl <= z <= 1 -> direction (s * z)). { intros z Hz. split; destruct Hs as [-> | ->]; lra. }
    assert (Es : s * s = 1) by (destruct Hs as [-> | ->]; ring). assert (Hs0 : s <> 0) by (destruct Hs as [-> | ->]; lra). assert (As : Rabs s = 1) by (destruct Hs as [-> | ->]; [apply Rabs_R1|rewrite Rabs_left by lra; lra]).
    pose proof (scl_pos p V l Hl) as Hsc. pose proof (albedo_range p V l Hl) as Ha.
    exists (fun t => s * ((scl p l * J (s * x') t - src l (s * x') t) * (/ x - / x') - (src l (s * x) t - src l (s * x') t) * / x)), (scl p l / x).
    split; [apply Rmult_le_pos; [lra|apply Rlt_le, Rinv_0_lt_compat; lra]|]. split.
    - intros t Ht. refine (der_eq _ _ _ _ _ (der_minus _ _ _ _ _ (transfer l (s * x) t Hl (Dx x Hx) Ht) (transfer l (s * x') t Hl (Dx x' Hx') Ht))).
      assert (I : forall z, dl <= z <= 1 -> / (s * z) = s * / z). { intros z Hz. apply (Rmult_eq_reg_l (s * z)); [|apply Rmult_integral_contrapositive; split; [exact Hs0|lra]]. rewrite Rinv_r by (apply Rmult_integral_contrapositive; split; [exact Hs0|lra]). replace (s * z * (s * / z)) with ((s * s) * (z * / z)) by ring. rewrite Es, Rinv_r by lra. ring. }
      unfold Rdiv. rewrite (I x Hx), (I x' Hx'). ring.
    - intros t Ht. pose proof (in_bottom l t Hl ltac:(lra)) as Htb. destruct (Dx x Hx) as [Rx _]. destruct (Dx x' Hx') as [Rx' _]. destruct (H l (s * x') (s * x) t Hl Rx' Rx ltac:(lra)) as [A1 _]. destruct (H l (s * x) (s * x') t Hl Rx Rx' ltac:(lra)) as [_ A2].
      pose proof (HJ (s * x') t (Dx x' Hx') Htb) as A3. replace (Rabs (s * x - s * x')) with (Rabs (x - x')) in A2 by (rewrite <- Rmult_minus_distr_l, Rabs_mult, As; ring).
      rewrite Rabs_mult, As, Rmult_1_l. unfold Rminus at 1. eapply Rle_trans; [apply Rabs_triang|]. rewrite Rabs_Ropp, !Rabs_mult.
      assert (Ix : 0 < / x <= / dl) by (split; [apply Rinv_0_lt_compat; lra|apply Rinv_le_contravar; lra]). assert (Ix' : 0 < / x' <= / dl) by (split; [apply Rinv_0_lt_compat; lra|apply Rinv_le_contravar; lra]). assert (Id : 1 <= / dl) by (rewrite <- Rinv_1; apply Rinv_le_contravar; lra).
      assert (Er : Rabs (/ x - / x') <= / dl * / dl * Rabs (x - x')).
      { replace (/ x - / x') with ((x' - x) * (/ x * / x')) by (field; lra). rewrite Rabs_mult, (Rabs_minus_sym x' x), Rmult_comm. apply Rmult_le_compat_r; [apply Rabs_pos|]. rewrite Rabs_pos_eq by (apply Rmult_le_pos; lra). apply Rmult_le_compat; lra. }
      assert (Eb : Rabs (scl p l * J (s * x') t - src l (s * x') t) <= M + C).
      { unfold Rminus. eapply Rle_trans; [apply Rabs_triang|]. rewrite Rabs_Ropp, Rabs_mult, (Rabs_pos_eq (scl p l)) by lra. apply Rplus_le_compat; [|exact A1]. pose proof (Rabs_pos (J (s * x') t)). nra. }
      rewrite (Rabs_pos_eq (/ x)) by lra. unfold Rdiv. rewrite Rinv_mult. set (a := Rabs (x - x')) in *. assert (Ha0 : 0 <= a) by apply Rabs_pos.
      apply Rle_trans with ((M + C) * (/ dl * / dl * a) + L * a * / dl).
      + apply Rplus_le_compat; apply Rmult_le_compat; auto using Rabs_pos; lra.
      + assert (0 <= L * a) by (apply Rmult_le_pos; lra). assert (L * a * / dl <= L * a * (/ dl * / dl)) by (apply Rmult_le_compat_l; [lra|nra]). lra.
  Qed.
End Exact.
