(** The exact radiation field: equicontinuity away from the horizontal, and convergence of the
    quadratures over the directions, uniformly in depth. *)
From Coq Require Import Classical String Reals Lra Lia List Bool Arith ZArith.
From Coquelicot Require Import Coquelicot.
From Verif Require Import Base Tensor Spec M_LinAlg Spec_RTE Calc M_Subroutines M_GenPart M_MathscrV M_Coeffs M_Assemble M_Pydisort
  Spec_Sol Spec_Valid Spec_Calls Spec_Unique Spec_Phys Spec_Mono Spec_Depend Spec_Exact P_Special P_Addition P_Quad P_Sub P_Solve P_Energy P_Pydisort P_Pydisort2 P_Pydisort3 P_Pydisort4 P_Pydisort5 P_Pydisort6 P_Pydisort8 P_Teq P_NT3 P_Unique2 P_Refine P_Max P_Max2 P_Max3 P_Max4 P_Mono P_Sym P_Depend P_Depend2 P_Gauss P_Conv P_Conv2.
Import ListNotations.
Local Open Scope R_scope.

Lemma ucont2_bounded f : ucont2 f -> exists B, 0 <= B /\ forall x y, 0 <= x <= 1 -> 0 <= y <= 1 -> Rabs (f x y) <= B.
Proof.
  intros H. destruct (H 1 ltac:(lra)) as (d & Hd & K). destruct (nat_above (/ d)) as (n & Hn & Hnd). assert (Hin : 0 < INR n) by (apply lt_0_INR; exact Hn). exists (Rabs (f 0 0) + INR n). split; [pose proof (Rabs_pos (f 0 0)); lra|].
  intros x y Hx Hy. assert (Hd1 : / INR n < d). { rewrite <- (Rinv_inv d). apply Rinv_lt_contravar; [apply Rmult_lt_0_compat; [apply Rinv_0_lt_compat; lra|lra]|exact Hnd]. }
  assert (G : forall k, (k <= n)%nat -> Rabs (f (INR k / INR n * x) (INR k / INR n * y)) <= Rabs (f 0 0) + INR k).
  { induction k as [|k IH]; intros Hk.
    - cbn [INR]. replace (0 / INR n * x) with 0 by (unfold Rdiv; ring). replace (0 / INR n * y) with 0 by (unfold Rdiv; ring). lra.
    - specialize (IH ltac:(lia)). assert (R : forall j, (j <= n)%nat -> 0 <= INR j / INR n <= 1).
      { intros j Hj. pose proof (pos_INR j). apply le_INR in Hj. split; [apply Rmult_le_pos; [lra|apply Rlt_le, Rinv_0_lt_compat; lra]|]. apply (Rmult_le_reg_r (INR n)); [lra|]. unfold Rdiv. rewrite Rmult_assoc, Rinv_l by lra. lra. }
      pose proof (R k ltac:(lia)) as R1. pose proof (R (S k) Hk) as R2. assert (E : INR (S k) / INR n = INR k / INR n + / INR n) by (rewrite S_INR; field; lra). assert (Ip : 0 < / INR n) by (apply Rinv_0_lt_compat; lra).
      assert (P : forall z c, 0 <= z <= 1 -> 0 <= c <= 1 -> 0 <= c * z <= 1) by (intros; nra).
      assert (D : forall z, 0 <= z <= 1 -> Rabs (INR (S k) / INR n * z - INR k / INR n * z) < d). { intros z Hz. rewrite E. replace ((INR k / INR n + / INR n) * z - INR k / INR n * z) with (/ INR n * z) by ring. rewrite Rabs_pos_eq by nra. nra. }
      pose proof (K _ _ _ _ (P x _ Hx R2) (P x _ Hx R1) (P y _ Hy R2) (P y _ Hy R1) (D x Hx) (D y Hy)) as K1. pose proof (Rabs_triang_inv (f (INR (S k) / INR n * x) (INR (S k) / INR n * y)) (f (INR k / INR n * x) (INR k / INR n * y))) as K2.
      rewrite (S_INR k) at 3. lra. }
  specialize (G n (Nat.le_refl n)). unfold Rdiv in G. rewrite Rinv_r, !Rmult_1_l in G by lra. exact G.
Qed.
Lemma small c e : 0 <= c -> 0 < e -> exists d, 0 < d /\ forall x, 0 <= x < d -> c * x <= e.
Proof.
  intros Hc He. exists (e / (c + 1)). split; [apply Rdiv_lt_0_compat; lra|]. intros x Hx. apply Rle_trans with ((c + 1) * x); [nra|]. apply (Rmult_le_reg_l (/ (c + 1))); [apply Rinv_0_lt_compat; lra|].
  rewrite <- Rmult_assoc, Rinv_l, Rmult_1_l by lra. unfold Rdiv in Hx. lra.
Qed.

Section Exact.
  Variables (p : py_in) (V : valid p) (bn bp : R -> R) (rho : R -> R -> R) (J : R -> R -> R).
  Hypothesis EF : exact_field p bn bp rho J.
  Hypothesis Cn : ucont1 bn.
  Hypothesis Cp : ucont1 bp.
  Hypothesis Cr : ucont2 rho.
  Notation NL := (nlayers p).
  Notation K := (scatters p).

  Lemma rho_cont x : 0 <= x <= 1 -> cont_on 0 1 (fun y => rho x y * y).
  Proof.
    intros Hx. apply cont_on_mult; [lra| |].
    - intros y Hy e He. destruct (Cr (e / 2) ltac:(lra)) as (d & Hd & H). exists d. split; [exact Hd|]. intros y' Hy' Hyy. apply Rle_lt_trans with (e / 2); [|lra]. apply H; auto. rewrite Rminus_eq_0, Rabs_R0. exact Hd.
    - intros y Hy e He. exists e. split; [exact He|]. auto.
  Qed.
  Lemma rhoJ_int x t : 0 <= x <= 1 -> 0 <= t <= bottom p -> ex_RInt (fun y => rho x y * y * J (- y) t) 0 1.
  Proof. intros Hx Ht. apply (ef_integrable _ _ _ _ _ EF _ t (rho_cont x Hx) Ht). Qed.
  Lemma bottom_pos : 0 < bottom p.
  Proof. pose proof (v_ne p V). destruct (layer_in p V 0 ltac:(lia)). pose proof (v_inc p V 0 ltac:(lia)). lra. Qed.

  Lemma bottom_equi e : 0 < e -> exists d, 0 < d /\ forall x x', 0 < x <= 1 -> 0 < x' <= 1 -> Rabs (x - x') < d -> Rabs (J x (bottom p) - J x' (bottom p)) <= e.
  Proof.
    intros He. destruct (Cp (e / 2) ltac:(lra)) as (d1 & Hd1 & H1). pose proof bottom_pos as HT. destruct (J_bound p V bn bp rho J EF) as (M & HM & HJ). pose proof (v_I0 p V) as HI. pose proof PI_RGT_0 as HPI.
    set (c := p_mu0 p * p_I0 p / PI). assert (Hc : 0 <= c /\ (c = 0 \/ 0 < p_I0 p)).
    { unfold c. destruct (Rle_lt_or_eq_dec 0 (p_I0 p) ltac:(lra)) as [Hlt|E]; [|rewrite <- E; unfold Rdiv; rewrite Rmult_0_r, Rmult_0_l; split; [lra|left; reflexivity]]. pose proof (v_mu0 p V Hlt).
      split; [apply Rmult_le_pos; [apply Rmult_le_pos; lra|apply Rlt_le, Rinv_0_lt_compat; lra]|right; exact Hlt]. }
    destruct Hc as [Hc Hc']. set (e' := e / 2 / (2 * M + c + 1)). assert (He' : 0 < e') by (unfold e'; apply Rdiv_lt_0_compat; lra). assert (Ee : 2 * (e' * M) + c * e' <= e / 2). { replace (e / 2) with (e' * (2 * M + c + 1)) by (unfold e'; field; lra). lra. }
    destruct (Cr e' He') as (d2 & Hd2 & H2). exists (Rmin d1 d2). split; [apply Rmin_pos; auto|]. intros x x' Hx Hx' Hxx. pose proof (Rmin_l d1 d2). pose proof (Rmin_r d1 d2).
    rewrite (ef_bottom _ _ _ _ _ EF x Hx), (ef_bottom _ _ _ _ _ EF x' Hx'). pose proof (H1 x x' ltac:(lra) ltac:(lra) ltac:(lra)) as B1.
    destruct (Nat.ltb 0 (length (p_BDRF p))). 2: { rewrite !Rplus_0_r. lra. }
    fold c. set (E := exp _).
    match goal with |- Rabs (?a + (2 * ?b + c * ?g * E) - (?a' + (2 * ?b' + c * ?g' * E))) <= _ => replace (a + (2 * b + c * g * E) - (a' + (2 * b' + c * g' * E))) with ((a - a') + (2 * (b - b') + c * (g - g') * E)) by ring end.
    eapply Rle_trans; [apply Rabs_triang|]. replace e with (e / 2 + e / 2) by field. apply Rplus_le_compat; [exact B1|]. eapply Rle_trans; [|exact Ee]. eapply Rle_trans; [apply Rabs_triang|]. apply Rplus_le_compat.
    - rewrite Rabs_mult, (Rabs_pos_eq 2) by lra. apply Rmult_le_compat_l; [lra|]. apply RInt_near; [apply rhoJ_int; lra|apply rhoJ_int; lra|]. intros y Hy. rewrite <- !Rmult_minus_distr_r, !Rabs_mult.
      pose proof (H2 x x' y y ltac:(lra) ltac:(lra) ltac:(lra) ltac:(lra) ltac:(lra) ltac:(rewrite Rminus_eq_0, Rabs_R0; exact Hd2)) as B2. pose proof (HJ (- y) (bottom p) ltac:(split; lra) ltac:(lra)) as B3. rewrite (Rabs_pos_eq y) by lra.
      apply Rmult_le_compat; auto using Rabs_pos; [apply Rmult_le_pos; [apply Rabs_pos|lra]|]. pose proof (Rabs_pos (rho x y - rho x' y)). nra.
    - destruct Hc' as [-> |HI0]; [rewrite !Rmult_0_l, Rabs_R0; lra|]. pose proof (v_mu0 p V HI0) as Hm. pose proof (v_ne p V) as Hne. pose proof (beam_exp p V (NL - 1) (bottom p) HI0 ltac:(lia)) as BE.
      assert (Hb : top_of p (NL - 1) <= bottom p). { rewrite (bottom_eq p). pose proof (v_inc p V (NL - 1) ltac:(lia)). lra. } specialize (BE Hb). fold E in BE.
      pose proof (H2 x x' (p_mu0 p) (p_mu0 p) ltac:(lra) ltac:(lra) ltac:(lra) ltac:(lra) ltac:(lra) ltac:(rewrite Rminus_eq_0, Rabs_R0; exact Hd2)) as B2.
      rewrite !Rabs_mult, (Rabs_pos_eq c), (Rabs_pos_eq E) by lra. pose proof (Rabs_pos (rho x (p_mu0 p) - rho x' (p_mu0 p))). rewrite Rmult_assoc. apply Rmult_le_compat_l; [exact Hc|]. nra.
  Qed.

  Section Pair.
    Variables (dl s x x' eta : R).
    Hypothesis Hs : s = 1 \/ s = -1.
    Hypothesis Hx : dl <= x <= 1.
    Hypothesis Hx' : dl <= x' <= 1.
    Hypothesis Hdl : 0 < dl <= 1.
    Hypothesis He : 0 <= eta.
    Hypothesis HR : forall l, (l < NL)%nat -> exists r k, 0 <= k /\
      (forall t, top_of p l < t < bot_of p l -> is_derive (fun t => J (s * x) t - J (s * x') t) t (s * k * (J (s * x) t - J (s * x') t) + r t)) /\
      (forall t, top_of p l < t < bot_of p l -> Rabs (r t) <= eta).
    Let d t := J (s * x) t - J (s * x') t.
    Lemma d_cont : cont_on 0 (bottom p) d.
    Proof.
      assert (Dx : forall z, dl <= z <= 1 -> direction (s * z)) by (intros z Hz; split; destruct Hs as [-> | ->]; lra).
      apply (cont_on_ext _ _ (fun t => J (s * x) t + (-1) * J (s * x') t)); [intros; unfold d; ring|]. apply cont_on_plus; [|apply cont_on_scal]; apply (ef_continuous _ _ _ _ _ EF); auto.
    Qed.
    Lemma pair_down : s = -1 -> forall l t, (l < NL)%nat -> top_of p l <= t <= bot_of p l -> Rabs (d t) <= Rabs (d 0) + eta * t.
    Proof.
      intros E. assert (Step : forall l, (l < NL)%nat -> Rabs (d (top_of p l)) <= Rabs (d 0) + eta * top_of p l -> forall t, top_of p l <= t <= bot_of p l -> Rabs (d t) <= Rabs (d 0) + eta * t).
      { intros l Hl H0 t Ht. destruct (Rle_lt_or_eq_dec _ _ (proj1 Ht)) as [Hlt|Et]; [|rewrite <- Et; exact H0]. destruct (HR l Hl) as (r & k & Hk & H1 & H2). destruct (layer_in p V l Hl) as [L1 L2].
        pose proof (decay_down (top_of p l) t k eta d r Hlt Hk He (cont_on_sub 0 (bottom p) (top_of p l) t d L1 ltac:(lra) d_cont)) as H.
        assert (A : Rabs (d t) <= Rabs (d (top_of p l)) + eta * (t - top_of p l)); [|lra]. apply H.
        - intros u Hu. refine (der_eq _ _ _ _ _ (H1 u ltac:(lra))). rewrite E. unfold d. rewrite E. ring.
        - intros u Hu. apply H2. lra. }
      induction l as [|l IH]; intros t Hl Ht; apply (Step _ Hl); try exact Ht.
      - cbn [top_of]. lra.
      - change (top_of p (S l)) with (bot_of p l). apply IH; [lia|]. pose proof (v_inc p V l ltac:(lia)). lra.
    Qed.
    Lemma pair_up : s = 1 -> forall m l t, (l + S m = NL)%nat -> top_of p l <= t <= bot_of p l -> Rabs (d t) <= Rabs (d (bottom p)) + eta * (bottom p - t).
    Proof.
      intros E. assert (Step : forall l, (l < NL)%nat -> Rabs (d (bot_of p l)) <= Rabs (d (bottom p)) + eta * (bottom p - bot_of p l) -> forall t, top_of p l <= t <= bot_of p l -> Rabs (d t) <= Rabs (d (bottom p)) + eta * (bottom p - t)).
      { intros l Hl H0 t Ht. destruct (Rle_lt_or_eq_dec _ _ (proj2 Ht)) as [Hlt|Et]; [|rewrite Et; exact H0]. destruct (HR l Hl) as (r & k & Hk & H1 & H2). destruct (layer_in p V l Hl) as [L1 L2].
        pose proof (decay_up t (bot_of p l) k eta d r Hlt Hk He (cont_on_sub 0 (bottom p) t (bot_of p l) d ltac:(lra) L2 d_cont)) as H.
        assert (A : Rabs (d t) <= Rabs (d (bot_of p l)) + eta * (bot_of p l - t)); [|lra]. apply H.
        - intros u Hu. refine (der_eq _ _ _ _ _ (H1 u ltac:(lra))). rewrite E. unfold d. rewrite E. ring.
        - intros u Hu. apply H2. lra. }
      induction m as [|m IH]; intros l t Hl Ht; apply (Step l ltac:(lia)); try exact Ht.
      - rewrite (bottom_eq p). replace (NL - 1)%nat with l by lia. lra.
      - change (bot_of p l) with (top_of p (S l)). apply (IH (S l)); [lia|]. pose proof (v_inc p V (S l) ltac:(lia)). lra.
    Qed.
  End Pair.

  Theorem J_equi dl e : 0 < dl -> 0 < e -> exists d, 0 < d /\ forall s x x' t, s = 1 \/ s = -1 -> dl <= x <= 1 -> dl <= x' <= 1 -> Rabs (x - x') < d -> 0 <= t <= bottom p ->
    Rabs (J (s * x) t - J (s * x') t) <= e.
  Proof.
    intros Hdl He. destruct (Rle_lt_dec dl 1) as [H1|H1]; [|exists 1; split; [lra|intros; lra]]. pose proof bottom_pos as HT.
    destruct (diff_facts p V bn bp rho J EF) as (Q & HQ & HD). destruct (bottom_equi (e / 2) ltac:(lra)) as (d1 & Hd1 & E1). destruct (Cn (e / 2) ltac:(lra)) as (d2 & Hd2 & E2).
    assert (HQd : 0 <= Q / (dl * dl)) by (apply Rmult_le_pos; [exact HQ|apply Rlt_le, Rinv_0_lt_compat; apply Rmult_lt_0_compat; lra]).
    destruct (small (Q / (dl * dl) * bottom p) (e / 2) ltac:(apply Rmult_le_pos; lra) ltac:(lra)) as (d3 & Hd3 & E3).
    exists (Rmin d1 (Rmin d2 d3)). split; [repeat apply Rmin_pos; auto|]. intros s x x' t Hs Hx Hx' Hxx Ht. pose proof (Rmin_l d1 (Rmin d2 d3)). pose proof (Rmin_r d1 (Rmin d2 d3)). pose proof (Rmin_l d2 d3). pose proof (Rmin_r d2 d3).
    set (eta := Q / (dl * dl) * Rabs (x - x')). pose proof (Rabs_pos (x - x')) as Ha. assert (Heta : 0 <= eta) by (apply Rmult_le_pos; auto). assert (HeT : eta * bottom p <= e / 2).
    { replace (eta * bottom p) with (Q / (dl * dl) * bottom p * Rabs (x - x')) by (unfold eta; ring). apply E3. lra. }
    pose proof (HD dl s x x' ltac:(lra) Hs Hx Hx') as HR. destruct (layer_at_ex p V t Ht) as (l & Hl & Hlt). assert (Htl : top_of p l <= t <= bot_of p l). { destruct Hlt as [?|[-> ->]]; [lra|]. pose proof (v_inc p V 0 Hl). cbn [top_of] in *. lra. }
    destruct Hs as [Es|Es].
    - pose proof (pair_up dl s x x' eta (or_introl Es) Hx Hx' ltac:(lra) Heta HR Es (NL - S l) l t ltac:(lia) Htl) as Z3. assert (eta * (bottom p - t) <= eta * bottom p) by (apply Rmult_le_compat_l; lra).
      pose proof (E1 x x' ltac:(lra) ltac:(lra) ltac:(lra)) as Z5. rewrite Es, !Rmult_1_l in *. lra.
    - pose proof (pair_down dl s x x' eta (or_intror Es) Hx Hx' ltac:(lra) Heta HR Es l t Hl Htl) as Z3. assert (eta * t <= eta * bottom p) by (apply Rmult_le_compat_l; lra).
      pose proof (E2 x x' ltac:(lra) ltac:(lra) ltac:(lra)) as Z5. rewrite Es in *. replace (-1 * x) with (- x) in * by ring. replace (-1 * x') with (- x') in * by ring.
      rewrite (ef_top _ _ _ _ _ EF x), (ef_top _ _ _ _ _ EF x') in Z3 by lra. lra.
  Qed.

  (** ** Quadratures over the directions *)
  Definition wt (a : R -> R) : Prop :=
    (exists l x s, (l < NL)%nat /\ -1 <= x <= 1 /\ (s = 1 \/ s = -1) /\ forall y, a y = K l x (s * y)) \/
    (exists x, 0 <= x <= 1 /\ forall y, a y = rho x y * y) \/ (forall y, a y = y).
  Lemma wt_bound : exists A, 0 <= A /\ forall a y, wt a -> 0 <= y <= 1 -> Rabs (a y) <= A.
  Proof.
    destruct (K_bound p) as (B & HB & H1). destruct (ucont2_bounded rho Cr) as (B' & HB' & H2). exists (B + B' + 1). split; [lra|]. intros a y [(l & x & s & Hl & Hx & Hs & E)|[(x & Hx & E)|E]] Hy; rewrite E.
    - eapply Rle_trans; [apply H1; auto; destruct Hs as [-> | ->]; lra|lra].
    - rewrite Rabs_mult, (Rabs_pos_eq y) by lra. pose proof (H2 x y Hx Hy). pose proof (Rabs_pos (rho x y)). nra.
    - rewrite Rabs_pos_eq; lra.
  Qed.
  Lemma wt_equi e : 0 < e -> exists d, 0 < d /\ forall a u v, wt a -> 0 <= u <= 1 -> 0 <= v <= 1 -> Rabs (u - v) < d -> Rabs (a u - a v) <= e.
  Proof.
    intros He. destruct (K_lip p) as (L & HL & H1). destruct (small L e HL He) as (d1 & Hd1 & E1). destruct (ucont2_bounded rho Cr) as (B & HB & H2). destruct (Cr (e / 2) ltac:(lra)) as (d2 & Hd2 & H3). destruct (small B (e / 2) HB ltac:(lra)) as (d3 & Hd3 & E3).
    exists (Rmin (Rmin d1 e) (Rmin d2 d3)). split; [repeat apply Rmin_pos; auto|]. intros a u v Ha Hu Hv Huv. pose proof (Rmin_l (Rmin d1 e) (Rmin d2 d3)). pose proof (Rmin_r (Rmin d1 e) (Rmin d2 d3)). pose proof (Rmin_l d1 e). pose proof (Rmin_r d1 e). pose proof (Rmin_l d2 d3). pose proof (Rmin_r d2 d3).
    pose proof (Rabs_pos (u - v)). destruct Ha as [(l & x & s & Hl & Hx & Hs & E)|[(x & Hx & E)|E]]; rewrite !E.
    - assert (S1 : forall z, 0 <= z <= 1 -> -1 <= s * z <= 1) by (intros z Hz; destruct Hs as [-> | ->]; lra). rewrite (K_sym p l x), (K_sym p l x (s * v)). eapply Rle_trans; [apply H1; auto|].
      replace (Rabs (s * u - s * v)) with (Rabs (u - v)); [apply E1; lra|]. rewrite <- Rmult_minus_distr_l, Rabs_mult. replace (Rabs s) with 1; [ring|]. destruct Hs as [-> | ->]; [rewrite Rabs_R1; reflexivity|rewrite Rabs_left by lra; lra].
    - replace (rho x u * u - rho x v * v) with ((rho x u - rho x v) * u + rho x v * (u - v)) by ring. eapply Rle_trans; [apply Rabs_triang|]. rewrite !Rabs_mult, (Rabs_pos_eq u) by lra. replace e with (e / 2 + e / 2) by field.
      pose proof (H3 x x u v Hx Hx Hu Hv ltac:(rewrite Rminus_eq_0, Rabs_R0; exact Hd2) ltac:(lra)) as A1. pose proof (Rabs_pos (rho x u - rho x v)). pose proof (E3 (Rabs (u - v)) ltac:(lra)) as A2. pose proof (H2 x v Hx Hv) as A3.
      apply Rplus_le_compat; [nra|]. eapply Rle_trans; [|exact A2]. apply Rmult_le_compat_r; auto.
    - lra.
  Qed.
  Lemma wt_cont a : wt a -> cont_on 0 1 a.
  Proof. intros Ha x Hx e He. destruct (wt_equi (e / 2) ltac:(lra)) as (d & Hd & H). exists d. split; [exact Hd|]. intros y Hy Hyx. apply Rle_lt_trans with (e / 2); [|lra]. apply H; auto. Qed.
  Definition famJ (g : R -> R) : Prop := exists a s t, wt a /\ (s = 1 \/ s = -1) /\ 0 <= t <= bottom p /\ forall y, g y = a y * J (s * y) t.
  Lemma famJ_int g : famJ g -> ex_RInt g 0 1.
  Proof.
    intros (a & s & t & Ha & Hs & Ht & E). pose proof (ef_integrable _ _ _ _ _ EF a t (wt_cont a Ha) Ht) as [A B]. destruct Hs as [-> | ->].
    - eapply ex_RInt_ext; [|exact A]. intros y _. cbv beta. rewrite E, Rmult_1_l. reflexivity.
    - eapply ex_RInt_ext; [|exact B]. intros y _. cbv beta. rewrite E. replace (-1 * y) with (- y) by ring. reflexivity.
  Qed.
  Theorem quad_exact eps : 0 < eps -> exists N0, forall n mu w, (N0 <= n)%nat -> double_gauss n mu w ->
    (forall g, famJ g -> Rabs (rsum n (fun i => w i * g (nth i mu 0)) - RInt g 0 1) <= eps) /\
    (forall g, wt g -> Rabs (rsum n (fun i => w i * g (nth i mu 0)) - RInt g 0 1) <= eps).
  Proof.
    intros He. destruct wt_bound as (A & HA & HA'). destruct (J_bound p V bn bp rho J EF) as (M & HM & HJ).
    assert (D : forall s y, s = 1 \/ s = -1 -> 0 < y <= 1 -> direction (s * y)) by (intros s y [-> | ->] Hy; split; lra).
    destruct (quad_bulk famJ (A * M) eps He) as (N1 & H1).
    { intros g (a & s & t & Ha & Hs & Ht & E) y Hy. rewrite E, Rabs_mult. apply Rmult_le_compat; auto using Rabs_pos. apply HA'; auto; lra. }
    { intros dl e Hdl He'. destruct (wt_equi (e / 2 / (M + 1)) ltac:(apply Rdiv_lt_0_compat; lra)) as (d1 & Hd1 & E1). destruct (J_equi dl (e / 2 / (A + 1)) Hdl ltac:(apply Rdiv_lt_0_compat; lra)) as (d2 & Hd2 & E2).
      exists (Rmin d1 d2). split; [apply Rmin_pos; auto|]. intros g u v (a & s & t & Ha & Hs & Ht & E) Hu Hv Huv. pose proof (Rmin_l d1 d2). pose proof (Rmin_r d1 d2). rewrite !E.
      replace (a u * J (s * u) t - a v * J (s * v) t) with ((a u - a v) * J (s * u) t + a v * (J (s * u) t - J (s * v) t)) by ring. eapply Rle_trans; [apply Rabs_triang|]. rewrite !Rabs_mult. replace e with (e / 2 + e / 2) by field.
      apply Rplus_le_compat.
      - apply Rle_trans with (e / 2 / (M + 1) * (M + 1)); [|right; field; lra]. apply Rmult_le_compat; auto using Rabs_pos; [apply E1; auto; lra|]. eapply Rle_trans; [apply HJ; auto; apply D; auto; lra|lra].
      - apply Rle_trans with ((A + 1) * (e / 2 / (A + 1))); [|right; field; lra]. apply Rmult_le_compat; auto using Rabs_pos; [|apply E2; auto; lra]. eapply Rle_trans; [apply HA'; auto; lra|lra]. }
    destruct (quad_bulk wt A eps He) as (N2 & H2).
    { intros g Hg y Hy. apply HA'; auto; lra. }
    { intros dl e Hdl He'. destruct (wt_equi e He') as (d & Hd & E). exists d. split; [exact Hd|]. intros g u v Hg Hu Hv Huv. apply E; auto; lra. }
    exists (Nat.max N1 N2). intros n mu w Hn HD. split; intros g Hg.
    - apply (H1 n mu w); [lia|exact HD|exact Hg|apply famJ_int; exact Hg].
    - apply (H2 n mu w); [lia|exact HD|exact Hg|apply cont_int, wt_cont; exact Hg].
  Qed.
End Exact.
