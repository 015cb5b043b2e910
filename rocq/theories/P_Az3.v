(** The azimuthal modes of the transfer problem. *)
From Coq Require Import String Reals Lra Lia List Bool Arith ZArith.
From Coquelicot Require Import Coquelicot.
From Verif Require Import Base Tensor Spec M_LinAlg Spec_RTE Calc M_Subroutines M_GenPart M_MathscrV M_Coeffs M_Assemble M_Pydisort
  Spec_Sol Spec_Valid Spec_Calls Spec_Unique Spec_Phys Spec_Mono Spec_Depend Spec_Exact P_Special P_Addition P_Quad P_Fourier P_Sub P_Solve P_Energy P_Pydisort P_Pydisort2 P_Pydisort3 P_Pydisort4 P_Pydisort5 P_Pydisort6 P_Pydisort8 P_Teq P_NT P_NT3 P_Unique2 P_Refine P_Max P_Max2 P_Max3 P_Max4 P_Mono P_Sym P_Depend P_Depend2 Spec_Full P_Full P_Gauss P_Conv P_Conv2 P_Conv3 P_Exist P_Exist2 P_Exist3 P_Full2 P_Exist4 P_Exist5 P_Exist6 P_Exist7 P_Az1 P_Az2.
Import ListNotations.
Local Open Scope R_scope.


(** ** Uniform continuity of the modes of the phase function *)
Definition uc1 (f : R -> R) : Prop := forall e, 0 < e -> exists d, 0 < d /\ forall x x', -1 <= x <= 1 -> -1 <= x' <= 1 -> Rabs (x - x') < d -> Rabs (f x - f x') <= e.
Definition uc2 (f : R -> R -> R) : Prop := forall e, 0 < e -> exists d, 0 < d /\ forall x x' y y', -1 <= x <= 1 -> -1 <= x' <= 1 -> -1 <= y <= 1 -> -1 <= y' <= 1 ->
  Rabs (x - x') < d -> Rabs (y - y') < d -> Rabs (f x y - f x' y') <= e.
Lemma lpmv_cont m k x : -1 <= x <= 1 -> continuity_pt (lpmv m k) x.
Proof.
  intros Hx. unfold lpmv. apply continuity_pt_mult; [apply continuity_pt_mult; [apply continuity_pt_const; intros a b; reflexivity|]|].
  - apply (continuity_pt_comp (fun x => sqrt (1 - x ^ 2)) (fun y => y ^ m)).
    + apply (continuity_pt_comp (fun x => 1 - x ^ 2) sqrt); [|apply continuity_pt_sqrt; nra]. apply continuity_pt_minus; [apply continuity_pt_const; intros a b; reflexivity|]. apply derivable_continuous_pt, derivable_pt_pow.
    + apply derivable_continuous_pt, derivable_pt_pow.
  - apply derivable_continuous_pt. exists (peval (pderiv (pderiv_n m (legendre_poly k))) x). apply is_derive_Reals, pderiv_correct.
Qed.
Lemma cont_uc1 f : (forall x, -1 <= x <= 1 -> continuity_pt f x) -> uc1 f.
Proof. intros H e He. destruct (Heine_cor2 H (mkposreal e He)) as (d & Hd). exists d. split; [apply cond_pos|]. intros. apply Rlt_le, Hd; auto. Qed.
Lemma cont_bounded f : (forall x, -1 <= x <= 1 -> continuity_pt f x) -> exists B, 0 <= B /\ forall x, -1 <= x <= 1 -> Rabs (f x) <= B.
Proof.
  intros H. destruct (continuity_ab_maj f (-1) 1 ltac:(lra) H) as (a & Ha & _). destruct (continuity_ab_min f (-1) 1 ltac:(lra) H) as (b & Hb & _).
  exists (Rabs (f a) + Rabs (f b)). split; [pose proof (Rabs_pos (f a)); pose proof (Rabs_pos (f b)); lra|]. intros x Hx. pose proof (Ha x Hx). pose proof (Hb x Hx). pose proof (Rle_abs (f a)). pose proof (Rle_abs (- f b)). rewrite Rabs_Ropp in *. pose proof (Rabs_pos (f a)). pose proof (Rabs_pos (f b)). apply Rabs_le. lra.
Qed.
Lemma uc2_prod f g B C : uc1 f -> uc1 g -> 0 <= B -> 0 <= C -> (forall x, -1 <= x <= 1 -> Rabs (f x) <= B) -> (forall x, -1 <= x <= 1 -> Rabs (g x) <= C) -> uc2 (fun x y => f x * g y).
Proof.
  intros Hf Hg HB HC Bf Bg e He. destruct (Hf (e / (2 * (C + 1))) ltac:(apply Rdiv_lt_0_compat; lra)) as (d1 & H1 & E1). destruct (Hg (e / (2 * (B + 1))) ltac:(apply Rdiv_lt_0_compat; lra)) as (d2 & H2 & E2).
  exists (Rmin d1 d2). split; [apply Rmin_pos; auto|]. intros x x' y y' Hx Hx' Hy Hy' Hxx Hyy. pose proof (Rmin_l d1 d2). pose proof (Rmin_r d1 d2).
  replace (f x * g y - f x' * g y') with (f x * (g y - g y') + (f x - f x') * g y') by ring. eapply Rle_trans; [apply Rabs_triang|]. rewrite !Rabs_mult.
  specialize (E1 x x' Hx Hx' ltac:(lra)). specialize (E2 y y' Hy Hy' ltac:(lra)). pose proof (Bf x Hx). pose proof (Bg y' Hy').
  assert (A : Rabs (f x) * Rabs (g y - g y') <= (B + 1) * (e / (2 * (B + 1)))) by (apply Rmult_le_compat; auto using Rabs_pos; lra). replace ((B + 1) * (e / (2 * (B + 1)))) with (e / 2) in A by (field; lra).
  assert (D : Rabs (f x - f x') * Rabs (g y') <= (e / (2 * (C + 1))) * (C + 1)) by (apply Rmult_le_compat; auto using Rabs_pos; lra). replace (e / (2 * (C + 1)) * (C + 1)) with (e / 2) in D by (field; lra). lra.
Qed.
Lemma uc2_scal c f : uc2 f -> uc2 (fun x y => c * f x y).
Proof.
  intros H e He. pose proof (Rabs_pos c). destruct (H (e / (Rabs c + 1)) ltac:(apply Rdiv_lt_0_compat; lra)) as (d & Hd & E). exists d. split; [exact Hd|]. intros x x' y y' Hx Hx' Hy Hy' Hxx Hyy.
  rewrite <- Rmult_minus_distr_l, Rabs_mult. apply Rle_trans with ((Rabs c + 1) * (e / (Rabs c + 1))); [|right; field; lra]. apply Rmult_le_compat; auto using Rabs_pos; lra.
Qed.
Lemma uc2_ext f g : (forall x y, f x y = g x y) -> uc2 f -> uc2 g.
Proof. intros E H e He. destruct (H e He) as (d & Hd & G). exists d. split; [exact Hd|]. intros. rewrite <- !E. apply G; auto. Qed.
Lemma uc2_sum n (f : nat -> R -> R -> R) : (forall k, (k < n)%nat -> uc2 (f k)) -> uc2 (fun x y => rsum n (fun k => f k x y)).
Proof.
  induction n as [|n IH]; intros H e He; [exists 1; split; [lra|]; intros; cbn; rewrite Rminus_0_r, Rabs_R0; lra|].
  destruct (IH (fun k Hk => H k (Nat.lt_lt_succ_r _ _ Hk)) (e / 2) ltac:(lra)) as (d1 & H1 & E1). destruct (H n (Nat.lt_succ_diag_r n) (e / 2) ltac:(lra)) as (d2 & H2 & E2).
  exists (Rmin d1 d2). split; [apply Rmin_pos; auto|]. intros x x' y y' Hx Hx' Hy Hy' Hxx Hyy. pose proof (Rmin_l d1 d2). pose proof (Rmin_r d1 d2). cbn [rsum].
  match goal with |- Rabs (?a + ?b - (?a' + ?b')) <= _ => replace (a + b - (a' + b')) with ((a - a') + (b - b')) by ring end. eapply Rle_trans; [apply Rabs_triang|]. pose proof (E1 x x' y y' Hx Hx' Hy Hy' ltac:(lra) ltac:(lra)). pose proof (E2 x x' y y' Hx Hx' Hy Hy' ltac:(lra) ltac:(lra)). lra.
Qed.
Lemma uc2_layers n (K : nat -> R -> R -> R) : (forall l, (l < n)%nat -> uc2 (K l)) -> kucont n K.
Proof.
  intros H e He. induction n as [|n IH]; [exists 1; split; [lra|]; intros; lia|].
  destruct (IH (fun k Hk => H k (Nat.lt_lt_succ_r _ _ Hk))) as (d1 & H1 & E1). destruct (H n (Nat.lt_succ_diag_r n) e He) as (d2 & H2 & E2).
  exists (Rmin d1 d2). split; [apply Rmin_pos; auto|]. intros l x x' y y' Hl Hx Hx' Hy Hy' Hxx Hyy. pose proof (Rmin_l d1 d2). pose proof (Rmin_r d1 d2).
  destruct (Nat.eq_dec l n) as [->|Hne]; [apply E2; auto; lra|apply E1; auto; try lia; lra].
Qed.
Lemma phase_mode_uc p m l : uc2 (phase_mode p m l).
Proof.
  unfold phase_mode. apply (uc2_sum (ncoeffs p) (fun k x y => if Nat.leb m k then wphase_s p l k * poch_term m k * lpmv m k x * lpmv m k y else 0)). intros k Hk. destruct (Nat.leb m k).
  - apply (uc2_ext (fun x y => (wphase_s p l k * poch_term m k) * (lpmv m k x * lpmv m k y))); [intros; ring|]. apply uc2_scal. destruct (cont_bounded (lpmv m k) (lpmv_cont m k)) as (B & HB & H). apply (uc2_prod _ _ B B); auto; apply cont_uc1, lpmv_cont.
  - intros e He. exists 1. split; [lra|]. intros. rewrite Rminus_0_r, Rabs_R0. lra.
Qed.

(** ** The modes of a phase function that is not negative are at most its mean *)
Lemma int_mode p l m x y : (m < ncoeffs p)%nat -> -1 <= x <= 1 -> -1 <= y <= 1 ->
  is_RInt (fun z => phase_at p l (cos_between x 0 y z) * cos (INR m * (0 - z))) 0 (2 * PI) (2 * PI * phase_mode p m l x y).
Proof.
  intros Hm Hx Hy. pose proof (int_series (ncoeffs p) (fun k => ec k * phase_mode p k l x y) (fun k => if Nat.eqb k m then 1 else 0) 0 0) as X.
  eapply (is_RInt_ext (V:=R_NormedModule)) in X.
  - eapply (eq_ind _ (fun z : R => is_RInt _ _ _ z) X). rewrite (rsum_single _ m); [|exact Hm|intros k Hk Hne; rewrite (proj2 (Nat.eqb_neq k m)) by auto; ring].
    rewrite Nat.eqb_refl, Rminus_0_r, Rmult_0_r, cos_0. unfold ec. destruct (Nat.eqb m 0); ring.
  - intros z _. simpl. rewrite (rsum_single _ m (fun k => (if Nat.eqb k m then 1 else 0) * _)); [|exact Hm|intros k Hk Hne; rewrite (proj2 (Nat.eqb_neq k m)) by auto; ring].
    rewrite Nat.eqb_refl, Rmult_1_l. rewrite phase_modes by (auto; lia). reflexivity.
Qed.
Lemma int_abs_le (g h : R -> R) A B : is_RInt g 0 (2 * PI) A -> is_RInt (fun z => g z * h z) 0 (2 * PI) B -> (forall z, 0 <= g z) -> (forall z, -1 <= h z <= 1) -> Rabs B <= A.
Proof.
  intros HA HB Hg Hh. pose proof PI_RGT_0. apply Rabs_le. split.
  - refine (is_RInt_le (fun z => - g z) _ 0 (2 * PI) _ _ ltac:(lra) _ HB _); [apply (is_RInt_opp (V:=R_NormedModule) g); exact HA|]. intros z _. pose proof (Hg z). pose proof (Hh z). nra.
  - refine (is_RInt_le _ g 0 (2 * PI) _ _ ltac:(lra) HB HA _). intros z _. pose proof (Hg z). pose proof (Hh z). nra.
Qed.
Lemma cos_between_range x a y b : -1 <= x <= 1 -> -1 <= y <= 1 -> -1 <= cos_between x a y b <= 1.
Proof.
  intros Hx Hy. rewrite cos_between_eq. pose proof (COS_bound (a - b)) as Hc. set (c := cos (a - b)) in *.
  pose proof (sqrt_pos (1 - x ^ 2)) as S1. pose proof (sqrt_pos (1 - y ^ 2)) as S2. pose proof (sqrt_sqrt (1 - x ^ 2) ltac:(nra)) as Q1. pose proof (sqrt_sqrt (1 - y ^ 2) ltac:(nra)) as Q2.
  set (s := sqrt (1 - x ^ 2)) in *. set (r := sqrt (1 - y ^ 2)) in *. assert (0 <= s * r) by (apply Rmult_le_pos; auto). assert (- (s * r) <= s * r * c <= s * r) by nra.
  assert (2 * (s * r) <= (1 - x ^ 2) + (1 - y ^ 2)) by (pose proof (Rle_0_sqr (s - r)); unfold Rsqr in *; nra). assert (2 * (x * y) <= x ^ 2 + y ^ 2) by (pose proof (Rle_0_sqr (x - y)); unfold Rsqr in *; nra). assert (- 2 * (x * y) <= x ^ 2 + y ^ 2) by (pose proof (Rle_0_sqr (x + y)); unfold Rsqr in *; nra). lra.
Qed.
Lemma phase_mode_out p m l x y : (ncoeffs p <= m)%nat -> phase_mode p m l x y = 0.
Proof. intros H. unfold phase_mode. apply rsum_0. intros k Hk. destruct (Nat.leb_spec m k); [lia|reflexivity]. Qed.
Lemma phase_mode_le p m l x y : (0 < ncoeffs p)%nat -> (forall c, -1 <= c <= 1 -> 0 <= phase_at p l c) -> -1 <= x <= 1 -> -1 <= y <= 1 -> Rabs (phase_mode p m l x y) <= phase_mode p 0 l x y.
Proof.
  intros Hn Hp Hx Hy. pose proof PI_RGT_0. assert (I0 : is_RInt (fun z => phase_at p l (cos_between x 0 y z)) 0 (2 * PI) (2 * PI * phase_mode p 0 l x y)).
  { eapply (is_RInt_ext (V:=R_NormedModule)); [|exact (int_mode p l 0 x y Hn Hx Hy)]. intros z _. cbn [INR]. rewrite Rmult_0_l, cos_0. change (phase_at p l (cos_between x 0 y z) * 1 = phase_at p l (cos_between x 0 y z)). ring. }
  assert (G : forall z, 0 <= phase_at p l (cos_between x 0 y z)) by (intros; apply Hp, cos_between_range; auto).
  destruct (Nat.lt_ge_cases m (ncoeffs p)) as [Hm|Hm].
  - pose proof (int_abs_le _ _ _ _ I0 (int_mode p l m x y Hm Hx Hy) G (fun z => COS_bound _)) as A. rewrite Rabs_mult, (Rabs_pos_eq (2 * PI)) in A by lra. apply Rmult_le_reg_l with (2 * PI); lra.
  - rewrite (phase_mode_out p m) by exact Hm. rewrite Rabs_R0. apply Rmult_le_reg_l with (2 * PI); [lra|]. rewrite Rmult_0_r. refine (is_RInt_le (fun _ => 0) _ 0 (2 * PI) _ _ ltac:(lra) _ I0 (fun z _ => G z)).
    eapply (eq_ind _ (fun z : R => is_RInt _ _ _ z) (is_RInt_const (V:=R_NormedModule) 0 (2 * PI) 0)). unfold scal; cbn; unfold mult; cbn. ring.
Qed.

Definition Km (p : py_in) (m l : nat) (x y : R) : R := scl p l * albedo_s p l / 2 * phase_mode p m l x y.
Lemma scatters_K p (V : valid p) l x y : (l < nlayers p)%nat -> fwd p l < 1 -> scatters p l x y = Km p 0 l x y.
Proof.
  intros Hl Hf. pose proof (scl_pos p V l Hl) as Hs. unfold Km, scatters, phase_mode. cbn [Nat.leb]. rewrite scl_albedo by apply Hs.
  replace ((1 - fwd p l) * albedo p l / 2) with (/ 2 * ((1 - fwd p l) * albedo p l)) by field. rewrite Rmult_assoc, <- (rsum_scal _ ((1 - fwd p l) * albedo p l)). f_equal. apply rsum_ext. intros k Hk. rewrite poch_0, !lpmv_0. unfold wphase_s, phase_s, scattering. field. lra.
Qed.

Section Modes.
  Variables (p : py_in) (V : valid p) (bn bp : R -> R) (rho : nat -> R -> R -> R).
  Notation NL := (nlayers p).
  Notation T := (bottom p).
  Notation nB := (length (p_BDRF p)).
  Hypothesis Hf : forall l, (l < NL)%nat -> fwd p l < 1.
  Hypothesis Hph : phase_positive p.
  Hypothesis Cn : ucont1 bn.
  Hypothesis Cp : ucont1 bp.
  Hypothesis Cr : forall m, (m < nB)%nat -> ucont2 (rho m).
  Hypothesis Hrho : forall x a y b, 0 <= x <= 1 -> 0 <= y <= 1 -> 0 <= surface_at p rho x a y b.

  Lemma Km_uc m : kucont NL (Km p m). Proof. apply uc2_layers. intros l _. apply uc2_scal, phase_mode_uc. Qed.
  Lemma nc0 : (0 < ncoeffs p)%nat. Proof. pose proof (nc_range p V). lia. Qed.
  Lemma Km_le m l x y : (l < NL)%nat -> -1 <= x <= 1 -> -1 <= y <= 1 -> Rabs (Km p m l x y) <= scatters p l x y.
  Proof.
    intros Hl Hx Hy. rewrite (scatters_K p V) by auto. unfold Km. pose proof (scl_pos p V l Hl). pose proof (albedo_s_range p V l Hl) as [Ha _]. destruct (Rle_lt_or_eq_dec _ _ Ha) as [Hlt|E].
    - assert (0 <= scl p l * albedo_s p l) by (apply Rmult_le_pos; lra). rewrite Rabs_mult, Rabs_pos_eq by lra. apply Rmult_le_compat_l; [lra|]. apply phase_mode_le; auto using nc0.
    - rewrite <- E. unfold Rdiv. rewrite !Rmult_0_r, !Rmult_0_l, Rabs_R0. lra.
  Qed.

  Definition Gm (m l : nat) (x t : R) : R :=
    ec m * (2 * (p_I0 p / (4 * PI))) * Km p m l x (- p_mu0 p) * exp (- depth_s p l t / p_mu0 p) + (if Nat.eqb m 0 then (1 - albedo p l) * source p l t else 0).
  Lemma Gm_bounded m : exists Q, forall l x t, (l < NL)%nat -> -1 <= x <= 1 -> top_of p l <= t <= bot_of p l -> Rabs (Gm m l x t) <= Q.
  Proof.
    destruct (Kg_bound p (Km p m) (Km_le m)) as (B & HB & HK). destruct (source_bounded p V) as (S0 & HS0 & HS). pose proof (v_I0 p V) as HI. pose proof PI_RGT_0. set (c := ec m * (2 * (p_I0 p / (4 * PI)))).
    exists (Rabs c * B + S0). intros l x t Hl Hx Ht. unfold Gm. fold c. eapply Rle_trans; [apply Rabs_triang|]. apply Rplus_le_compat.
    - destruct (Rle_lt_or_eq_dec 0 (p_I0 p) ltac:(lra)) as [Hlt|E].
      + pose proof (v_mu0 p V Hlt) as Hm. pose proof (beam_exp p V l t Hlt Hl ltac:(lra)) as He. rewrite !Rabs_mult, (Rabs_pos_eq (exp _)) by lra. rewrite <- (Rmult_1_r (Rabs c * B)). apply Rmult_le_compat; try lra; [apply Rmult_le_pos; apply Rabs_pos|]. apply Rmult_le_compat_l; [apply Rabs_pos|]. apply HK; auto; lra.
      + assert (c = 0) as -> by (unfold c; rewrite <- E; field; lra). rewrite !Rmult_0_l, Rabs_R0, Rmult_0_l. lra.
    - destruct (Nat.eqb m 0); [|rewrite Rabs_R0; exact HS0]. rewrite Rabs_mult. pose proof (albedo_range p V l Hl). rewrite (Rabs_pos_eq (1 - _)) by lra. pose proof (HS l t Hl (in_bottom p V l t Hl Ht)). pose proof (Rabs_pos (source p l t)). nra.
  Qed.
  Lemma Gm_ucont m : gucont p (Gm m).
  Proof.
    intros e He. pose proof (v_I0 p V) as HI. pose proof PI_RGT_0 as HPI. set (c := ec m * (2 * (p_I0 p / (4 * PI)))). pose proof (Rabs_pos c) as Hc.
    destruct (Km_uc m (e / (Rabs c + 1)) ltac:(apply Rdiv_lt_0_compat; lra)) as (d & Hd & H). exists d. split; [exact Hd|]. intros l x x' t Hl Hx Hx' Ht Hxx. unfold Gm. fold c.
    match goal with |- Rabs (?a + ?b - (?a' + ?b)) <= _ => replace (a + b - (a' + b)) with (a - a') by ring end. rewrite <- Rmult_minus_distr_r, <- Rmult_minus_distr_l, !Rabs_mult.
    destruct (Rle_lt_or_eq_dec 0 (p_I0 p) ltac:(lra)) as [Hlt|E].
    - pose proof (v_mu0 p V Hlt) as Hm. pose proof (beam_exp p V l t Hlt Hl ltac:(lra)) as He'. rewrite (Rabs_pos_eq (exp _)) by lra.
      pose proof (H l x x' (- p_mu0 p) (- p_mu0 p) Hl Hx Hx' ltac:(lra) ltac:(lra) Hxx ltac:(rewrite Rminus_eq_0, Rabs_R0; exact Hd)) as A. apply Rle_trans with ((Rabs c + 1) * (e / (Rabs c + 1)) * 1); [|right; field; lra].
      apply Rmult_le_compat; try lra; [apply Rmult_le_pos; auto using Rabs_pos|]. apply Rmult_le_compat; auto using Rabs_pos; lra.
    - assert (c = 0) as -> by (unfold c; rewrite <- E; field; lra). rewrite Rabs_R0, !Rmult_0_l. lra.
  Qed.
  Lemma Gm_cont m l x : (l < NL)%nat -> -1 <= x <= 1 -> cont_on (top_of p l) (bot_of p l) (Gm m l x).
  Proof.
    intros Hl Hx. unfold Gm. apply cont_on_plus.
    - apply cont_on_scal. apply cont_on_derive. intros t _. exists (- scl p l / p_mu0 p * exp (- depth_s p l t / p_mu0 p)). exact (der_exp (fun u => - depth_s p l u / p_mu0 p) t _ (der_div (fun u => - depth_s p l u) (p_mu0 p) t (- scl p l) (der_opp _ _ _ (depth_der p l t)))).
    - destruct (Nat.eqb m 0); [|apply cont_on_const]. apply cont_on_scal. unfold source. destruct (Nat.ltb l (nrow (p_s p))); [|apply cont_on_const]. apply cont_on_sum. intros j _. apply cont_on_scal. apply cont_on_derive. intros t _. eexists. apply der_pow.
  Qed.

  (** ** The surface *)
  Definition Rm (m : nat) (x y : R) : R := if Nat.ltb m nB then (if Nat.eqb m 0 then 2 else 1) * (rho m x y * y) else 0.
  Definition bnm (m : nat) (x : R) : R := if Nat.eqb m 0 then bn x else 0.
  Definition bpm (m : nat) (x : R) : R := (if Nat.eqb m 0 then bp x else 0) +
    (if Nat.ltb m nB then p_mu0 p * p_I0 p / PI * rho m x (p_mu0 p) * exp (- depth_s p (NL - 1) T / p_mu0 p) else 0).
  Lemma ucont1_0 : ucont1 (fun _ => 0). Proof. intros e He. exists 1. split; [lra|]. intros. rewrite Rminus_0_r, Rabs_R0. lra. Qed.
  Lemma bnm_uc m : ucont1 (bnm m). Proof. unfold bnm. destruct (Nat.eqb m 0); [exact Cn|apply ucont1_0]. Qed.
  Lemma ucont1_plus f g : ucont1 f -> ucont1 g -> ucont1 (fun x => f x + g x).
  Proof.
    intros H1 H2 e He. destruct (H1 (e / 2) ltac:(lra)) as (d1 & D1 & E1). destruct (H2 (e / 2) ltac:(lra)) as (d2 & D2 & E2). exists (Rmin d1 d2). split; [apply Rmin_pos; auto|]. intros x x' Hx Hx' Hxx. pose proof (Rmin_l d1 d2). pose proof (Rmin_r d1 d2).
    match goal with |- Rabs (?a + ?b - (?a' + ?b')) <= _ => replace (a + b - (a' + b')) with ((a - a') + (b - b')) by ring end. eapply Rle_trans; [apply Rabs_triang|]. pose proof (E1 x x' Hx Hx' ltac:(lra)). pose proof (E2 x x' Hx Hx' ltac:(lra)). lra.
  Qed.
  Lemma bpm_uc m : ucont1 (bpm m).
  Proof.
    unfold bpm. apply ucont1_plus; [destruct (Nat.eqb m 0); [exact Cp|apply ucont1_0]|]. destruct (Nat.ltb_spec m nB) as [Hm|Hm]; [|apply ucont1_0]. pose proof (v_I0 p V) as HI. pose proof PI_RGT_0. destruct (Rle_lt_or_eq_dec 0 (p_I0 p) ltac:(lra)) as [Hlt|E].
    - pose proof (v_mu0 p V Hlt) as Hm0. intros e He. set (c := Rabs (p_mu0 p * p_I0 p / PI * exp (- depth_s p (NL - 1) T / p_mu0 p))). assert (Hc : 0 <= c) by apply Rabs_pos.
      destruct (Cr m Hm (e / (c + 1)) ltac:(apply Rdiv_lt_0_compat; lra)) as (d & Hd & H'). exists d. split; [exact Hd|]. intros x x' Hx Hx' Hxx.
      match goal with |- Rabs (?a * ?b * ?d - ?a * ?b' * ?d) <= _ => replace (a * b * d - a * b' * d) with (a * d * (b - b')) by ring end. rewrite Rabs_mult. fold c. pose proof (H' x x' (p_mu0 p) (p_mu0 p) ltac:(lra) ltac:(lra) ltac:(lra) ltac:(lra) Hxx ltac:(rewrite Rminus_eq_0, Rabs_R0; exact Hd)) as A.
      apply Rle_trans with ((c + 1) * (e / (c + 1))); [|right; field; lra]. apply Rmult_le_compat; auto using Rabs_pos; lra.
    - intros e He. exists 1. split; [lra|]. intros. rewrite <- E. unfold Rdiv. rewrite !Rmult_0_r, !Rmult_0_l, Rminus_0_r, Rabs_R0. lra.
  Qed.
  Lemma Rm_uc m : ucont2 (Rm m).
  Proof.
    intros e He. unfold Rm. destruct (Nat.ltb_spec m nB) as [Hm|Hm]; [|exists 1; split; [lra|]; intros; rewrite Rminus_0_r, Rabs_R0; lra].
    destruct (ucont2_bounded (rho m) (Cr m Hm)) as (B & HB & HB'). destruct (Cr m Hm (e / 4) ltac:(lra)) as (d1 & Hd1 & E1). set (d2 := e / (4 * (B + 1))). assert (Hd2 : 0 < d2) by (apply Rdiv_lt_0_compat; lra).
    exists (Rmin d1 d2). split; [apply Rmin_pos; auto|]. intros x x' y y' Hx Hx' Hy Hy' Hxx Hyy. pose proof (Rmin_l d1 d2). pose proof (Rmin_r d1 d2).
    rewrite <- Rmult_minus_distr_l. set (c := if Nat.eqb m 0 then 2 else 1). assert (Hc : 0 <= c <= 2) by (unfold c; destruct (Nat.eqb m 0); lra).
    replace (rho m x y * y - rho m x' y' * y') with ((rho m x y - rho m x' y') * y + rho m x' y' * (y - y')) by ring. pose proof (E1 x x' y y' Hx Hx' Hy Hy' ltac:(lra) ltac:(lra)) as A. pose proof (HB' x' y' Hx' Hy') as D.
    assert (A' : Rabs ((rho m x y - rho m x' y') * y) <= e / 4) by (rewrite Rabs_mult, (Rabs_pos_eq y) by lra; pose proof (Rabs_pos (rho m x y - rho m x' y')); nra).
    assert (D' : Rabs (rho m x' y' * (y - y')) <= e / 4). { rewrite Rabs_mult. apply Rle_trans with ((B + 1) * d2); [apply Rmult_le_compat; auto using Rabs_pos; lra|unfold d2; right; field; lra]. }
    rewrite Rabs_mult, (Rabs_pos_eq c) by lra. apply Rle_trans with (2 * (e / 4 + e / 4)); [|lra]. apply Rmult_le_compat; auto using Rabs_pos; try lra. eapply Rle_trans; [apply Rabs_triang|]. lra.
  Qed.
  Lemma int_smode m x y : (m < nB)%nat -> is_RInt (fun z => surface_at p rho x 0 y z * cos (INR m * (0 - z))) 0 (2 * PI) ((if Nat.eqb m 0 then 2 * PI else PI) * rho m x y).
  Proof.
    intros Hm. pose proof (int_series nB (fun k => rho k x y) (fun k => if Nat.eqb k m then 1 else 0) 0 0) as X.
    eapply (is_RInt_ext (V:=R_NormedModule)) in X.
    - eapply (eq_ind _ (fun z : R => is_RInt _ _ _ z) X). rewrite (rsum_single _ m); [|exact Hm|intros k Hk Hne; rewrite (proj2 (Nat.eqb_neq k m)) by auto; ring].
      rewrite Nat.eqb_refl, Rminus_0_r, Rmult_0_r, cos_0. destruct (Nat.eqb m 0); ring.
    - intros z _. simpl. rewrite (rsum_single _ m (fun k => (if Nat.eqb k m then 1 else 0) * _)); [|exact Hm|intros k Hk Hne; rewrite (proj2 (Nat.eqb_neq k m)) by auto; ring].
      rewrite Nat.eqb_refl, Rmult_1_l. reflexivity.
  Qed.
  Lemma Rm_le m x y : 0 <= x <= 1 -> 0 <= y <= 1 -> Rabs (Rm m x y) <= Rm 0 x y.
  Proof.
    intros Hx Hy. pose proof PI_RGT_0. unfold Rm. cbn [Nat.eqb]. destruct (Nat.ltb_spec 0 nB) as [H0|H0]; [|destruct (Nat.ltb_spec m nB); [lia|rewrite Rabs_R0; lra]].
    assert (I0 : is_RInt (fun z => surface_at p rho x 0 y z) 0 (2 * PI) (2 * PI * rho 0%nat x y)).
    { eapply (is_RInt_ext (V:=R_NormedModule)); [|exact (int_smode 0 x y H0)]. intros z _. cbn [INR]. rewrite Rmult_0_l, cos_0. change (surface_at p rho x 0 y z * 1 = surface_at p rho x 0 y z). ring. }
    assert (G : forall z, 0 <= surface_at p rho x 0 y z) by (intros; apply Hrho; auto).
    assert (P : 0 <= rho 0%nat x y). { apply Rmult_le_reg_l with (2 * PI); [lra|]. rewrite Rmult_0_r. refine (is_RInt_le (fun _ => 0) _ 0 (2 * PI) _ _ ltac:(lra) _ I0 (fun z _ => G z)).
      eapply (eq_ind _ (fun z : R => is_RInt _ _ _ z) (is_RInt_const (V:=R_NormedModule) 0 (2 * PI) 0)). unfold scal; cbn; unfold mult; cbn. ring. }
    assert (0 <= rho 0%nat x y * y) by (apply Rmult_le_pos; lra). destruct (Nat.ltb_spec m nB) as [Hm|Hm]; [|rewrite Rabs_R0; lra].
    pose proof (int_abs_le _ _ _ _ I0 (int_smode m x y Hm) G (fun z => COS_bound _)) as A. rewrite Rabs_mult in A. rewrite !Rabs_mult, (Rabs_pos_eq y) by lra. destruct (Nat.eqb m 0).
    - rewrite (Rabs_pos_eq (2 * PI)) in A by lra. rewrite (Rabs_pos_eq 2) by lra. assert (Rabs (rho m x y) <= rho 0%nat x y) by (apply Rmult_le_reg_l with (2 * PI); lra). pose proof (Rabs_pos (rho m x y)). nra.
    - rewrite (Rabs_pos_eq PI) in A by lra. rewrite Rabs_R1. assert (Rabs (rho m x y) <= 2 * rho 0%nat x y) by (apply Rmult_le_reg_l with PI; lra). pose proof (Rabs_pos (rho m x y)). nra.
  Qed.

  Variable r : R.
  Hypothesis Hr1 : r < 1.
  Hypothesis Hr : forall x, 0 < x <= 1 -> (0 < nB)%nat -> 2 * RInt (fun y => rho 0%nat x y * y) 0 1 <= r.
  Hypothesis Hr0 : 0 <= r.
  Lemma Rm_int x : 0 < x <= 1 -> ex_RInt (Rm 0 x) 0 1 /\ RInt (Rm 0 x) 0 1 <= r.
  Proof.
    intros Hx. assert (X : ex_RInt (Rm 0 x) 0 1) by (apply cont_int, ucont2_c; [apply Rm_uc|lra]). split; [exact X|]. unfold Rm in *. destruct (Nat.ltb_spec 0 nB) as [H0|H0]; [|rewrite RInt_0; exact Hr0]. cbn [Nat.eqb] in *.
    eapply Rle_trans; [|apply (Hr x Hx H0)]. right. apply (RInt_scal (V:=R_CompleteNormedModule) (fun y => rho 0%nat x y * y) 0 1 2).
    eapply (ex_RInt_ext (V:=R_NormedModule)); [|exact (ex_RInt_scal (V:=R_NormedModule) _ 0 1 (/ 2) X)]. intros y _. unfold scal; cbn; unfold mult; cbn. field.
  Qed.
  Lemma mode_exists m : exists J, gfield p (Km p m) (Gm m) (bnm m) (bpm m) (Rm m) J.
  Proof.
    destruct (Gm_bounded m) as (Q & HQ).
    exact (gexists p V (Km p m) (Gm m) Q (bnm m) (bpm m) (Rm m) (Rm 0) r (Km_uc m) (Km_le m) HQ (Gm_ucont m) (Gm_cont m) (bnm_uc m) (bpm_uc m) (Rm_uc m) (Rm_le m) Rm_int Hr1).
  Qed.
  Lemma all_exist n : exists J : nat -> R -> R -> R, forall m, (m < n)%nat -> gfield p (Km p m) (Gm m) (bnm m) (bpm m) (Rm m) (J m).
  Proof.
    induction n as [|n (J & IH)]; [exists (fun _ _ _ => 0); intros; lia|]. destruct (mode_exists n) as (J' & H'). exists (fun m => if Nat.eqb m n then J' else J m). intros m Hm. destruct (Nat.eqb_spec m n) as [->|Hne]; [exact H'|apply IH; lia].
  Qed.
End Modes.
