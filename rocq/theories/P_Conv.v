(** Convergence of Gauss quadrature, uniformly over families of bounded functions that are
    equicontinuous away from 0. *)
From Coq Require Import Reals Lra Lia List Bool Arith ZArith.
From Coquelicot Require Import Coquelicot.
From Verif Require Import Base Tensor Spec Calc M_LinAlg Spec_Sol P_Quad P_Special P_Energy P_Addition P_Gauss P_Unique2 P_Mono P_Max.
Import ListNotations.
Local Open Scope R_scope.

(** ** Bernstein polynomials *)
Fixpoint bern (k : nat) (g : nat -> R) (x : R) : R :=
  match k with O => g 0%nat | S k => (1 - x) * bern k g x + x * bern k (fun j => g (S j)) x end.
Lemma bern_ext k g h x : (forall j, g j = h j) -> bern k g x = bern k h x.
Proof. revert g h. induction k as [|k IH]; intros g h E; cbn; [apply E|]. rewrite (IH g h E), (IH (fun j => g (S j)) (fun j => h (S j))) by auto. reflexivity. Qed.
Lemma bern_lin k a b g h x : bern k (fun j => a * g j + b * h j) x = a * bern k g x + b * bern k h x.
Proof. revert g h. induction k as [|k IH]; intros g h; cbn; [reflexivity|]. rewrite (IH g h), (IH (fun j => g (S j)) (fun j => h (S j))). ring. Qed.
Lemma bern_le k g h x : 0 <= x <= 1 -> (forall j, (j <= k)%nat -> g j <= h j) -> bern k g x <= bern k h x.
Proof.
  intros Hx. revert g h. induction k as [|k IH]; intros g h H; cbn; [apply H; lia|]. apply Rplus_le_compat; apply Rmult_le_compat_l; try lra; apply IH; intros; apply H; lia.
Qed.
Lemma bern_const k c x : bern k (fun _ => c) x = c.
Proof. induction k as [|k IH]; cbn; [reflexivity|]. rewrite IH. ring. Qed.
Lemma bern_id k x : bern k INR x = INR k * x.
Proof.
  induction k as [|k IH]; [cbn; ring|]. cbn [bern]. rewrite (bern_ext k (fun j => INR (S j)) (fun j => 1 * INR j + 1 * 1)) by (intros; rewrite S_INR; ring).
  rewrite (bern_lin k 1 1 INR (fun _ => 1)), bern_const, IH, S_INR. ring.
Qed.
Lemma bern_sq k x : bern k (fun j => INR j ^ 2) x = INR k * x * (1 - x) + INR k ^ 2 * x ^ 2.
Proof.
  induction k as [|k IH]; [cbn; ring|]. cbn [bern]. rewrite (bern_ext k (fun j => INR (S j) ^ 2) (fun j => 1 * INR j ^ 2 + 1 * (2 * INR j + 1 * 1))) by (intros; rewrite S_INR; ring).
  rewrite (bern_lin k 1 1 (fun j => INR j ^ 2) (fun j => 2 * INR j + 1 * 1)), (bern_lin k 2 1 INR (fun _ => 1)), bern_const, bern_id, IH, S_INR. ring.
Qed.
Lemma bern_var k x : (0 < k)%nat -> bern k (fun j => (INR j / INR k - x) ^ 2) x = x * (1 - x) / INR k.
Proof.
  intros Hk. assert (0 < INR k) by (apply lt_0_INR; exact Hk).
  rewrite (bern_ext k _ (fun j => / INR k ^ 2 * INR j ^ 2 + 1 * ((- 2 * x / INR k) * INR j + x ^ 2 * 1))) by (intros; field; lra).
  rewrite (bern_lin k _ 1 (fun j => INR j ^ 2) (fun j => (- 2 * x / INR k) * INR j + x ^ 2 * 1)), (bern_lin k _ _ INR (fun _ => 1)), bern_const, bern_id, bern_sq. field. lra.
Qed.
Lemma bern_pol k g : pol (S k) (bern k g).
Proof.
  revert g. induction k as [|k IH]; intros g; [apply pol_const; lia|]. cbn [bern]. apply pol_plus.
  - apply (pol_ext _ (fun x => (-1) * ((x - 1) * bern k g x))); [intros; ring|]. apply pol_scal, pol_lin, IH.
  - apply pol_x, IH.
Qed.
Lemma bern_approx k g M d e : (0 < k)%nat -> 0 < d -> 0 <= e -> (forall x, 0 <= x <= 1 -> Rabs (g x) <= M) -> (forall u v, 0 <= u <= 1 -> 0 <= v <= 1 -> Rabs (u - v) < d -> Rabs (g u - g v) <= e) ->
  forall x, 0 <= x <= 1 -> Rabs (bern k (fun j => g (INR j / INR k)) x - g x) <= e + 2 * M / (INR k * d ^ 2).
Proof.
  intros Hk Hd He HM Hc x Hx. assert (HK : 0 < INR k) by (apply lt_0_INR; exact Hk). assert (HM0 : 0 <= M) by (eapply Rle_trans; [apply Rabs_pos|apply (HM x Hx)]).
  assert (Hp : forall j, (j <= k)%nat -> Rabs (g (INR j / INR k) - g x) <= e + 2 * M / d ^ 2 * (INR j / INR k - x) ^ 2).
  { intros j Hj. assert (Hj' : 0 <= INR j / INR k <= 1).
    { split; [apply Rmult_le_pos; [apply pos_INR|apply Rlt_le, Rinv_0_lt_compat; exact HK]|]. apply (Rmult_le_reg_r (INR k)); [exact HK|]. unfold Rdiv. rewrite Rmult_assoc, Rinv_l by lra. rewrite Rmult_1_r, Rmult_1_l. apply le_INR. exact Hj. }
    assert (Hd2 : 0 < d ^ 2) by (apply pow_lt; exact Hd). assert (Hq : 0 <= 2 * M / d ^ 2) by (apply Rmult_le_pos; [lra|apply Rlt_le, Rinv_0_lt_compat; exact Hd2]).
    destruct (Rlt_le_dec (Rabs (INR j / INR k - x)) d) as [H|H].
    - pose proof (Hc _ x Hj' Hx H). pose proof (pow2_ge_0 (INR j / INR k - x)). nra.
    - assert (H2 : d ^ 2 <= (INR j / INR k - x) ^ 2). { rewrite <- (pow2_abs (INR j / INR k - x)). apply pow_incr. lra. }
      assert (H3 : 2 * M <= 2 * M / d ^ 2 * (INR j / INR k - x) ^ 2). { apply Rle_trans with (2 * M / d ^ 2 * d ^ 2); [right; field; lra|]. apply Rmult_le_compat_l; assumption. }
      eapply Rle_trans; [apply Rabs_triang|]. rewrite Rabs_Ropp. pose proof (HM _ Hj'). pose proof (HM x Hx). lra. }
  assert (Hv : 2 * M / d ^ 2 * (x * (1 - x) / INR k) <= 2 * M / (INR k * d ^ 2)).
  { assert (x * (1 - x) <= 1) by nra. replace (2 * M / d ^ 2 * (x * (1 - x) / INR k)) with (2 * M / (INR k * d ^ 2) * (x * (1 - x))) by (field; lra).
    assert (0 <= 2 * M / (INR k * d ^ 2)). { apply Rmult_le_pos; [lra|]. apply Rlt_le, Rinv_0_lt_compat, Rmult_lt_0_compat; [exact HK|apply pow_lt; exact Hd]. } nra. }
  assert (U : forall s, s = 1 \/ s = -1 -> s * (bern k (fun j => g (INR j / INR k)) x - g x) <= e + 2 * M / d ^ 2 * (x * (1 - x) / INR k)).
  { intros s Hs. rewrite <- (bern_var k x Hk).
    replace (e + 2 * M / d ^ 2 * bern k (fun j => (INR j / INR k - x) ^ 2) x) with (bern k (fun j => e * 1 + 2 * M / d ^ 2 * (INR j / INR k - x) ^ 2) x)
      by (rewrite (bern_lin k e _ (fun _ => 1) (fun j => (INR j / INR k - x) ^ 2)), bern_const; ring).
    replace (s * (bern k (fun j => g (INR j / INR k)) x - g x)) with (bern k (fun j => s * g (INR j / INR k) + (- s * g x) * 1) x)
      by (rewrite (bern_lin k s _ (fun j => g (INR j / INR k)) (fun _ => 1)), bern_const; ring).
    apply bern_le; [exact Hx|]. intros j Hj. pose proof (Hp j Hj) as H. apply Rabs_le_between in H. destruct Hs as [-> | ->]; lra. }
  pose proof (U 1 (or_introl eq_refl)). pose proof (U (-1) (or_intror eq_refl)). apply Rabs_le. lra.
Qed.

(** ** Quadrature *)
Lemma dg_pol n mu w f : double_gauss n mu w -> pol (2 * n) f -> rsum n (fun i => w i * f (nth i mu 0)) = RInt f 0 1.
Proof.
  intros HD (p & Hp & E). rewrite (rsum_ext n _ (fun i => w i * peval p (nth i mu 0))) by (intros; rewrite E; reflexivity). rewrite (dg_rule n mu w p HD Hp). apply RInt_ext. intros x _. symmetry. apply E.
Qed.
Lemma dg_ones n mu w : (0 < n)%nat -> double_gauss n mu w -> rsum n w = 1.
Proof.
  intros Hn HD. rewrite (rsum_ext n w (fun i => w i * (fun _ => 1) (nth i mu 0))) by (intros; ring). rewrite (dg_pol n mu w (fun _ => 1) HD) by (apply pol_const; lia).
  rewrite RInt_const. unfold scal; cbn; unfold mult; cbn. ring.
Qed.
Lemma cont_int (f : R -> R) : cont_on 0 1 f -> ex_RInt f 0 1.
Proof.
  intros H. apply (ex_RInt_ext (clamp 0 1 f)).
  - intros x. rewrite Rmin_left, Rmax_right by lra. intros Hx. apply clamp_in. lra.
  - apply (ex_RInt_continuous (V := R_CompleteNormedModule)). intros x _. apply continuity_pt_filterlim. apply clamp_cont; [lra|exact H].
Qed.
Lemma RInt_near (f g : R -> R) e : ex_RInt f 0 1 -> ex_RInt g 0 1 -> (forall x, 0 < x < 1 -> Rabs (f x - g x) <= e) -> Rabs (RInt f 0 1 - RInt g 0 1) <= e.
Proof.
  intros Hf Hg H. assert (Ec : forall c : R, RInt (V := R_CompleteNormedModule) (fun _ => c) 0 1 = c). { intros c. rewrite RInt_const. unfold scal; cbn; unfold mult; cbn. ring. }
  assert (X : RInt (fun x => g x + e) 0 1 = RInt g 0 1 + e). { rewrite (RInt_plus g (fun _ => e)); [rewrite Ec; reflexivity|exact Hg|apply ex_RInt_const]. }
  assert (Y : RInt (fun x => f x + e) 0 1 = RInt f 0 1 + e). { rewrite (RInt_plus f (fun _ => e)); [rewrite Ec; reflexivity|exact Hf|apply ex_RInt_const]. }
  assert (A : RInt f 0 1 <= RInt (fun x => g x + e) 0 1).
  { apply RInt_le; [lra|exact Hf|apply (ex_RInt_plus g (fun _ => e)); [exact Hg|apply ex_RInt_const]|]. intros x Hx. pose proof (H x Hx) as K. apply Rabs_le_between in K. lra. }
  assert (B : RInt g 0 1 <= RInt (fun x => f x + e) 0 1).
  { apply RInt_le; [lra|exact Hg|apply (ex_RInt_plus f (fun _ => e)); [exact Hf|apply ex_RInt_const]|]. intros x Hx. pose proof (H x Hx) as K. apply Rabs_le_between in K. lra. }
  apply Rabs_le. lra.
Qed.
Lemma nat_above x : exists k, (0 < k)%nat /\ x < INR k.
Proof. destruct (nfloor_ex (Rmax x 0) (Rmax_r _ _)) as (k & _ & Hk). exists (S k). split; [lia|]. rewrite S_INR. pose proof (Rmax_l x 0). lra. Qed.

(** Equicontinuous families. *)
Theorem quad_equi M d eps : 0 < eps -> 0 < d -> exists N0, forall n mu w, (N0 <= n)%nat -> double_gauss n mu w ->
  forall g, (forall x, 0 <= x <= 1 -> Rabs (g x) <= M) -> cont_on 0 1 g -> (forall u v, 0 <= u <= 1 -> 0 <= v <= 1 -> Rabs (u - v) < d -> Rabs (g u - g v) <= eps / 4) ->
  Rabs (rsum n (fun i => w i * g (nth i mu 0)) - RInt g 0 1) <= eps.
Proof.
  intros He Hd. destruct (nat_above (8 * M / (d ^ 2 * eps))) as (k & Hk & Hke). exists (S k). intros n mu w Hn HD g HM Hc Hu.
  set (B := bern k (fun j => g (INR j / INR k))). assert (HK : 0 < INR k) by (apply lt_0_INR; exact Hk). assert (Hd2 : 0 < d ^ 2) by (apply pow_lt; exact Hd).
  assert (HB : forall x, 0 <= x <= 1 -> Rabs (B x - g x) <= eps / 2).
  { intros x Hx. eapply Rle_trans; [apply (bern_approx k g M d (eps / 4) Hk Hd ltac:(lra) HM Hu x Hx)|].
    assert (2 * M / (INR k * d ^ 2) <= eps / 4); [|lra]. apply (Rmult_le_reg_r (INR k * (4 / eps))); [apply Rmult_lt_0_compat; [exact HK|apply Rdiv_lt_0_compat; lra]|].
    replace (2 * M / (INR k * d ^ 2) * (INR k * (4 / eps))) with (8 * M / (d ^ 2 * eps)) by (field; lra). replace (eps / 4 * (INR k * (4 / eps))) with (INR k) by (field; lra). lra. }
  assert (HP : pol (2 * n) B) by (apply (pol_mono (S k)); [lia|apply bern_pol]).
  pose proof (dg_pol n mu w B HD HP) as E. destruct HD as (HL & Hmu & HD').
  assert (H1 : Rabs (rsum n (fun i => w i * g (nth i mu 0)) - rsum n (fun i => w i * B (nth i mu 0))) <= eps / 2).
  { rewrite <- rsum_minus. eapply Rle_trans; [apply rsum_abs|]. rewrite <- (Rmult_1_l (eps / 2)), <- (dg_ones n mu w ltac:(lia) (conj HL (conj Hmu HD'))), <- rsum_scal_r. apply rsum_le. intros i Hi. destruct (Hmu i Hi) as (A1 & _ & A3).
    rewrite <- Rmult_minus_distr_l, Rabs_mult, (Rabs_pos_eq (w i)) by lra. apply Rmult_le_compat_l; [lra|]. rewrite Rabs_minus_sym. apply HB. lra. }
  assert (H2 : Rabs (RInt B 0 1 - RInt g 0 1) <= eps / 2).
  { apply RInt_near; [apply (pol_int _ _ _ _ HP)|apply cont_int; exact Hc|]. intros x Hx. apply HB. lra. }
  rewrite <- E in H2. replace (rsum n (fun i => w i * g (nth i mu 0)) - RInt g 0 1) with ((rsum n (fun i => w i * g (nth i mu 0)) - rsum n (fun i => w i * B (nth i mu 0))) + (rsum n (fun i => w i * B (nth i mu 0)) - RInt g 0 1)) by ring.
  eapply Rle_trans; [apply Rabs_triang|]. lra.
Qed.

Lemma bernoulli m x : 0 <= x <= 1 -> 1 - INR m * x <= (1 - x) ^ m.
Proof. intros Hx. induction m as [|m IH]; [cbn; lra|]. rewrite S_INR. cbn [pow]. pose proof (pos_INR m). assert (0 <= INR m * x) by nra. nra. Qed.
Lemma tail_pol m : pol (S m) (fun x => (1 - x) ^ m).
Proof. induction m as [|m IH]; [apply (pol_const 1 1); lia|]. apply (pol_ext _ (fun x => (-1) * ((x - 1) * (1 - x) ^ m))); [intros; cbn; ring|]. apply pol_scal, pol_lin, IH. Qed.
Lemma tail_int m : RInt (fun x => (1 - x) ^ m) 0 1 = / (INR m + 1).
Proof.
  pose proof (pos_INR m) as Hm. apply is_RInt_unique.
  replace (/ (INR m + 1)) with (minus ((fun x => - (1 - x) ^ S m / (INR m + 1)) 1) ((fun x => - (1 - x) ^ S m / (INR m + 1)) 0)).
  - apply (is_RInt_derive (V := R_CompleteNormedModule) (fun x => - (1 - x) ^ S m / (INR m + 1)) (fun x => (1 - x) ^ m)).
    + intros x _. auto_derive; [lra|]. change (match m with O => 1 | S _ => INR m + 1 end) with (INR (S m)). rewrite S_INR. replace (1 + - x) with (1 - x) by ring. field. lra.
    + intros x _. apply (pol_cont _ _ _ (tail_pol m)).
  - unfold minus, plus, opp; cbn -[pow INR]. rewrite Rminus_0_r, pow1. replace (1 - 1) with 0 by ring. cbn [pow]. field. lra.
Qed.

(** Bounded families that are equicontinuous away from 0. *)
Theorem quad_bulk (Fam : (R -> R) -> Prop) M eps : 0 < eps -> (forall g, Fam g -> forall x, 0 < x <= 1 -> Rabs (g x) <= M) ->
  (forall dl e, 0 < dl -> 0 < e -> exists d, 0 < d /\ forall g u v, Fam g -> dl <= u <= 1 -> dl <= v <= 1 -> Rabs (u - v) < d -> Rabs (g u - g v) <= e) ->
  exists N0, forall n mu w, (N0 <= n)%nat -> double_gauss n mu w -> forall g, Fam g -> ex_RInt g 0 1 -> Rabs (rsum n (fun i => w i * g (nth i mu 0)) - RInt g 0 1) <= eps.
Proof.
  intros He HMF Hmd. destruct (nat_above (16 * M / eps)) as (m & Hm & Hme). assert (HK : 0 < INR m) by (apply lt_0_INR; exact Hm).
  set (dl := / (2 * INR m)). assert (Hdl : 0 < dl) by (apply Rinv_0_lt_compat; lra). assert (Hdl1 : dl <= 1 / 2). { unfold dl. assert (1 <= INR m) by (apply (le_INR 1); lia). replace (1 / 2) with (/ 2) by field. apply Rinv_le_contravar; lra. }
  assert (Hmd0 : INR m * dl = 1 / 2) by (unfold dl; field; lra). destruct (Hmd dl (eps / 2 / 4) Hdl ltac:(lra)) as (d0 & Hd0 & Hu0). destruct (quad_equi M d0 (eps / 2) ltac:(lra) Hd0) as (N1 & HN1).
  exists (Nat.max N1 (S m)). intros n mu w Hn HD g HF Hex. pose proof (HMF g HF) as HM. set (h := fun x => g (Rmax dl x)).
  assert (Hr : forall x, 0 <= x <= 1 -> dl <= Rmax dl x <= 1) by (intros x Hx; unfold Rmax; destruct (Rle_dec _ _); lra).
  assert (HM0 : 0 <= M) by (eapply Rle_trans; [apply Rabs_pos|apply (HM 1); lra]).
  assert (Hlip : forall u v, Rabs (Rmax dl u - Rmax dl v) <= Rabs (u - v)). { intros u v. unfold Rmax. repeat destruct (Rle_dec _ _); unfold Rabs; repeat destruct (Rcase_abs _); lra. }
  assert (Hc : cont_on 0 1 h).
  { intros x Hx e Hep. destruct (Hmd dl (e / 2) Hdl ltac:(lra)) as (d & Hd & Hu). exists d. split; [exact Hd|]. intros y Hy Hyx. unfold h. apply Rle_lt_trans with (e / 2); [|lra]. apply (Hu g); [exact HF|apply Hr; lra|apply Hr; lra|]. eapply Rle_lt_trans; [apply Hlip|exact Hyx]. }
  assert (Hh : Rabs (rsum n (fun i => w i * h (nth i mu 0)) - RInt h 0 1) <= eps / 2).
  { apply (HN1 n mu w); [lia|exact HD| |exact Hc|].
    - intros x Hx. apply HM. pose proof (Hr x Hx). lra.
    - intros u v Hu' Hv' Huv. apply (Hu0 g); [exact HF|apply Hr; exact Hu'|apply Hr; exact Hv'|]. eapply Rle_lt_trans; [apply Hlip|exact Huv]. }
  set (b := fun x => 4 * M * (1 - x) ^ m). assert (Hb : forall x, 0 < x <= 1 -> Rabs (g x - h x) <= b x).
  { intros x Hx. unfold h, b. assert (0 <= (1 - x) ^ m) by (apply pow_le; lra). destruct (Rle_lt_dec dl x) as [H1|H1].
    - rewrite Rmax_right by lra. rewrite Rminus_eq_0, Rabs_R0. apply Rmult_le_pos; lra.
    - rewrite Rmax_left by lra. pose proof (HM x Hx). pose proof (HM dl ltac:(lra)). assert (1 / 2 <= (1 - x) ^ m). { eapply Rle_trans; [|apply bernoulli; lra]. nra. }
      eapply Rle_trans; [apply Rabs_triang|]. rewrite Rabs_Ropp. nra. }
  assert (Pb : pol (2 * n) b) by (apply (pol_mono (S m)); [lia|apply pol_scal, tail_pol]). assert (Ib : RInt b 0 1 = 4 * M / (INR m + 1)).
  { unfold b. rewrite (RInt_scal (fun x => (1 - x) ^ m)) by (apply (pol_int (S m)), tail_pol). rewrite tail_int. reflexivity. }
  assert (Bs : 4 * M / (INR m + 1) <= eps / 4).
  { apply (Rmult_le_reg_r ((INR m + 1) * (4 / eps))); [apply Rmult_lt_0_compat; [lra|apply Rdiv_lt_0_compat; lra]|]. replace (4 * M / (INR m + 1) * ((INR m + 1) * (4 / eps))) with (16 * M / eps) by (field; lra).
    replace (eps / 4 * ((INR m + 1) * (4 / eps))) with (INR m + 1) by (field; lra). lra. }
  assert (H1 : Rabs (rsum n (fun i => w i * g (nth i mu 0)) - rsum n (fun i => w i * h (nth i mu 0))) <= eps / 4).
  { eapply Rle_trans; [|exact Bs]. rewrite <- Ib, <- (dg_pol n mu w b HD Pb), <- rsum_minus. eapply Rle_trans; [apply rsum_abs|]. apply rsum_le. intros i Hi. destruct HD as (_ & Hmu & _). destruct (Hmu i Hi) as (A1 & _ & A3).
    rewrite <- Rmult_minus_distr_l, Rabs_mult, (Rabs_pos_eq (w i)) by lra. apply Rmult_le_compat_l; [lra|]. apply Hb. lra. }
  assert (Hxh : ex_RInt h 0 1) by (apply cont_int; exact Hc). assert (Hxb : ex_RInt b 0 1) by (apply (pol_int _ _ _ _ Pb)).
  assert (H2 : Rabs (RInt h 0 1 - RInt g 0 1) <= eps / 4).
  { eapply Rle_trans; [|exact Bs]. rewrite <- Ib.
    assert (A : RInt g 0 1 <= RInt h 0 1 + RInt b 0 1). { rewrite <- (RInt_plus h b) by assumption. apply RInt_le; [lra|exact Hex|apply (ex_RInt_plus h b); assumption|]. intros x Hx. pose proof (Hb x ltac:(lra)) as K. apply Rabs_le_between in K. unfold plus; cbn. lra. }
    assert (B : RInt h 0 1 <= RInt g 0 1 + RInt b 0 1). { rewrite <- (RInt_plus g b) by assumption. apply RInt_le; [lra|exact Hxh|apply (ex_RInt_plus g b); assumption|]. intros x Hx. pose proof (Hb x ltac:(lra)) as K. apply Rabs_le_between in K. unfold plus; cbn. lra. }
    apply Rabs_le. lra. }
  apply Rabs_le_between in H1. apply Rabs_le_between in H2. apply Rabs_le_between in Hh. apply Rabs_le. lra.
Qed.
