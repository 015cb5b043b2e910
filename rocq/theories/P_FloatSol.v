(** * Double precision: depths and attenuation factors of the main solution. *)
From Coq Require Import ZArith Reals List Bool Lia Lra.
From Flocq Require Import Core IEEE754.BinarySingleNaN.
From Verif Require Import Base M_Float Spec_Float M_FloatSol Spec_FloatSol P_Float P_Float2 P_Float3 P_Float4 P_Float5.
Import ListNotations.
Open Scope R_scope.

Lemma ksum_lower b k : (forall i, (i <= k)%nat -> 0 <= b i) -> INR k * two (-53) <= / 4 ->
  (1 - 2 * INR k * two (-53)) * rsum (S k) b - 2 * INR k * two (-1075) <= ksum b k.
Proof.
  induction k as [|k IH]; intros H Hk.
  - cbn [ksum rsum INR]. lra.
  - rewrite S_INR in *. pose proof (two_pos (-53)) as UP.
    specialize (IH ltac:(intros; apply H; lia) ltac:(lra)). cbn [ksum].
    pose proof (ksum_nonneg b k ltac:(intros; apply H; lia)) as P1. pose proof (H (S k) ltac:(lia)) as P2.
    pose proof (rn_lower (ksum b k + b (S k)) ltac:(lra)) as L.
    change (rsum (S (S k)) b) with (rsum (S k) b + b (S k)).
    assert (P3 : 0 <= rsum (S k) b).
    { assert (G : forall j, (j <= S k)%nat -> 0 <= rsum j b).
      { induction j as [|j IHj]; intros Hj; cbn [rsum]; [lra|].
        pose proof (H j ltac:(lia)). specialize (IHj ltac:(lia)). lra. }
      apply G. lia. }
    set (u := two (-53)) in *. set (e := two (-1075)) in *. set (s := rsum (S k) b) in *.
    assert (EP : 0 < e) by apply two_pos. assert (KP : 0 <= INR k) by apply pos_INR.
    set (n := INR k) in *. set (q := b (S k)) in *.
    assert (N : n * u <= / 4) by lra. assert (N0 : 0 <= n * u) by nra.
    apply Rle_trans with ((1 - u) * ((1 - 2 * n * u) * s - 2 * n * e + q) - e).
    2:{ eapply Rle_trans; [|exact L]. apply Rplus_le_compat_r. apply Rmult_le_compat_l; [|lra].
        pose proof u_small. unfold u. lra. }
    assert (A1 : 0 <= u * (2 * n * u) * s).
    { apply Rmult_le_pos; [|exact P3]. nra. }
    assert (A2 : 0 <= u * (2 * n * e)) by nra.
    assert (A3 : 0 <= n * u * q) by (apply Rmult_le_pos; lra).
    nra.
Qed.

Lemma exp_diff x y d : Rabs (x - y) <= d -> d <= / 4 -> Rabs (exp x - exp y) <= 2 * d * exp y.
Proof.
  intros H D. apply Rabs_le_inv in H. pose proof (exp_pos y) as P.
  replace (exp x) with (exp y * exp (x - y)) by (rewrite <- exp_plus; f_equal; ring).
  assert (L : 1 - d <= exp (x - y)).
  { pose proof (exp_ineq1_le (x - y)). lra. }
  assert (U : exp (x - y) <= 1 + 2 * d).
  { assert (D0 : 0 <= d) by lra.
    apply Rle_trans with (exp d); [apply exp_le; lra|].
    pose proof (exp_ineq1_le (- d)) as G. pose proof (exp_pos d) as Q.
    rewrite exp_Ropp in G. assert (I : exp d * / exp d = 1) by (apply Rinv_r; lra).
    assert (exp d * (1 - d) <= 1).
    { rewrite <- I. apply Rmult_le_compat_l; lra. }
    nra. }
  apply Rabs_le. nra.
Qed.

Section Depths.
Variable a : fatm.
Hypothesis Ha : atm_ok a.
Hypothesis Hm : moderate a.
Let n := fa_n a.
Let B := bottom_depth a.
Let u := two (-53).
Let e := two (-1075).

Lemma n_small : INR n <= two 20. Proof. apply Hm. Qed.
Lemma nu_small : INR n * two (-53) <= two (-33).
Proof.
  apply Rle_trans with (two 20 * two (-53)); [apply Rmult_le_compat_r; [apply Rlt_le, two_pos|apply n_small]|].
  rewrite <- two_add. apply two_le. lia.
Qed.
Lemma m33 : two (-33) <= / 1024.
Proof. change (/ 1024) with (two (-10)). apply two_le. lia. Qed.

Lemma upper_mono j k : (j <= k)%nat -> (k <= n)%nat -> upper a j <= upper a k.
Proof.
  intros H. induction H as [|k H IH]; intros Hk; [lra|].
  specialize (IH ltac:(lia)). destruct k as [|k]; simpl in *.
  - pose proof (ao_tau a Ha 0 ltac:(lia)). lra.
  - pose proof (ao_inc a Ha k ltac:(unfold n in *; lia)). lra.
Qed.
Lemma upper_range k : (k <= n)%nat -> 0 <= upper a k <= B.
Proof. intros Hk. split; [apply (upper_mono 0); lia|apply upper_mono; lia]. Qed.
Lemma upper_S k : (k < n)%nat -> upper a (S k) = upper a k + thickness a k.
Proof. intros Hk. destruct k as [|k]; simpl; ring. Qed.
Lemma rsum_thick k : (k <= n)%nat -> rsum k (thickness a) = upper a k.
Proof.
  induction k as [|k IH]; intros Hk; cbn [rsum]; [reflexivity|].
  rewrite IH by lia. symmetry. apply upper_S. lia.
Qed.
Lemma sd_eps eps k : (k <= n)%nat -> scaled_depth a eps k = scaled_depth a 0 k + eps * upper a k.
Proof.
  intros Hk. rewrite <- rsum_thick by exact Hk. unfold scaled_depth.
  clear Hk. induction k as [|k IH]; cbn [rsum]; [ring|]. rewrite IH. ring.
Qed.
Lemma sd_range k : (k <= n)%nat -> 0 <= scaled_depth a 0 k <= upper a k.
Proof.
  induction k as [|k IH]; intros Hk; unfold scaled_depth in *; cbn [rsum]; [simpl; lra|].
  specialize (IH ltac:(lia)). rewrite upper_S by lia. pose proof (thickness_pos a Ha k ltac:(unfold n in *; lia)).
  pose proof (scaling_range a Ha k ltac:(unfold n in *; lia)). nra.
Qed.

Definition E0 : R := (4 * INR n + 8) * u * B + (7 * INR n) * e.
Lemma B_pos : 0 <= B.
Proof. apply (upper_range n); lia. Qed.
Lemma E0_pos : 0 <= E0.
Proof.
  unfold E0. pose proof B_pos. pose proof (pos_INR n).
  assert (0 < u) by apply two_pos. assert (0 < e) by apply two_pos.
  assert (0 <= INR n * e) by nra. assert (0 <= (4 * INR n + 8) * u) by nra. nra.
Qed.

Lemma sum_st k : (k <= n)%nat ->
  0 <= rsum k (fun r => fval (fa_sthick a r)) <= 2 * B + 4 * INR n * e /\
  Rabs (rsum k (fun r => fval (fa_sthick a r)) - scaled_depth a 0 k) <= 8 * u * B + 4 * INR n * e.
Proof.
  intros Hk. pose proof (rsum_lower a Ha k Hk) as L. pose proof (rsum_upper a Ha k Hk) as U.
  rewrite (sd_eps _ k Hk) in L. rewrite (sd_eps _ k Hk) in U. rewrite two_m50, two_m1073 in L, U. fold u e in L, U.
  pose proof (upper_range k Hk) as R1. pose proof (sd_range k Hk) as R2.
  assert (NK : INR k <= INR n) by (apply le_INR; exact Hk). pose proof (pos_INR k) as K0.
  assert (EP : 0 < e) by apply two_pos. assert (UP : 0 < u) by apply two_pos.
  assert (US : u <= / 1024) by apply u_small.
  assert (X1 : INR k * (4 * e) <= 4 * INR n * e) by nra.
  assert (X2 : u * upper a k <= u * B) by nra.
  split.
  - split; [|nra]. assert (G : forall j, (j <= k)%nat -> 0 <= rsum j (fun r => fval (fa_sthick a r))).
    { induction j as [|j IH]; intros Hj; cbn [rsum]; [lra|]. specialize (IH ltac:(lia)).
      destruct (sthick_ok a Ha j ltac:(unfold n in *; lia)) as (_ & G & _). lra. }
    apply G. lia.
  - apply Rabs_le. nra.
Qed.

Lemma ne_tiny : INR n * e <= two (-1055).
Proof.
  apply Rle_trans with (two 20 * e); [apply Rmult_le_compat_r; [apply Rlt_le, two_pos|apply n_small]|].
  unfold e. rewrite <- two_add. apply two_le. lia.
Qed.
Lemma B_big : 8 * B + 8 * INR n * e < two 910.
Proof.
  pose proof ne_tiny. destruct Hm as [H1 _]. fold B in H1.
  assert (two (-1055) <= two 900) by (apply two_le; lia).
  assert (T : two 910 = 1024 * two 900) by (change 910%Z with (10 + 900)%Z; rewrite two_add; reflexivity).
  pose proof (two_pos 900). lra.
Qed.

Lemma fstau0_ok k : (k <= n)%nat ->
  ffin (fa_stau0 a k) = true /\ 0 <= fval (fa_stau0 a k) < two 910 /\
  Rabs (fval (fa_stau0 a k) - scaled_depth a 0 k) <= E0.
Proof.
  intros Hk. destruct k as [|k]; unfold fa_stau0.
  - unfold scaled_depth. cbn [rsum]. rewrite fzero_val. split; [reflexivity|].
    split; [pose proof (two_pos 910); lra|]. rewrite Rminus_0_r, Rabs_R0. apply E0_pos.
  - assert (P : forall i, (i <= k)%nat -> 0 <= fval (fa_sthick a i)).
    { intros i Hi. apply (sthick_ok a Ha). unfold n in *; lia. }
    assert (NU : forall j, (j <= k)%nat -> 0 <= INR j * u <= INR n * u).
    { intros j Hj. assert (0 < u) by apply two_pos. assert (INR j <= INR n) by (apply le_INR; lia).
      pose proof (pos_INR j). split; nra. }
    pose proof nu_small as NS. pose proof m33 as M3. fold u in NS.
    assert (EP : 0 < e) by apply two_pos.
    assert (KU : forall j, (j <= k)%nat -> 0 <= ksum (fun i => fval (fa_sthick a i)) j < two 910).
    { intros j Hj. split; [apply ksum_nonneg; intros; apply P; lia|].
      pose proof (ksum_upper (fun i => fval (fa_sthick a i)) j ltac:(intros; apply P; lia)
        ltac:(pose proof (NU j Hj) as Z; fold u; lra)) as L. fold u e in L.
      destruct (sum_st (S j) ltac:(lia)) as [R1 _].
      pose proof (NU j Hj) as N1. assert (INR j <= INR n) by (apply le_INR; lia).
      pose proof B_big. pose proof B_pos. pose proof (pos_INR j). pose proof ne_tiny.
      assert (INR j * e <= INR n * e) by nra.
      set (S1 := rsum (S j) _) in *. nra. }
    destruct (csum_val (fa_sthick a) k) as [X1 X2].
    + intros i Hi. apply (sthick_ok a Ha). unfold n in *; lia.
    + intros j Hj. pose proof (KU j Hj). rewrite Rabs_pos_eq by lra.
      assert (two 910 < two 1024) by (apply bpow_lt; lia). lra.
    + split; [exact X1|]. rewrite X2. split; [apply KU; lia|].
      pose proof (ksum_upper (fun i => fval (fa_sthick a i)) k ltac:(intros; apply P; lia)
        ltac:(pose proof (NU k (le_n _)) as Z; fold u; lra)) as L1.
      pose proof (ksum_lower (fun i => fval (fa_sthick a i)) k ltac:(intros; apply P; lia)
        ltac:(pose proof (NU k (le_n _)) as Z; fold u; lra)) as L2. fold u e in L1, L2.
      destruct (sum_st (S k) Hk) as [R1 R2]. apply Rabs_le_inv in R2.
      pose proof (NU k (le_n _)) as N1. pose proof B_pos as BP. pose proof (pos_INR k).
      assert (N2 : INR k + 1 <= INR n) by (rewrite <- S_INR; apply le_INR; lia).
      assert (X3 : INR k * e <= INR n * e) by nra.
      set (S1 := rsum (S k) _) in *. set (D := scaled_depth a 0 (S k)) in *.
      assert (X4 : 2 * INR k * u * S1 <= 4 * INR n * u * B + INR n * e).
      { apply Rle_trans with (2 * (INR n * u) * (2 * B + 4 * INR n * e)); [nra|].
        assert (INR n * e * (INR n * u) <= INR n * e * / 1024) by (apply Rmult_le_compat_l; nra).
        nra. }
      unfold E0. apply Rabs_le. nra.
Qed.

Lemma fstau0_step k : (k < n)%nat ->
  fval (fa_stau0 a (S k)) = rn (fval (fa_stau0 a k) + fval (fa_sthick a k)).
Proof.
  intros Hk. destruct k as [|k].
  - unfold fa_stau0. cbn [csum]. rewrite fzero_val, Rplus_0_l, rn_fmt; [reflexivity|apply fmt_val].
  - destruct (fstau0_ok (S k) ltac:(lia)) as (F & R & _).
    destruct (sthick_ok a Ha (S k) Hk) as (F2 & R2 & _).
    assert (T : fval (fa_sthick a (S k)) <= two 900).
    { pose proof (upper_range (S (S k)) Hk) as G. simpl upper in G. destruct Hm as [H1 _]. unfold B in G. lra. }
    destruct (fadd_ok _ _ F F2) as [_ V]; [|exact V].
    apply rn_small. rewrite Rabs_pos_eq by lra.
    assert (two 900 <= two 910) by (apply two_le; lia).
    assert (two 1023 = two 1 * two 1022) by (rewrite <- two_add; reflexivity).
    assert (two 910 <= two 1022) by (apply two_le; lia). rewrite two_1 in *. lra.
Qed.

(** ** The branch on delta-M scaling. *)
Lemma any_false : s_any a = false -> forall r, (r < n)%nat -> scaling a r = 1.
Proof.
  intros H r Hr. unfold scaling. enough (G : fval (f_ a r) = 0) by (rewrite G; ring).
  destruct (Rle_lt_or_eq_dec 0 (fval (f_ a r)) (proj1 (ao_pk a Ha r Hr))) as [G|G]; [|lra].
  exfalso. unfold s_any in H.
  assert (X : existsb (fun x => flt fzero x) (fa_f a) = true).
  { apply existsb_exists. exists (f_ a r). split.
    - apply nth_In. rewrite (ao_f a Ha). exact Hr.
    - apply flt_iff; [reflexivity|apply (ao_fin a Ha r Hr)|rewrite fzero_val; exact G]. }
  congruence.
Qed.

Lemma sscale_ok r : (r < n)%nat ->
  ffin (s_scale a r) = true /\ 0 < fval (s_scale a r) <= 1 /\
  Rabs (fval (s_scale a r) - scaling a r) <= 4 * u.
Proof.
  intros Hr. unfold s_scale. assert (UP : 0 < u) by apply two_pos. destruct (s_any a) eqn:E.
  - destruct (scale_ok a Ha r Hr) as (F & R & _ & D). rewrite two_m51 in D. fold u in D.
    split; [exact F|]. split; [exact R|]. apply Rabs_le. lra.
  - split; [apply fone_fin|]. rewrite fone_val. split; [lra|].
    rewrite any_false by assumption. rewrite Rminus_diag_eq, Rabs_R0 by reflexivity. lra.
Qed.

Lemma sd_one k : (k <= n)%nat -> (forall r, (r < n)%nat -> scaling a r = 1) -> scaled_depth a 0 k = upper a k.
Proof.
  intros Hk H. induction k as [|k IH]; [reflexivity|].
  unfold scaled_depth in *. cbn [rsum]. rewrite IH by lia. rewrite H by lia. rewrite upper_S by lia. ring.
Qed.

Lemma stau0_gen k : (k <= n)%nat ->
  ffin (s_tau0 a k) = true /\ 0 <= fval (s_tau0 a k) < two 910 /\
  Rabs (fval (s_tau0 a k) - scaled_depth a 0 k) <= E0.
Proof.
  intros Hk. unfold s_tau0. destruct (s_any a) eqn:E; [apply fstau0_ok, Hk|].
  rewrite (sd_one k Hk (any_false E)).
  assert (V : fval (match k with O => fzero | S k' => t_ a k' end) = upper a k) by (destruct k; reflexivity).
  rewrite V. split; [|split].
  - destruct k as [|k]; [reflexivity|]. apply (ao_fin a Ha k). unfold n in *; lia.
  - pose proof (upper_range k Hk). destruct Hm as [H1 _]. fold B in H1.
    assert (two 900 < two 910) by (apply bpow_lt; lia). lra.
  - rewrite Rminus_diag_eq, Rabs_R0 by reflexivity. apply E0_pos.
Qed.

Lemma stau0_inc k : (k < n)%nat -> fval (s_tau0 a k) <= fval (s_tau0 a (S k)).
Proof.
  intros Hk. unfold s_tau0. destruct (s_any a).
  - rewrite fstau0_step by exact Hk. destruct (sthick_ok a Ha k Hk) as (_ & R & _).
    apply rn_ge_fmt; [apply fmt_val|lra].
  - destruct k as [|k]; [rewrite fzero_val; apply Rlt_le, (ao_tau a Ha 0 Hk)|].
    apply Rlt_le, (ao_inc a Ha k Hk).
Qed.

Section Point.
Variables (l : nat) (tau : f64).
Hypothesis Ht : in_layer a l tau.
Let t := fval tau.

Lemma pt_l : (l < n)%nat. Proof. apply Ht. Qed.
Lemma pt_range : upper a l <= t <= fval (t_ a l).
Proof.
  destruct Ht as (_ & _ & R & Hr). split; [|apply R]. destruct l as [|k]; simpl; [apply R|].
  apply Rlt_le, Hr. lia.
Qed.
Lemma tl_B : fval (t_ a l) <= B.
Proof. apply (upper_range (S l)). pose proof pt_l. lia. Qed.
Lemma small_fin x : Rabs x <= two 920 -> Rabs (rn x) < two 1024.
Proof. intros H. apply rn_small. eapply Rle_trans; [exact H|]. apply two_le. lia. Qed.
Lemma B_900 : B <= two 900. Proof. apply Hm. Qed.
Lemma two_900s : two 900 < two 910 /\ 4 * two 910 <= two 920.
Proof.
  split; [apply bpow_lt; lia|]. replace (two 920) with (two 10 * two 910) by (rewrite <- two_add; reflexivity).
  rewrite two_10. pose proof (two_pos 910). lra.
Qed.

(** The offset from the lower boundary. *)
Lemma soff_ok : let o := fmul (fsub (t_ a l) tau) (s_scale a l) in
  ffin o = true /\ 0 <= fval o <= two 900 /\
  Rabs (fval o - scaling a l * (fval (t_ a l) - t)) <= 8 * u * B + 4 * e.
Proof.
  intros o. pose proof pt_l as Hl. pose proof pt_range as R. pose proof tl_B as TB. pose proof B_900 as B9.
  pose proof two_900s as [T1 T2]. pose proof (upper_range l ltac:(lia)) as UR.
  destruct (ao_fin a Ha l Hl) as (F1 & _). destruct Ht as (_ & F2 & _).
  destruct (sscale_ok l Hl) as (F3 & R3 & D3).
  set (D := fval (t_ a l) - t) in *.
  assert (RD : 0 <= rn D <= two 900).
  { split; [apply rn_ge_fmt; [apply fmt_0|unfold D; lra]|apply rn_le_fmt; [apply fmt_two; lia|unfold D; lra]]. }
  destruct (fsub_ok _ _ F1 F2) as [X1 X2].
  { fold t. fold D. apply small_fin. rewrite Rabs_pos_eq by (unfold D; lra). unfold D. pose proof (two_pos 910). lra. }
  fold t in X2. fold D in X2.
  assert (RO : 0 <= rn (rn D * fval (s_scale a l)) <= two 900).
  { split; [apply rn_ge_fmt; [apply fmt_0|nra]|apply rn_le_fmt; [apply fmt_two; lia|nra]]. }
  destruct (fmul_ok _ _ X1 F3) as [X3 X4].
  { rewrite X2. apply small_fin. rewrite Rabs_pos_eq by nra. pose proof (two_pos 910). nra. }
  rewrite X2 in X4. fold o in X3, X4. split; [exact X3|]. rewrite X4. split; [exact RO|].
  pose proof (rn_err D) as E1. rewrite (Rabs_pos_eq D) in E1 by (unfold D; lra).
  pose proof (rn_err (rn D * fval (s_scale a l))) as E2.
  rewrite (Rabs_pos_eq (rn D * _)) in E2 by nra.
  fold u e in E1, E2. apply Rabs_le_inv in E1. apply Rabs_le_inv in E2. apply Rabs_le_inv in D3.
  pose proof (scaling_range a Ha l Hl) as SR.
  assert (UP : 0 < u) by apply two_pos. assert (EP : 0 < e) by apply two_pos.
  assert (US : u <= / 1024) by apply u_small.
  assert (D0 : 0 <= D <= B) by (unfold D; lra).
  set (s := fval (s_scale a l)) in *. set (sc := scaling a l) in *. set (d := rn D) in *.
  assert (Y1 : Rabs (d * s - sc * D) <= 5 * u * D + e).
  { replace (d * s - sc * D) with (s * (d - D) + (s - sc) * D) by ring. apply Rabs_le. nra. }
  apply Rabs_le_inv in Y1.
  assert (Y2 : d * s <= 2 * D + e) by nra.
  assert (Y3 : u * (d * s) <= u * (2 * D + e)) by (apply Rmult_le_compat_l; lra).
  assert (Y4 : u * D <= u * B) by (apply Rmult_le_compat_l; lra).
  assert (Y5 : u * e <= e) by nra.
  apply Rabs_le. split; lra.
Qed.

Definition E1 : R := (4 * INR n + 20) * u * B + (7 * INR n + 8) * e.

Lemma sstau_ok : ffin (s_stau a tau) = true /\ 0 <= fval (s_stau a tau) < two 910 /\
  Rabs (fval (s_stau a tau) - exact_depth a l t) <= E1.
Proof.
  pose proof pt_l as Hl. pose proof pt_range as R. pose proof tl_B as TB. pose proof B_900 as B9.
  pose proof two_900s as [T1 T2]. pose proof (upper_range l ltac:(lia)) as UR.
  assert (UP : 0 < u) by apply two_pos. assert (EP : 0 < e) by apply two_pos.
  assert (US : u <= / 1024) by apply u_small. pose proof B_pos as BP. pose proof (pos_INR n) as N0.
  unfold s_stau. rewrite (layer_ok a Ha l tau Ht).
  assert (SD : scaled_depth a 0 (S l) = scaled_depth a 0 l + scaling a l * thickness a l).
  { unfold scaled_depth. cbn [rsum]. ring. }
  destruct (s_scaled a) eqn:ES.
  - destruct soff_ok as (F1 & R1 & D1). set (o := fmul _ _) in *.
    destruct (stau0_gen (S l) Hl) as (F2 & R2 & D2).
    destruct (fsub_ok _ _ F2 F1) as [X1 X2].
    { apply small_fin. apply Rabs_le. lra. }
    split; [exact X1|]. rewrite X2.
    assert (OL : 0 <= fval (s_tau0 a (S l)) - fval o).
    { destruct (s_any a) eqn:EA.
      - unfold o, s_tau0, s_scale. rewrite EA. rewrite fstau0_step by exact Hl.
        destruct (sthick_ok a Ha l Hl) as (_ & ST & EQ & _).
        apply Rle_trans with (fval (fa_sthick a l) - fval o).
        + destruct (thick_ok a Ha l Hl) as (_ & E2 & _). destruct (scale_ok a Ha l Hl) as (F3 & R3 & _).
          destruct (ao_fin a Ha l Hl) as (F4 & _). destruct Ht as (_ & F5 & _).
          destruct (fsub_ok _ _ F4 F5) as [Y1 Y2].
          { fold t. apply small_fin. rewrite Rabs_pos_eq by lra. pose proof (two_pos 910). lra. }
          assert (RD : 0 <= rn (fval (t_ a l) - t) <= two 900).
          { split; [apply rn_ge_fmt; [apply fmt_0|lra]|apply rn_le_fmt; [apply fmt_two; lia|lra]]. }
          assert (fval o <= fval (fa_sthick a l)); [|lra].
          unfold o, s_scale. rewrite EA. destruct (fmul_ok _ _ Y1 F3) as [_ Z2].
          { rewrite Y2. fold t. apply small_fin. rewrite Rabs_pos_eq by nra. pose proof (two_pos 910). nra. }
          rewrite Z2, Y2, EQ, E2. fold t. apply rn_le. rewrite Rmult_comm. apply Rmult_le_compat_l; [lra|].
          apply rn_le. destruct l as [|k]; unfold thickness; simpl in R; [lra|]. lra.
        + unfold o, s_scale. rewrite EA. apply Rplus_le_compat_r. destruct (fstau0_ok l ltac:(lia)) as (_ & G & _).
          apply rn_ge_fmt; [apply fmt_val|lra].
      - exfalso. unfold s_scaled in ES. rewrite existsb_exists in ES. destruct ES as (r & _ & G).
        unfold s_scale in G. rewrite EA in G. discriminate G. }
    split; [split; [apply rn_ge_fmt; [apply fmt_0|exact OL]|]|].
    + eapply Rle_lt_trans; [apply (rn_le_fmt _ (fval (s_tau0 a (S l)))); [apply fmt_val|lra]|lra].
    + pose proof (rn_err (fval (s_tau0 a (S l)) - fval o)) as E2. rewrite (Rabs_pos_eq _ OL) in E2. fold u e in E2.
      apply Rabs_le_inv in E2. apply Rabs_le_inv in D1. apply Rabs_le_inv in D2.
      assert (NU : INR n * u <= / 1024) by (pose proof nu_small; pose proof m33; unfold u; lra).
      assert (X3 : fval (s_tau0 a (S l)) - fval o <= 2 * B + 7 * INR n * e).
      { pose proof (sd_range (S l) ltac:(lia)) as G. pose proof (upper_range (S l) ltac:(lia)) as G2.
        assert (E0 <= B + 7 * INR n * e).
        { unfold E0. assert ((4 * INR n + 8) * u <= 1) by nra. nra. }
        lra. }
      assert (X5 : u * (fval (s_tau0 a (S l)) - fval o) <= 2 * u * B + e).
      { apply Rle_trans with (u * (2 * B + 7 * INR n * e)); [apply Rmult_le_compat_l; lra|].
        assert (INR n * u * e <= / 1024 * e) by (apply Rmult_le_compat_r; lra). lra. }
      unfold exact_depth. rewrite SD in D2.
      assert (X4 : thickness a l = fval (t_ a l) - upper a l) by (destruct l; unfold thickness; simpl; ring).
      rewrite X4 in D2. unfold E0 in D2. unfold E1. apply Rabs_le.
      assert (0 <= u * B) by nra. split; lra.
  - split; [apply Ht|]. fold t. split; [lra|].
    assert (S1 : forall r, (r < n)%nat -> 1 - 4 * u <= scaling a r).
    { intros r Hr. destruct (sscale_ok r Hr) as (_ & _ & D). apply Rabs_le_inv in D.
      enough (fval (s_scale a r) = 1) by lra.
      destruct (Beqb (s_scale a r) fone) eqn:G.
      - rewrite (Beqb_correct _ _ _ _ (proj1 (sscale_ok r Hr)) fone_fin) in G.
        change (B2R fone) with (fval fone) in G. rewrite fone_val in G.
        destruct (Req_bool_spec (B2R (s_scale a r)) 1); [assumption|discriminate].
      - exfalso. assert (X : s_scaled a = true); [|congruence]. apply existsb_exists.
        exists r. split; [apply in_seq; unfold n in *; lia|]. rewrite G. reflexivity. }
    assert (S2 : (1 - 4 * u) * upper a l <= scaled_depth a 0 l).
    { assert (G : forall k, (k <= n)%nat -> (1 - 4 * u) * upper a k <= scaled_depth a 0 k).
      { induction k as [|k IH]; intros Hk; [unfold scaled_depth; simpl; lra|].
        specialize (IH ltac:(lia)). unfold scaled_depth in *. cbn [rsum]. rewrite upper_S by lia.
        pose proof (S1 k ltac:(lia)). pose proof (thickness_pos a Ha k Hk). nra. }
      apply G. lia. }
    pose proof (sd_range l ltac:(lia)) as S3. pose proof (S1 l Hl) as S4.
    pose proof (scaling_range a Ha l Hl) as S5.
    unfold exact_depth, E1.
    assert (Y1 : (1 - 4 * u) * (t - upper a l) <= scaling a l * (t - upper a l)) by (apply Rmult_le_compat_r; lra).
    assert (Y2 : scaling a l * (t - upper a l) <= 1 * (t - upper a l)) by (apply Rmult_le_compat_r; lra).
    assert (Y3 : u * t <= u * B) by (apply Rmult_le_compat_l; lra).
    assert (Y4 : 0 <= INR n * (u * B)) by (apply Rmult_le_pos; nra).
    assert (Y5 : 0 <= INR n * e) by nra. assert (0 <= u * B) by nra.
    apply Rabs_le. split; lra.
Qed.

End Point.

Definition E2 : R := (INR n + 8) * two (-51) * B + two (-1050).
Lemma tiny_e : (14 * INR n + 40) * e <= two (-1050).
Proof.
  pose proof ne_tiny as N. unfold e in *.
  assert (T1 : two (-1050) = 32 * two (-1055)) by (change (-1050)%Z with (5 + -1055)%Z; rewrite two_add; reflexivity).
  assert (T2 : two (-1055) = 1048576 * two (-1075)) by (change (-1055)%Z with (20 + -1075)%Z; rewrite two_add; reflexivity).
  pose proof (two_pos (-1075)). lra.
Qed.
Lemma E1_E2 : E1 <= E2.
Proof.
  unfold E1, E2. rewrite two_m51. fold u. pose proof tiny_e. pose proof B_pos. pose proof (pos_INR n).
  assert (0 < e) by apply two_pos. assert (0 < u) by apply two_pos.
  assert (0 <= u * B) by nra. assert (0 <= INR n * e) by nra. nra.
Qed.
Lemma E0_E1 : E0 <= E1.
Proof.
  unfold E1, E0. pose proof B_pos. pose proof (pos_INR n).
  assert (0 < e) by apply two_pos. assert (0 < u) by apply two_pos.
  assert (0 <= u * B) by nra. nra.
Qed.

Lemma exact_range l tau : in_layer a l tau -> 
  0 <= scaling a l * (fval tau - upper a l) /\ 0 <= scaling a l * (fval (t_ a l) - fval tau) /\
  0 <= exact_depth a l (fval tau) <= B /\
  scaled_depth a 0 (S l) = exact_depth a l (fval tau) + scaling a l * (fval (t_ a l) - fval tau).
Proof.
  intros Ht. pose proof (pt_l l tau Ht) as Hl. pose proof (pt_range l tau Ht) as R.
  pose proof (scaling_range a Ha l Hl) as SR. pose proof (sd_range l ltac:(lia)) as S1.
  pose proof (tl_B l tau Ht) as TB.
  assert (X4 : thickness a l = fval (t_ a l) - upper a l) by (destruct l; unfold thickness; simpl; ring).
  unfold exact_depth. split; [nra|]. split; [nra|]. split; [nra|].
  unfold scaled_depth. cbn [rsum]. rewrite X4. ring.
Qed.

(** An exponent computed from two depths. *)
Definition dl (K : R) : R := K * (INR n + 8) * B * two (-50) + two (-100).
Definition tol (K : R) : R := K * (INR n + 8) * B * two (-49) + two (-50).

Lemma KB_low K : 0 <= K -> K * B <= K * (INR n + 8) * B.
Proof. intros HK. pose proof B_pos. pose proof (pos_INR n). assert (0 <= K * B) by nra. nra. Qed.

Lemma K_tiny K : 0 <= K <= two 900 -> K * two (-1050) <= two (-150).
Proof.
  intros H. apply Rle_trans with (two 900 * two (-1050)); [apply Rmult_le_compat_r; [apply Rlt_le, two_pos|lra]|].
  rewrite <- two_add. apply two_le. lia.
Qed.

Lemma E1_B : E1 <= B + two (-1050).
Proof.
  unfold E1. pose proof tiny_e. pose proof B_pos. pose proof (pos_INR n).
  assert (NU : INR n * u <= / 1024) by (pose proof nu_small; pose proof m33; unfold u; lra).
  assert (0 < e) by apply two_pos. assert (US : u <= / 1024) by apply u_small.
  assert ((4 * INR n + 20) * u <= 1) by lra. nra.
Qed.

Lemma expo_ok kf P Q p q K :
  ffin kf = true -> Rabs (fval kf) = K -> K <= two 900 -> K * (INR n + 8) * B <= two 47 ->
  ffin P = true -> 0 <= fval P < two 910 -> Rabs (fval P - p) <= E1 ->
  ffin Q = true -> 0 <= fval Q < two 910 -> Rabs (fval Q - q) <= E1 ->
  Rabs (p - q) <= B ->
  let x := fmul kf (fsub P Q) in
  ffin x = true /\ Rabs (fval x - fval kf * (p - q)) <= dl K.
Proof.
  intros Fk Ek K9 KB FP RP DP FQ RQ DQ PQ x. pose proof two_900s as [T1 T2].
  assert (K0 : 0 <= K) by (rewrite <- Ek; apply Rabs_pos).
  assert (UP : 0 < u) by apply two_pos. assert (EP : 0 < e) by apply two_pos.
  assert (US : u <= / 1024) by apply u_small. pose proof B_pos as BP. pose proof (pos_INR n) as N0.
  destruct (fsub_ok _ _ FP FQ) as [X1 X2]; [apply small_fin, Rabs_le; lra|].
  set (d := fval P - fval Q) in *.
  pose proof E1_B as EB. pose proof tiny_e as TE.
  assert (Dd : Rabs (d - (p - q)) <= 2 * E1).
  { apply Rabs_le_inv in DP. apply Rabs_le_inv in DQ. unfold d. apply Rabs_le. lra. }
  assert (Ad : Rabs d <= 3 * B + 2 * two (-1050)).
  { apply Rabs_le_inv in Dd. apply Rabs_le_inv in PQ. apply Rabs_le. lra. }
  set (D := (8 * INR n + 43) * u * B + (14 * INR n + 18) * e).
  assert (Dr : Rabs (rn d - (p - q)) <= D).
  { pose proof (rn_err d) as G. fold u e in G. apply Rabs_le_inv in G. apply Rabs_le_inv in Dd.
    assert (Y : u * Rabs d <= 3 * u * B + e).
    { apply Rle_trans with (u * (3 * B + 2 * two (-1050))); [apply Rmult_le_compat_l; lra|].
      assert (u * two (-1050) <= e * / 4).
      { unfold u, e. rewrite <- two_add. change (/ 4) with (two (-2)). rewrite <- two_add. apply two_le. lia. }
      lra. }
    assert (0 <= u * B) by nra. assert (0 <= INR n * (u * B)) by nra.
    unfold D. unfold E1 in Dd. apply Rabs_le. split; lra. }
  assert (KD : K * D <= K * (INR n + 8) * B * (8 * u) - 21 * (K * (u * B)) + two (-150)).
  { unfold D. pose proof (K_tiny K (conj K0 K9)) as KT.
    assert (K * ((14 * INR n + 18) * e) <= K * two (-1050)) by (apply Rmult_le_compat_l; lra).
    lra. }
  assert (M33 : two (-150) <= two (-102)) by (apply two_le; lia).
  assert (T100 : two (-100) = 4 * two (-102)) by (change (-100)%Z with (2 + -102)%Z; rewrite two_add; reflexivity).
  assert (T50 : two (-50) = 8 * u) by apply two_m50.
  pose proof (KB_low K K0) as KL.
  set (W := K * (INR n + 8) * B) in *.
  assert (W0 : 0 <= W) by (unfold W; apply Rmult_le_pos; [apply Rmult_le_pos; lra|lra]).
  assert (WU : W * (8 * u) <= / 8).
  { rewrite <- T50. apply Rle_trans with (two 47 * two (-50)); [apply Rmult_le_compat_r; [apply Rlt_le, two_pos|lra]|].
    rewrite <- two_add. change (/ 8) with (two (-3)). apply two_le. lia. }
  assert (M102 : two (-102) <= / 1024) by (change (/ 1024) with (two (-10)); apply two_le; lia).
  assert (KuB : 0 <= K * (u * B)) by (apply Rmult_le_pos; nra).
  pose proof (two_pos (-150)) as P150.
  assert (Az : Rabs (fval kf * rn d) <= K * B + / 4).
  { rewrite Rabs_mult, Ek. apply Rle_trans with (K * (B + D)).
    - apply Rmult_le_compat_l; [lra|]. apply Rabs_le_inv in Dr. apply Rabs_le_inv in PQ. apply Rabs_le. lra.
    - lra. }
  destruct (fmul_ok kf _ Fk X1) as [X3 X4].
  { rewrite X2. apply small_fin. eapply Rle_trans; [exact Az|].
    assert (two 47 <= two 910) by (apply two_le; lia). assert (1 <= two 910) by (rewrite <- two_0; apply two_le; lia). lra. }
  fold x in X3, X4. split; [exact X3|]. rewrite X4, X2.
  pose proof (rn_err (fval kf * rn d)) as G. fold u e in G.
  assert (Y1 : Rabs (fval kf * rn d - fval kf * (p - q)) <= K * D).
  { rewrite <- Rmult_minus_distr_l, Rabs_mult, Ek. apply Rmult_le_compat_l; [lra|exact Dr]. }
  assert (Y2 : u * Rabs (fval kf * rn d) <= K * (u * B) + u * (K * D)).
  { apply Rle_trans with (u * (K * B + K * D)); [apply Rmult_le_compat_l; [lra|]|lra].
    rewrite <- Rmult_plus_distr_l, Rabs_mult, Ek. apply Rmult_le_compat_l; [lra|].
    apply Rabs_le_inv in Dr. apply Rabs_le_inv in PQ. apply Rabs_le. lra. }
  assert (Y3 : u * (K * D) <= 20 * (K * (u * B)) + two (-150)).
  { destruct (Rle_or_lt (u * (K * D)) 0) as [L|L]; [lra|].
    apply Rle_trans with (u * (W * (8 * u)) + u * two (-150)); [|].
    - rewrite <- Rmult_plus_distr_l. apply Rmult_le_compat_l; lra.
    - assert (Z1 : u * two (-150) <= two (-150)) by nra.
      assert (Z2 : u * (W * (8 * u)) = (K * (u * B)) * (8 * (INR n + 8) * u)) by (unfold W; ring).
      assert (Z3 : 8 * (INR n + 8) * u <= 1).
      { assert (INR n * u <= / 1024) by (pose proof nu_small; pose proof m33; unfold u; lra).
        assert (u <= / 1048576) by (unfold u; change (/ 1048576) with (two (-20)); apply two_le; lia). lra. }
      rewrite Z2. assert (K * (u * B) * (8 * (INR n + 8) * u) <= K * (u * B) * 1) by (apply Rmult_le_compat_l; lra).
      lra. }
  assert (E150 : e <= two (-150)) by (apply two_le; lia).
  unfold dl. fold W. rewrite T50. rewrite T100.
  apply Rabs_le_inv in G. apply Rabs_le_inv in Y1. apply Rabs_le. split; lra.
Qed.

Variable lm : libm.
Hypothesis Hlm : libm_ok lm.

Lemma dl_quarter K : 0 <= K -> K * (INR n + 8) * B <= two 47 -> 0 <= dl K <= / 4.
Proof.
  intros K0 H. unfold dl. pose proof B_pos. pose proof (pos_INR n).
  assert (W0 : 0 <= K * (INR n + 8) * B) by (apply Rmult_le_pos; [apply Rmult_le_pos; lra|lra]).
  pose proof (two_pos (-50)). pose proof (two_pos (-100)).
  assert (two 47 * two (-50) = / 8) by (rewrite <- two_add; reflexivity).
  assert (two (-100) <= / 8) by (change (/ 8) with (two (-3)); apply two_le; lia). nra.
Qed.

Lemma dl_tol K : 2 * dl K + two (-51) <= tol K.
Proof.
  unfold dl, tol.
  assert (T1 : two (-49) = 2 * two (-50)) by (change (-49)%Z with (1 + -50)%Z; rewrite two_add; reflexivity).
  assert (T2 : two (-50) = 2 * two (-51)) by (change (-50)%Z with (1 + -51)%Z; rewrite two_add; reflexivity).
  assert (T3 : two (-100) <= / 4 * two (-51)).
  { change (/ 4) with (two (-2)). rewrite <- two_add. apply two_le. lia. }
  pose proof (two_pos (-51)). rewrite T1, T2. nra.
Qed.

Lemma exp_acc x y d : ffin x = true -> Rabs (fval x - y) <= d -> d <= / 4 -> y <= 0 ->
  ffin (l_exp lm x) = true /\ 0 <= fval (l_exp lm x) /\
  approx (2 * d + two (-51)) (fval (l_exp lm x)) (exp y).
Proof.
  intros F D1 D2 Y. assert (X1 : fval x <= 1) by (apply Rabs_le_inv in D1; lra).
  destruct (lo_exp_one lm Hlm x F X1) as (G1 & G2 & G3).
  split; [exact G1|]. split; [lra|]. unfold approx.
  pose proof (exp_diff _ _ _ D1 D2) as G4. pose proof (exp_pos y) as P.
  apply Rabs_le_inv in G3. apply Rabs_le_inv in G4.
  assert (D0 : 0 <= d) by (pose proof (Rabs_pos (fval x - y)); lra).
  assert (X2 : exp (fval x) <= 3 / 2 * exp y) by nra.
  assert (T2 : two (-51) = 2 * two (-52)) by (change (-51)%Z with (1 + -52)%Z; rewrite two_add; reflexivity).
  pose proof (two_pos (-52)) as Q. pose proof (two_pos (-1074)) as Q2.
  assert (X3 : two (-52) * exp (fval x) <= two (-51) * exp y) by (rewrite T2; nra).
  apply Rabs_le. split; nra.
Qed.

Lemma approx_weaken d e' x y : d <= e' -> 0 <= y -> approx d x y -> approx e' x y.
Proof. unfold approx. intros H Y A. nra. Qed.

Lemma att_gen kf P Q p q K :
  ffin kf = true -> Rabs (fval kf) = K -> K <= two 900 -> K * (INR n + 8) * B <= two 47 ->
  ffin P = true -> 0 <= fval P < two 910 -> Rabs (fval P - p) <= E1 ->
  ffin Q = true -> 0 <= fval Q < two 910 -> Rabs (fval Q - q) <= E1 ->
  Rabs (p - q) <= B -> fval kf * (p - q) <= 0 ->
  let f := l_exp lm (fmul kf (fsub P Q)) in
  ffin f = true /\ 0 <= fval f /\ approx (tol K) (fval f) (exp (fval kf * (p - q))).
Proof.
  intros Fk Ek K9 KB FP RP DP FQ RQ DQ PQ Sg f.
  assert (K0 : 0 <= K) by (rewrite <- Ek; apply Rabs_pos).
  destruct (expo_ok kf P Q p q K Fk Ek K9 KB FP RP DP FQ RQ DQ PQ) as [X1 X2].
  destruct (dl_quarter K K0 KB) as [_ L].
  destruct (exp_acc _ _ _ X1 X2 L Sg) as (Y1 & Y2 & Y3). fold f in Y1, Y2, Y3.
  split; [exact Y1|]. split; [exact Y2|]. eapply approx_weaken; [apply dl_tol|apply Rlt_le, exp_pos|exact Y3].
Qed.

Lemma stau0_E1 k : (k <= n)%nat -> Rabs (fval (s_tau0 a k) - scaled_depth a 0 k) <= E1.
Proof. intros Hk. destruct (stau0_gen k Hk) as (_ & _ & D). pose proof E0_E1. lra. Qed.

Lemma att_ok K l tau : rate_ok K -> fval K * (INR n + 8) * B <= two 47 -> in_layer a l tau ->
  (ffin (s_att_upper a lm K tau) = true /\ 0 <= fval (s_att_upper a lm K tau) /\
   approx (tol (fval K)) (fval (s_att_upper a lm K tau)) (exp (- fval K * (scaling a l * (fval tau - upper a l))))) /\
  (ffin (s_att_lower a lm K tau) = true /\ 0 <= fval (s_att_lower a lm K tau) /\
   approx (tol (fval K)) (fval (s_att_lower a lm K tau)) (exp (- fval K * (scaling a l * (fval (t_ a l) - fval tau))))).
Proof.
  intros (FK & RK) KB Ht. pose proof (pt_l l tau Ht) as Hl.
  destruct (sstau_ok l tau Ht) as (F1 & R1 & D1). destruct (stau0_gen l ltac:(lia)) as (F2 & R2 & _).
  destruct (stau0_gen (S l) Hl) as (F3 & R3 & _).
  pose proof (stau0_E1 l ltac:(lia)) as D2. pose proof (stau0_E1 (S l) Hl) as D3.
  destruct (exact_range l tau Ht) as (P1 & P2 & P3 & P4).
  pose proof (sd_range l ltac:(lia)) as S1. pose proof (sd_range (S l) ltac:(lia)) as S2.
  pose proof (upper_range (S l) Hl) as U2.
  unfold s_att_upper, s_att_lower. rewrite (layer_ok a Ha l tau Ht).
  assert (Q1 : exact_depth a l (fval tau) - scaled_depth a 0 l = scaling a l * (fval tau - upper a l))
    by (unfold exact_depth; ring).
  assert (Q2 : exact_depth a l (fval tau) - scaled_depth a 0 (S l) = - (scaling a l * (fval (t_ a l) - fval tau)))
    by lra.
  split.
  - pose proof (att_gen (fopp K) _ _ _ _ (fval K) ltac:(rewrite fopp_fin; exact FK)
      ltac:(rewrite fopp_val, Rabs_Ropp, Rabs_pos_eq; lra) (proj2 RK) KB F1 R1 D1 F2 R2 D2) as G.
    rewrite Q1, fopp_val in G. apply G; [apply Rabs_le; lra|nra].
  - pose proof (att_gen K _ _ _ _ (fval K) FK
      ltac:(rewrite Rabs_pos_eq; lra) (proj2 RK) KB F1 R1 D1 F3 R3 D3) as G.
    rewrite Q2 in G. rewrite Ropp_mult_distr_l_reverse, Ropp_mult_distr_r.
    apply G; [apply Rabs_le; lra|nra].
Qed.

Lemma exp_below x : below 0 x -> ffin (l_exp lm x) = true /\ 0 <= fval (l_exp lm x) <= 1.
Proof.
  intros [->|[F V]].
  - destruct (lo_exp_inf lm Hlm) as [F V]. rewrite V. split; [exact F|lra].
  - destruct (lo_exp lm Hlm x F V) as (G & R & _). split; assumption.
Qed.

Lemma prod_below x y : ffin x = true -> ffin y = true -> fval x <= 0 -> 0 <= fval y -> below 0 (fmul x y).
Proof.
  intros Fx Fy X [Y|Y].
  - apply (below_mono (rn (fval x * fval y))); [apply below_mul; assumption|].
    apply rn_le_fmt; [apply fmt_0|nra].
  - right. destruct (fmul_ok x y Fx Fy) as [G1 G2].
    { rewrite <- Y, Rmult_0_r, rn_0, Rabs_R0. apply two_pos. }
    split; [exact G1|]. rewrite G2, <- Y, Rmult_0_r, rn_0. lra.
Qed.
Lemma below_mul' x y : ffin x = true -> ffin y = true -> fval y <= 0 -> 0 < fval x ->
  below (rn (fval x * fval y)) (fmul x y).
Proof.
  intros Hx Hy Hy0 Hx0.
  pose proof (Bmult_correct 53 1024 prec64 emax64 mode_NE x y) as C.
  destruct (Rlt_bool_spec
    (Rabs (round radix2 fexp64 (round_mode mode_NE) (B2R x * B2R y))) (bpow radix2 1024)) as [H|H].
  - destruct C as (C1 & C2 & _). right. unfold ffin in *. rewrite Hx, Hy in C2.
    split; [exact C2|]. unfold fval, fmul. rewrite C1. apply Rle_refl.
  - left. apply B2SF_inf.
    assert (Sx : Bsign x = false).
    { destruct (Bsign x) eqn:E; auto. pose proof (sign_val' x Hx E). lra. }
    assert (Sy : Bsign y = true).
    { destruct (Bsign y) eqn:E; auto. exfalso. pose proof (sign_val y Hy E).
      assert (E' : B2R x * B2R y = 0) by (unfold fval in *; replace (B2R y) with 0 by lra; ring).
      rewrite E' in H. change (round radix2 fexp64 (round_mode mode_NE) 0) with (rn 0) in H.
      rewrite rn_0, Rabs_R0 in H. pose proof (bpow_gt_0 radix2 1024). lra. }
    rewrite Sx, Sy in C. exact C.
Qed.
Lemma prod_below' x y : ffin x = true -> ffin y = true -> fval y <= 0 -> 0 <= fval x -> below 0 (fmul x y).
Proof.
  intros Fx Fy Y [X|X].
  - apply (below_mono (rn (fval x * fval y))); [apply below_mul'; assumption|].
    apply rn_le_fmt; [apply fmt_0|nra].
  - right. destruct (fmul_ok x y Fx Fy) as [G1 G2].
    { rewrite <- X, Rmult_0_l, rn_0, Rabs_R0. apply two_pos. }
    split; [exact G1|]. rewrite G2, <- X, Rmult_0_l, rn_0. lra.
Qed.

Lemma interface_ok K l : rate_ok K -> (l < n)%nat ->
  (ffin (s_E_upper a lm K l) = true /\ 0 <= fval (s_E_upper a lm K l) <= 1) /\
  (ffin (s_E_lower a lm K l) = true /\ 0 <= fval (s_E_lower a lm K l) <= 1).
Proof.
  intros (FK & RK) Hl. destruct (stau0_gen l ltac:(lia)) as (F2 & R2 & _).
  destruct (stau0_gen (S l) Hl) as (F3 & R3 & _). pose proof (stau0_inc l Hl) as I.
  pose proof two_900s as [T1 T2]. unfold s_E_upper, s_E_lower.
  destruct (fsub_ok _ _ F3 F2) as [X1 X2]; [apply small_fin, Rabs_le; lra|].
  destruct (fsub_ok _ _ F2 F3) as [X3 X4]; [apply small_fin, Rabs_le; lra|].
  split; apply exp_below.
  - apply prod_below; [rewrite fopp_fin; exact FK|exact X1|rewrite fopp_val; lra|].
    rewrite X2. apply rn_ge_fmt; [apply fmt_0|lra].
  - apply prod_below'; [exact FK|exact X3| |lra]. rewrite X4. apply rn_le_fmt; [apply fmt_0|lra].
Qed.

Lemma interface_acc K l : rate_ok K -> fval K * (INR n + 8) * B <= two 47 -> (l < n)%nat ->
  approx (tol (fval K)) (fval (s_E_upper a lm K l)) (exp (- fval K * (scaling a l * thickness a l))) /\
  approx (tol (fval K)) (fval (s_E_lower a lm K l)) (exp (- fval K * (scaling a l * thickness a l))).
Proof.
  intros (FK & RK) KB Hl. destruct (stau0_gen l ltac:(lia)) as (F2 & R2 & _).
  destruct (stau0_gen (S l) Hl) as (F3 & R3 & _).
  pose proof (stau0_E1 l ltac:(lia)) as D2. pose proof (stau0_E1 (S l) Hl) as D3.
  pose proof (sd_range l ltac:(lia)) as S1. pose proof (sd_range (S l) ltac:(lia)) as S2.
  pose proof (upper_range (S l) Hl) as U2.
  pose proof (scaling_range a Ha l Hl) as SR. pose proof (thickness_pos a Ha l Hl) as TP.
  assert (SD : scaled_depth a 0 (S l) - scaled_depth a 0 l = scaling a l * thickness a l).
  { unfold scaled_depth. cbn [rsum]. ring. }
  assert (SP : 0 <= scaling a l * thickness a l) by nra.
  split.
  - pose proof (att_gen (fopp K) _ _ _ _ (fval K) ltac:(rewrite fopp_fin; exact FK)
      ltac:(rewrite fopp_val, Rabs_Ropp, Rabs_pos_eq; lra) (proj2 RK) KB F3 R3 D3 F2 R2 D2) as G.
    rewrite SD, fopp_val in G. apply G; [apply Rabs_le; lra|nra].
  - pose proof (att_gen K _ _ _ _ (fval K) FK
      ltac:(rewrite Rabs_pos_eq; lra) (proj2 RK) KB F2 R2 D2 F3 R3 D3) as G.
    replace (scaled_depth a 0 l - scaled_depth a 0 (S l)) with (- (scaling a l * thickness a l)) in G by lra.
    rewrite Ropp_mult_distr_l_reverse, Ropp_mult_distr_r.
    apply G; [apply Rabs_le; lra|nra].
Qed.

(** The direct beam. *)
Lemma beam_gen P p mu0 : cosine_ok mu0 -> ffin P = true -> 0 <= fval P < two 910 -> Rabs (fval P - p) <= E1 ->
  0 <= p <= B ->
  let f := l_exp lm (fdiv (fopp P) mu0) in
  (ffin f = true /\ 0 <= fval f <= 1) /\
  (/ fval mu0 * (INR n + 8) * B <= two 47 -> approx (tol (/ fval mu0)) (fval f) (exp (- (p / fval mu0)))).
Proof.
  intros (Fm & Lm & Um) FP RP DP Rp f. pose proof (two_pos (-40)) as P40.
  pose proof two_900s as [T1 T2].
  set (K := / fval mu0).
  assert (KI : K * fval mu0 = 1) by (apply Rinv_l; lra).
  assert (K40 : 1 <= K <= two 40).
  { assert (0 < K) by (apply Rinv_0_lt_compat; lra). split; [nra|].
    assert (two 40 * two (-40) = 1) by (rewrite <- two_add; reflexivity).
    apply Rmult_le_reg_r with (fval mu0); [lra|]. rewrite KI. pose proof (two_pos 40). nra. }
  assert (VE : fval (fopp P) / fval mu0 = - (K * fval P)) by (rewrite fopp_val; unfold K; field; lra).
  assert (Bd : Rabs (- (K * fval P)) <= two 950).
  { rewrite Rabs_Ropp, Rabs_pos_eq by nra. replace (two 950) with (two 40 * two 910) by (rewrite <- two_add; reflexivity).
    apply Rmult_le_compat; lra. }
  destruct (fdiv_ok (fopp P) mu0 ltac:(rewrite fopp_fin; exact FP) ltac:(lra)) as [X1 X2].
  { rewrite VE. apply rn_small. eapply Rle_trans; [exact Bd|]. apply two_le. lia. }
  rewrite VE in X2.
  split.
  - apply exp_below. right. split; [exact X1|]. rewrite X2. apply rn_le_fmt; [apply fmt_0|nra].
  - intros KB. fold K in KB. destruct (dl_quarter K ltac:(lra) KB) as [_ L].
    replace (- (p / fval mu0)) with (- (K * p)) by (unfold K; field; lra).
    destruct (exp_acc (fdiv (fopp P) mu0) (- (K * p)) (dl K) X1) as (Y1 & Y2 & Y3); [|exact L|nra|].
    + rewrite X2. pose proof (rn_err (- (K * fval P))) as G. fold u e in G.
      rewrite Rabs_Ropp, (Rabs_pos_eq (K * fval P)) in G by nra.
      assert (UP : 0 < u) by apply two_pos. assert (EP : 0 < e) by apply two_pos.
      assert (US : u <= / 1024) by apply u_small. pose proof B_pos as BP. pose proof (pos_INR n) as N0.
      pose proof E1_B as EB. apply Rabs_le_inv in DP.
      assert (Z1 : u * (K * fval P) <= 2 * (K * (u * B)) + two (-150)).
      { apply Rle_trans with (u * (K * (2 * B + two (-1050)))).
        - apply Rmult_le_compat_l; [lra|]. apply Rmult_le_compat_l; lra.
        - pose proof (K_tiny K) as KT. assert (two 40 <= two 900) by (apply two_le; lia).
          specialize (KT ltac:(lra)). assert (u * (K * two (-1050)) <= 1 * two (-150)); [|lra].
          apply Rmult_le_compat; try lra. apply Rmult_le_pos; [lra|]. apply Rlt_le, two_pos. }
      assert (Z2 : K * E1 <= K * (INR n + 8) * B * (8 * u) - 40 * (K * (u * B)) + two (-150)).
      { unfold E1. pose proof tiny_e as TE. assert (0 <= INR n * e) by nra.
        pose proof (K_tiny K) as KT. assert (two 40 <= two 900) by (apply two_le; lia).
        specialize (KT ltac:(lra)).
        assert (K * ((7 * INR n + 8) * e) <= K * two (-1050)) by (apply Rmult_le_compat_l; lra).
        assert (0 <= u * B) by nra. assert (0 <= INR n * (u * B)) by nra.
        assert (K * ((4 * INR n + 20) * u * B) <= K * ((8 * INR n + 24) * u * B)); [|lra].
        apply Rmult_le_compat_l; lra. }
      assert (M33 : two (-150) <= two (-102)) by (apply two_le; lia).
      assert (T100 : two (-100) = 4 * two (-102)) by (change (-100)%Z with (2 + -102)%Z; rewrite two_add; reflexivity).
      assert (E150 : e <= two (-150)) by (apply two_le; lia). pose proof (two_pos (-150)).
      assert (KuB : 0 <= K * (u * B)) by (apply Rmult_le_pos; nra).
      assert (Z3 : Rabs (K * fval P - K * p) <= K * E1).
      { rewrite <- Rmult_minus_distr_l, Rabs_mult, (Rabs_pos_eq K) by lra. apply Rmult_le_compat_l; [lra|].
        apply Rabs_le. lra. }
      apply Rabs_le_inv in Z3. apply Rabs_le_inv in G.
      unfold dl. rewrite two_m50. fold u. apply Rabs_le. split; lra.
    + eapply approx_weaken; [apply dl_tol|apply Rlt_le, exp_pos|exact Y3].
Qed.

Lemma beam_ok mu0 l tau : cosine_ok mu0 -> in_layer a l tau ->
  (ffin (s_beam a lm mu0 tau) = true /\ 0 <= fval (s_beam a lm mu0 tau) <= 1) /\
  (/ fval mu0 * (INR n + 8) * B <= two 47 ->
   approx (tol (/ fval mu0)) (fval (s_beam a lm mu0 tau)) (exp (- (exact_depth a l (fval tau) / fval mu0)))).
Proof.
  intros Hc Ht. destruct (sstau_ok l tau Ht) as (F1 & R1 & D1). destruct (exact_range l tau Ht) as (_ & _ & P3 & _).
  exact (beam_gen _ _ mu0 Hc F1 R1 D1 P3).
Qed.

Lemma beam0_ok mu0 k : cosine_ok mu0 -> (k <= n)%nat ->
  (ffin (s_beam0 a lm mu0 k) = true /\ 0 <= fval (s_beam0 a lm mu0 k) <= 1) /\
  (/ fval mu0 * (INR n + 8) * B <= two 47 ->
   approx (tol (/ fval mu0)) (fval (s_beam0 a lm mu0 k)) (exp (- (scaled_depth a 0 k / fval mu0)))).
Proof.
  intros Hc Hk. destruct (stau0_gen k Hk) as (F1 & R1 & _). pose proof (stau0_E1 k Hk) as D1.
  pose proof (sd_range k Hk) as S1. pose proof (upper_range k Hk) as U1.
  exact (beam_gen _ _ mu0 Hc F1 R1 D1 ltac:(lra)).
Qed.

Lemma depths_ok l tau : in_layer a l tau ->
  ffin (s_stau a tau) = true /\ 0 <= fval (s_stau a tau) /\
  Rabs (fval (s_stau a tau) - exact_depth a l (fval tau)) <= E2.
Proof.
  intros Ht. destruct (sstau_ok l tau Ht) as (F1 & R1 & D1). pose proof E1_E2.
  split; [exact F1|]. split; [apply R1|]. lra.
Qed.
Lemma depths0_ok k : (k < n)%nat ->
  ffin (s_tau0 a (S k)) = true /\ 0 <= fval (s_tau0 a k) <= fval (s_tau0 a (S k)) /\
  Rabs (fval (s_tau0 a (S k)) - scaled_depth a 0 (S k)) <= E2.
Proof.
  intros Hk. destruct (stau0_gen (S k) Hk) as (F1 & R1 & _). destruct (stau0_gen k ltac:(lia)) as (_ & R2 & _).
  pose proof (stau0_E1 (S k) Hk). pose proof E1_E2. pose proof (stau0_inc k Hk).
  split; [exact F1|]. split; [lra|]. lra.
Qed.
End Depths.
