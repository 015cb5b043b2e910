(** Sun angles at which every number of streams is solved, and a family of sunlit atmospheres. *)
From Coq Require Import Classical String Reals Lra Lia List Bool Arith ZArith Cantor.
From Coquelicot Require Import Coquelicot.
From Verif Require Import Base Tensor Spec M_LinAlg Spec_RTE Calc M_Subroutines M_GenPart M_MathscrV M_Coeffs M_Assemble M_Pydisort
  Spec_Sol Spec_Valid Spec_Calls Spec_Unique Spec_Phys Spec_Mono Spec_Depend Spec_Solved Spec_Sun Spec_Lossy Spec_Exact Spec_Full Spec_Azimuth P_Special P_Quad P_Sub P_Pydisort5 P_NT3 P_Gauss P_Lossy2 P_Orth2 P_Orth3 P_Conv P_Conv2 P_Conv3 P_Conv4 P_Conv5 Examples5.
Import ListNotations.
Local Open Scope R_scope.

(** Countably many finite sets leave a point of every interval free. *)
Lemma finite_max (L : list R) : forall P : R -> Prop, (forall x, P x -> In x L) -> (exists x, P x) -> exists m, P m /\ forall y, P y -> y <= m.
Proof.
  induction L as [|a L IH]; intros P HL (x & Hx); [destruct (HL x Hx)|].
  destruct (classic (exists y, P y /\ y <> a)) as [(y & Hy & Hya)|N].
  - destruct (IH (fun z => P z /\ z <> a)) as (m & (Hm & _) & HM). { intros z (Hz & Hne). destruct (HL z Hz) as [E|]; [congruence|assumption]. } { exists y. auto. }
    destruct (classic (P a)) as [Pa|Na].
    + destruct (Rle_dec a m) as [Ha|Ha]; [exists m|exists a]; (split; [assumption|]); intros z Hz; destruct (Req_dec z a) as [->|Hne]; try lra; pose proof (HM z (conj Hz Hne)); lra.
    + exists m. split; [exact Hm|]. intros z Hz. apply HM. split; [exact Hz|]. intros ->. auto.
  - exists x. split; [exact Hx|]. intros y Hy. assert (forall z, P z -> z = a) as E by (intros z Hz; apply NNPP; intros H; apply N; eauto). rewrite (E x Hx), (E y Hy). lra.
Qed.
Definition below (P : R -> Prop) (c : R) : R := real (Lub_Rbar (fun x => P x /\ x < c)).
Fixpoint down (P : R -> Prop) (c : R) (k : nat) : R := match k with O => c | S k => down P (below P c) k end.
Lemma down_reaches (P : R -> Prop) x : P x -> forall n (L : list R) c, (length L <= n)%nat -> (forall y, P y -> y < c -> In y L) -> x < c -> exists k, down P c k = x.
Proof.
  intros Px. induction n as [|n IH]; intros L c Hn HL Hc; [destruct L; [destruct (HL x Px Hc)|cbn in Hn; lia]|].
  destruct (finite_max L (fun y => P y /\ y < c)) as (m & (Hm & Hmc) & HM); [intros y []; auto|eauto|].
  assert (E : below P c = m).
  { unfold below. rewrite (is_lub_Rbar_unique _ (Finite m)); [reflexivity|]. split; [intros y Hy; apply HM; exact Hy|]. intros b Hb. apply (Hb m). auto. }
  destruct (Req_dec x m) as [->|Hne]; [exists 1%nat; exact E|]. pose proof (HM x (conj Px Hc)).
  destruct (IH (remove Req_EM_T m L) m) as (k & Hk).
  - pose proof (remove_length_lt Req_EM_T L m (HL m Hm Hmc)). lia.
  - intros y Py Hy. apply in_in_remove; [lra|]. apply HL; [exact Py|lra].
  - lra.
  - exists (S k). cbn. rewrite E. exact Hk.
Qed.
Section Avoid.
  Variables (u : nat -> R) (a b : R).
  Hypothesis Hab : a < b.
  Fixpoint third (n : nat) : R * R := match n with O => (a, b) | S n => let '(l, r) := third n in if Rlt_dec (u n) ((l + r) / 2) then ((l + 2 * r) / 3, r) else (l, (2 * l + r) / 3) end.
  Lemma third_lt n : fst (third n) < snd (third n).
  Proof. induction n as [|n IH]; [exact Hab|]. cbn. destruct (third n) as [l r]. cbn in IH. destruct (Rlt_dec _ _); cbn; lra. Qed.
  Lemma third_step n : fst (third n) <= fst (third (S n)) /\ snd (third (S n)) <= snd (third n).
  Proof. pose proof (third_lt n) as H. cbn. destruct (third n) as [l r]. cbn in H. destruct (Rlt_dec _ _); cbn; lra. Qed.
  Lemma third_mono n k : fst (third n) <= fst (third (n + k)) /\ snd (third (n + k)) <= snd (third n).
  Proof. induction k as [|k IH]; [rewrite Nat.add_0_r; lra|]. rewrite Nat.add_succ_r. pose proof (third_step (n + k)). lra. Qed.
  Lemma third_cross n k : fst (third n) <= snd (third k).
  Proof. destruct (Nat.le_ge_cases n k) as [H|H]; [replace k with (n + (k - n))%nat by lia; pose proof (third_mono n (k - n)); pose proof (third_lt (n + (k - n)))|replace n with (k + (n - k))%nat by lia; pose proof (third_mono k (n - k)); pose proof (third_lt (k + (n - k)))]; lra. Qed.
  Lemma avoid_seq : exists x, a <= x <= b /\ forall n, u n <> x.
  Proof.
    destruct (completeness (fun x => exists n, x = fst (third n))) as (x & Hx1 & Hx2); [exists b; intros y (n & ->); exact (third_cross n 0)|exists a, 0%nat; reflexivity|].
    assert (Hin : forall n, fst (third n) <= x <= snd (third n)). { intros n. split; [apply Hx1; eauto|apply Hx2; intros y (k & ->); apply third_cross]. }
    exists x. split; [exact (Hin 0%nat)|]. intros n E. pose proof (Hin (S n)) as H. pose proof (third_lt n) as Hl. cbn in H. destruct (third n) as [l r]. cbn in Hl. destruct (Rlt_dec _ _); cbn in H; lra.
  Qed.
End Avoid.
Lemma avoid (P : nat -> R -> Prop) a b : a < b -> (forall n, exists L, forall x, P n x -> In x L) -> exists x, a < x < b /\ forall n, ~ P n x.
Proof.
  intros Hab HP. destruct (avoid_seq (fun k => let '(n, i) := Cantor.of_nat k in down (P n) b i) ((2 * a + b) / 3) ((a + 2 * b) / 3) ltac:(lra)) as (x & Hx & H). exists x. split; [lra|]. intros n Pn.
  destruct (HP n) as (L & HL). destruct (down_reaches (P n) x Pn (length L) L b (le_n _)) as (i & Hi); [auto|lra|]. apply (H (Cantor.to_nat (n, i))). rewrite Cantor.cancel_of_to. exact Hi.
Qed.

Lemma streams_half p n : half (at_streams p n) = n.
Proof. unfold half; cbn [p_NQuad at_streams]. rewrite Nat2Z.inj_mul, Z.mul_comm. change (Z.of_nat 2) with 2%Z. rewrite Z.div_mul by lia. apply Nat2Z.id. Qed.
Theorem suns_every p rho a b : 0 < p_I0 p -> a < b -> exists x, a < x < b /\ forall n lg la jk, lossy_input (at_sun (at_streams p n) x) rho ->
  leggauss_ok n (lg n) -> linalg_ok la -> linalg_unique la -> linalg_complete la -> linalg_total la -> exists out, pydisort (at_sun (at_streams p n) x) lg la jk = Ok out.
Proof.
  intros HI Hab. destruct (avoid (fun n x => lossy_input (at_sun (at_streams p n) x) rho /\ exists lg la jk, leggauss_ok n (lg n) /\ linalg_ok la /\ linalg_unique la /\ linalg_complete la /\ linalg_total la /\ ~ exists out, pydisort (at_sun (at_streams p n) x) lg la jk = Ok out) a b Hab) as (x & Hx & H).
  - intros n. destruct (lossy_suns (at_streams p n) rho HI) as (L & _ & E). exists L. intros x (LO & lg & la & jk & H1 & H2 & H3 & H4 & H5 & Hno). rewrite <- (streams_half p n) in H1 at 1. specialize (E x lg la jk LO). rewrite (streams_half p n) in E, H1. rewrite E in Hno by auto. apply NNPP. exact Hno.
  - exists x. split; [exact Hx|]. intros n lg la jk LO H1 H2 H3 H4 H5. apply NNPP. intros Hno. apply (H n). split; [exact LO|]. exists lg, la, jk. auto 10.
Qed.

(** Two scattering layers over a reflecting surface under a beam with the cosine [x], and thermal
    emission; two coefficients, two azimuthal modes and [2 n] streams. *)
Definition p_sl : py_in := {|
  p_tau := [1; 3]; p_omega := [1/2; 9/10]; p_NQuad := 4;
  p_Leg := mkA2 2 2 (fun l k => match k with O => 1 | _ => match l with O => 1/3 | _ => -1/5 end end);
  p_mu0 := 1/2; p_I0 := 1; p_phi0 := 1; p_NLeg := Some 2%Z; p_NFourier := Some 2%Z;
  p_bpos := t0 1; p_bneg := t0 0; p_only_flux := false; p_f := [1/10; 0]; p_NT := false;
  p_BDRF := [MScal (1/2)]; p_s := mkA2 2 1 (fun _ _ => 3); p_banded := 10; p_autograd := false |}.
Definition p_sun (n : nat) (x : R) : py_in := at_sun (at_streams p_sl n) x.
Section Sun.
  Variables (n : nat) (x : R).
  Hypothesis Hn : (2 <= n)%nat.
  Hypothesis Hx : 0 < x < 1.
  Let p := p_sun n x.
  Lemma sl_half : half p = n. Proof. exact (streams_half p_sl n). Qed.
  Lemma sl_sizes : ncoeffs p = 2%nat /\ nmodes p = 2%nat /\ streams p = (2 * n)%nat.
  Proof. unfold ncoeffs, nmodes, streams, p, p_sun, at_sun, at_streams, p_sl; cbn [p_NLeg p_NFourier p_NQuad p_only_flux]. rewrite Nat2Z.id. auto. Qed.
  Lemma sl_valid : valid p.
  Proof.
    constructor; cbn -[Rlt Rle PI pow Z.mul Z.of_nat Z.modulo Z.div Nat.mul].
    - lia.
    - intros [|[|l]] Hl; cbn; [lra|lra|lia].
    - intros [|[|l]] Hl; cbn; [lra|lra|lia].
    - intros w [<-|[<-|[]]]; lra.
    - lia.
    - reflexivity.
    - reflexivity.
    - reflexivity.
    - reflexivity.
    - intros [|[|l]] k Hl Hk; [| |lia]; destruct k as [|k]; try lia; lra.
    - lia.
    - rewrite Nat2Z.inj_mul, Z.mul_comm. change (Z.of_nat 2) with 2%Z. apply Z_mod_mult.
    - unfold NFourierZ, NLegZ; cbn. lia.
    - unfold NLegZ; cbn -[Z.of_nat Nat.mul]. lia.
    - lra.
    - intros H. lra.
    - intros H. pose proof PI_RGT_0. pose proof PI2_1. lra.
    - right; left; reflexivity.
    - right; left; reflexivity.
    - intros f [<-|[<-|[]]]; lra.
    - lia.
  Qed.
  Lemma sl_wf : well_formed p rho12.
  Proof.
    constructor.
    - apply sl_valid.
    - exists (fun _ => 1). apply bc_scal; auto.
    - exists (fun _ => 0). apply bc_scal; auto.
    - intros [|m] Hm; [|cbn in Hm; lia]. left. exists (1/2). auto.
    - intros _. right. reflexivity.
    - intros _. left. cbn. lra.
    - intros H. discriminate.
  Qed.
  Lemma sl_bd mu : boundary_data p (fun i => (fun _ : R => 0) (nth i mu 0)) (fun i => (fun _ : R => 1) (nth i mu 0)) rho12.
  Proof.
    constructor.
    - apply bc_scal; auto.
    - apply bc_scal; auto.
    - intros [|m] Hm; [|cbn in Hm; lia]. left. exists (1/2). auto.
    - left. split; intros idx _; cbn; lra.
  Qed.
  Lemma sl_lossy : lossy_input p rho12.
  Proof.
    apply enough_lossy; [apply sl_wf| |].
    - destruct sl_sizes as (-> & _ & ->). lia.
    - intros mu w HD. apply (lambert_gain _ mu w rho12 (1/2)); [apply sl_valid|exact HD|cbn; lia|lra|reflexivity].
  Qed.
  Lemma sl_modes : all_modes p.
  Proof.
    constructor.
    - intros H. destruct H as (H & _). discriminate.
    - destruct sl_sizes as (-> & -> & _). reflexivity.
    - destruct sl_sizes as (_ & -> & _). cbn. lia.
    - intros l k Hl Hk. rewrite (proj1 sl_sizes) in Hk. right. cbn in Hl. destruct l as [|[|l]]; [| |lia]; (destruct k as [|[|k]]; [| |lia]); unfold albedo_s, wphase_s, phase_s, scl, albedo, fwd, phase; cbn -[Rlt Rabs];
      match goal with |- _ < Rabs ?z => first [assert (H : 0 < z) by lra; rewrite (Rabs_pos_eq z); lra|assert (H : z < 0) by lra; rewrite (Rabs_left z H); lra] end.
  Qed.
  Lemma sl_fwd l : (l < nlayers p)%nat -> fwd p l < 1.
  Proof. cbn. intros Hl. destruct l as [|[|l]]; [| |lia]; unfold fwd; cbn; lra. Qed.
  Lemma sl_positive : phase_positive p.
  Proof.
    intros l c Hl _ Hc. cbn in Hl. unfold phase_at. rewrite (proj1 sl_sizes). cbn [rsum INR]. rewrite legendre_0, legendre_1.
    destruct l as [|[|l]]; [| |lia]; unfold phase_s, fwd, phase; cbn -[Rle Rlt]; lra.
  Qed.
  Lemma sl_surface : absorbing_surface p rho12 (1/2).
  Proof.
    constructor.
    - intros m _. apply ucont2_const.
    - intros y a z b _ _. unfold surface_at. cbn. unfold rho12. rewrite Rmult_0_l, cos_0. lra.
    - lra.
    - intros y Hy _. apply cv_surface, Hy.
  Qed.
End Sun.
Lemma sl_same n m x : same_problem (p_sun n x) (p_sun m x). Proof. constructor; reflexivity. Qed.
Lemma sl_solved : exists x, 1/4 < x < 3/4 /\ forall n jk, (2 <= n)%nat -> exists out, pydisort (p_sun n x) gauss_rule la_full jk = Ok out.
Proof.
  destruct (suns_every p_sl rho12 (1/4) (3/4)) as (x & Hx & H); [cbn; lra|lra|]. exists x. split; [exact Hx|]. intros n jk Hn.
  apply H; [apply (sl_lossy n x Hn); lra|apply gauss_rule_ok|exact la_full_ok|exact la_full_unique|exact la_full_complete|exact la_full_total].
Qed.
