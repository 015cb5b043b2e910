(** An atmosphere that loses has no radiation without sources: the squared intensity, weighted as in
    the flux, is not negative at the top, grows with depth, and is not positive at the bottom. *)
From Coq Require Import Classical String Reals Lra Lia List Bool Arith ZArith.
From Coquelicot Require Import Coquelicot.
From Verif Require Import Base Tensor Spec M_LinAlg Spec_RTE Calc M_Subroutines M_GenPart M_MathscrV M_Coeffs M_Assemble M_Pydisort
  Spec_Sol Spec_Valid Spec_Calls Spec_Unique Spec_Phys Spec_Solved Spec_Rates Spec_Lossy P_Special P_Solve P_Energy P_Pydisort P_Pydisort2 P_Pydisort3 P_Pydisort4 P_Pydisort5 P_NT3 P_LinA P_Unique2 P_Refine P_Max P_Max2
  P_GenPart3 P_Spec1 P_Spec2 P_Spec3 P_Spec4 P_Spec5 P_Spec6 P_Sym.
Import ListNotations.
Local Open Scope R_scope.

Section Energy.
  Variables (p : py_in) (V : valid p) (mu : list R) (w : nat -> R) (rho : nat -> R -> R -> R).
  Hypothesis Hdg : double_gauss (half p) mu w.
  Hypothesis HL : lossy p mu w rho.
  Let N := half p.
  Let NL := nlayers p.
  Variable m : nat.
  Hypothesis Hm : (m < nmodes p)%nat.
  Let HM := proj1 (proj2 Hdg).

  (** The loss of a field splits into those of its symmetric and its antisymmetric part. *)
  Let Kc (l : nat) (wg : vec) := D_spec (albedo_s p l) wg (ncoeffs p) m.
  Definition loss (l : nat) (wg : vec) (F : vec) : R :=
    rsum (2 * N) (fun i => wnode N w i * (F i * (F i - rsum (2 * N) (fun j => wnode N w j * Kc l wg (nth i mu 0) (nth j mu 0) * F j)))).
  Definition part (l : nat) (wg : vec) (s : R) (x : vec) : R :=
    rsum N (fun i => w i * (x i * (x i - rsum N (fun j => w j * ((Kc l wg (nth i mu 0) (nth j mu 0) + s * Kc l wg (nth i mu 0) (- nth j mu 0)) * x j))))).
  Lemma split2 (f : nat -> R) : rsum (2 * N) f = rsum N (fun i => f i + f (N + i)%nat).
  Proof. replace (2 * N)%nat with (N + N)%nat by lia. rewrite rsum_split, rsum_plus. reflexivity. Qed.
  Lemma wn_lo i : (i < N)%nat -> wnode N w i = w i.
  Proof. intros Hi. unfold wnode. rewrite (proj2 (Nat.ltb_lt i N)) by auto. reflexivity. Qed.
  Lemma wn_hi i : wnode N w (N + i)%nat = w i.
  Proof. unfold wnode. rewrite (proj2 (Nat.ltb_ge (N + i) N)) by lia. f_equal. lia. Qed.
  Lemma nu_hi i : (i < N)%nat -> nth (N + i) mu 0 = - nth i mu 0.
  Proof. intros Hi. apply (HM i Hi). Qed.
  Lemma loss_split l wg F : loss l wg F = / 2 * (part l wg 1 (fun i => F i + F (N + i)%nat) + part l wg (-1) (fun i => F i - F (N + i)%nat)).
  Proof.
    unfold loss, part. rewrite split2, <- rsum_plus, <- rsum_scal. apply rsum_ext. intros i Hi. rewrite wn_lo, wn_hi, nu_hi by auto.
    rewrite !split2.
    rewrite (rsum_ext N (fun j => wnode N w j * Kc l wg (nth i mu 0) (nth j mu 0) * F j + _) (fun j => w j * (Kc l wg (nth i mu 0) (nth j mu 0) * F j) + w j * (Kc l wg (nth i mu 0) (- nth j mu 0) * F (N + j)%nat)))
      by (intros j Hj; rewrite wn_lo, wn_hi, nu_hi by auto; ring).
    rewrite (rsum_ext N (fun j => wnode N w j * Kc l wg (- nth i mu 0) (nth j mu 0) * F j + _) (fun j => w j * (Kc l wg (nth i mu 0) (- nth j mu 0) * F j) + w j * (Kc l wg (nth i mu 0) (nth j mu 0) * F (N + j)%nat)))
      by (intros j Hj; rewrite wn_lo, wn_hi, nu_hi by auto; unfold Kc; rewrite D_spec_negneg, D_spec_neg; ring).
    rewrite (rsum_ext N (fun j => w j * ((Kc l wg (nth i mu 0) (nth j mu 0) + 1 * Kc l wg (nth i mu 0) (- nth j mu 0)) * (F j + F (N + j)%nat)))
      (fun j => w j * (Kc l wg (nth i mu 0) (nth j mu 0) * F j) + w j * (Kc l wg (nth i mu 0) (- nth j mu 0) * F (N + j)%nat) + (w j * (Kc l wg (nth i mu 0) (- nth j mu 0) * F j) + w j * (Kc l wg (nth i mu 0) (nth j mu 0) * F (N + j)%nat)))) by (intros; ring).
    rewrite (rsum_ext N (fun j => w j * ((Kc l wg (nth i mu 0) (nth j mu 0) + -1 * Kc l wg (nth i mu 0) (- nth j mu 0)) * (F j - F (N + j)%nat)))
      (fun j => w j * (Kc l wg (nth i mu 0) (nth j mu 0) * F j) + w j * (Kc l wg (nth i mu 0) (- nth j mu 0) * F (N + j)%nat) - (w j * (Kc l wg (nth i mu 0) (- nth j mu 0) * F j) + w j * (Kc l wg (nth i mu 0) (nth j mu 0) * F (N + j)%nat)))) by (intros; ring).
    rewrite rsum_minus, !rsum_plus. field.
  Qed.
  Lemma part_pos l wg s x : (l < NL)%nat -> is_cutoff (albedo_s p l) (wphase_s p l) (ncoeffs p) m wg -> s = 1 \/ s = -1 -> nonzero N x -> 0 < part l wg s x.
  Proof.
    intros Hl (C1 & C2) Hs Hx. destruct (classic (negligible (albedo_s p l) (wphase_s p l) (ncoeffs p) m)) as [Hn|Hn].
    - assert (E : part l wg s x = rsum N (fun i => w i * (x i * x i))).
      { apply rsum_ext. intros i Hi. f_equal. f_equal. rewrite rsum_0; [ring|]. intros j Hj. unfold Kc. rewrite !D_spec_0 by (intros; apply C1; exact Hn). ring. }
      rewrite E. assert (P : forall i, (i < N)%nat -> 0 <= w i * (x i * x i)) by (intros i Hi; destruct (HM i Hi) as (_ & _ & Hw); apply Rmult_le_pos; [lra|nra]).
      destruct (Rle_lt_dec (rsum N (fun i => w i * (x i * x i))) 0) as [H0|]; [|assumption]. exfalso. destruct Hx as (i & Hi & Hx). apply Hx.
      assert (Z : w i * (x i * x i) = 0) by (apply (rsum_zero_nonneg N (fun i => w i * (x i * x i)) P); [apply Rle_antisym; [exact H0|apply rsum_nonneg; exact P]|exact Hi]).
      destruct (HM i Hi) as (_ & _ & Hw). apply Rmult_integral in Z as [Z|Z]; [lra|]. apply Rmult_integral in Z. tauto.
    - refine (Rlt_le_trans _ _ _ (lo_layers p mu w rho HL m l s Hm Hl Hn Hs x Hx) (Req_le _ _ _)). unfold part, net_loss. cbv zeta. fold N. apply rsum_ext. intros i Hi. do 3 f_equal.
      apply rsum_ext. intros j Hj. unfold Kc. rewrite !(D_spec_lt (albedo_s p l) wg (wphase_s p l)) by (intros; apply C2; exact Hn). reflexivity.
  Qed.
  Lemma part_0 l wg s x : (forall i, (i < N)%nat -> x i = 0) -> part l wg s x = 0.
  Proof. intros H. apply rsum_0. intros i Hi. rewrite (H i Hi). ring. Qed.
  Lemma loss_nonneg l wg F : (l < NL)%nat -> is_cutoff (albedo_s p l) (wphase_s p l) (ncoeffs p) m wg -> 0 <= loss l wg F /\ (loss l wg F = 0 -> forall i, (i < 2 * N)%nat -> F i = 0).
  Proof.
    intros Hl Hc. rewrite loss_split. set (x := fun i => F i + F (N + i)%nat). set (y := fun i => F i - F (N + i)%nat).
    assert (P : forall s z, s = 1 \/ s = -1 -> 0 <= part l wg s z /\ (part l wg s z = 0 -> forall i, (i < N)%nat -> z i = 0)).
    { intros s z Hs. destruct (classic (nonzero N z)) as [Hz|Hz].
      - pose proof (part_pos l wg s z Hl Hc Hs Hz). split; [lra|]. lra.
      - assert (Z : forall i, (i < N)%nat -> z i = 0) by (intros i Hi; apply NNPP; intros Hne; apply Hz; exists i; auto). split; [rewrite part_0 by exact Z; lra|intros _; exact Z]. }
    destruct (P 1 x ltac:(auto)) as (P1 & P2). destruct (P (-1) y ltac:(auto)) as (P3 & P4). split; [lra|]. intros E i Hi.
    specialize (P2 ltac:(lra)). specialize (P4 ltac:(lra)). unfold x, y in *.
    destruct (Nat.lt_ge_cases i N) as [H|H]; [specialize (P2 i H); specialize (P4 i H); lra|]. specialize (P2 (i - N)%nat ltac:(lia)). specialize (P4 (i - N)%nat ltac:(lia)). replace (N + (i - N))%nat with i in * by lia. lra.
  Qed.

  Variable F : nat -> R -> R.
  Hypothesis HF : free p mu w m (Rmat p mu w rho m) F.
  Definition En (t : R) : R := rsum (2 * N) (fun i => wnode N w i * nth i mu 0 * (F i t * F i t)).
  Lemma En_cont : cont_on 0 (bottom p) En.
  Proof.
    assert (Hb : 0 <= bottom p).
    { destruct (layer_in p V 0 (v_ne p V)) as (A & B). pose proof (v_inc p V 0%nat (v_ne p V)). change (top_of p 0 < bot_of p 0) in H. lra. }
    apply cont_on_sum. intros i Hi. apply cont_on_scal. apply cont_on_mult; [exact Hb| |]; apply HF; exact Hi.
  Qed.
  Lemma En_der l t : (l < NL)%nat -> top_of p l < t < bot_of p l -> exists wg, is_cutoff (albedo_s p l) (wphase_s p l) (ncoeffs p) m wg /\ is_derive En t (2 * scl p l * loss l wg (fun i => F i t)).
  Proof.
    intros Hl Ht. destruct (cutoff_ex (albedo_s p l) (wphase_s p l) (ncoeffs p) m) as (wg & Hc). exists wg. split; [exact Hc|].
    assert (D : forall i, (i < 2 * N)%nat -> is_derive (F i) t (scl p l * (F i t - rsum (2 * N) (fun j => wnode N w j * Kc l wg (nth i mu 0) (nth j mu 0) * F j t)) / nth i mu 0)).
    { intros i Hi. destruct HF as (_ & H2 & _). destruct (H2 l i t Hl Hi Ht) as (wg' & Hc' & HD). refine (der_eq _ _ _ _ _ HD). unfold Rdiv. do 3 f_equal. apply rsum_ext. intros j Hj. f_equal. f_equal.
      destruct Hc as (A1 & A2), Hc' as (B1 & B2). unfold Kc. apply D_spec_lt. intros k Hk. destruct (classic (negligible (albedo_s p l) (wphase_s p l) (ncoeffs p) m)) as [Hn|Hn]; [rewrite A1, B1 by auto; reflexivity|rewrite A2, B2 by auto; reflexivity]. }
    unfold En, loss. refine (der_eq _ _ _ _ _ (der_sum (2 * N) _ t _ (fun i Hi => der_scal _ (wnode N w i * nth i mu 0) _ _ (der_mult _ _ _ _ _ (D i Hi) (D i Hi))))).
    rewrite <- rsum_scal. apply rsum_ext. intros i Hi. pose proof (nu_ne p mu w Hdg i Hi). field. assumption.
  Qed.
  Lemma En_mono l x y : (l < NL)%nat -> top_of p l <= x -> x <= y -> y <= bot_of p l -> En x <= En y.
  Proof.
    intros Hl Hx Hxy Hy. destruct (Rle_lt_or_eq_dec _ _ Hxy) as [Hlt| ->]; [|lra]. destruct (layer_in p V l Hl) as (B0 & B1).
    assert (D : forall t, x < t < y -> exists d, 0 <= d /\ is_derive En t d).
    { intros t Ht. destruct (En_der l t Hl ltac:(lra)) as (wg & Hc & HD). eexists. split; [|exact HD]. pose proof (scl_pos p V l Hl). destruct (loss_nonneg l wg (fun i => F i t) Hl Hc) as (Hq & _). apply Rmult_le_pos; lra. }
    assert (D' : forall t, x < t < y -> is_derive En t (Derive En t)).
    { intros t Ht. destruct (D t Ht) as (d & _ & Hd). apply Derive_correct. exists d. exact Hd. }
    destruct (cont_mvt x y En (Derive En) Hlt (cont_on_sub 0 (bottom p) x y En ltac:(lra) ltac:(lra) En_cont) D') as (c & Hc & E).
    destruct (D c Hc) as (d & Hd & HD). rewrite (is_derive_unique _ _ _ HD) in E. nra.
  Qed.
  Lemma En_top l : (l < NL)%nat -> En 0 <= En (top_of p l).
  Proof.
    induction l as [|l IH]; intros Hl; [cbn [top_of]; lra|]. apply Rle_trans with (1 := IH ltac:(lia)). change (top_of p (S l)) with (bot_of p l).
    pose proof (v_inc p V l ltac:(unfold NL, nlayers in *; lia)) as H. change (top_of p l < bot_of p l) in H. apply (En_mono l); [lia|lra|lra|lra].
  Qed.
  Lemma En_bot k : forall l, (l + k = NL - 1)%nat -> (l < NL)%nat -> En (bot_of p l) <= En (bottom p).
  Proof.
    induction k as [|k IH]; intros l E Hl.
    - rewrite (bottom_eq p). replace (nlayers p - 1)%nat with l by (unfold NL in *; lia). lra.
    - apply Rle_trans with (2 := IH (S l) ltac:(lia) ltac:(lia)).
      pose proof (v_inc p V (S l) ltac:(unfold NL, nlayers in *; lia)) as H. change (bot_of p l < bot_of p (S l)) in H. apply (En_mono (S l)); [lia|change (top_of p (S l)) with (bot_of p l); lra|lra|lra].
  Qed.
  Lemma En_split t : En t = rsum N (fun i => w i * nth i mu 0 * F i t ^ 2) - rsum N (fun i => w i * nth i mu 0 * F (N + i)%nat t ^ 2).
  Proof. unfold En. rewrite split2, <- rsum_minus. apply rsum_ext. intros i Hi. rewrite wn_lo, wn_hi, nu_hi by auto. ring. Qed.
  Lemma En_0 : 0 <= En 0.
  Proof.
    rewrite En_split. destruct HF as (_ & _ & H3 & _). rewrite (rsum_0 N (fun i => w i * nth i mu 0 * F (N + i)%nat 0 ^ 2)) by (intros i Hi; rewrite H3 by auto; ring).
    rewrite Rminus_0_r. apply rsum_nonneg. intros i Hi. destruct (HM i Hi) as (Hmu & _ & Hw). apply Rmult_le_pos; [apply Rmult_le_pos; lra|apply pow2_ge_0].
  Qed.
  Lemma En_bottom : En (bottom p) <= 0.
  Proof.
    rewrite En_split. destruct HF as (_ & _ & _ & H4). pose proof (lo_surface p mu w rho HL m (fun i => F (N + i)%nat (bottom p)) Hm) as S. fold N in S. cbn beta in S.
    rewrite (rsum_ext N (fun i => w i * nth i mu 0 * F i (bottom p) ^ 2) (fun i => w i * nth i mu 0 * reflected p mu w rho m (fun i => F (N + i)%nat (bottom p)) i ^ 2)); [lra|].
    intros i Hi. rewrite H4 by auto. f_equal. f_equal. unfold Rmat, reflected. fold N. destruct (Nat.ltb m (length (p_BDRF p))).
    - rewrite <- rsum_scal. apply rsum_ext. intros j Hj. ring.
    - apply rsum_0. intros; ring.
  Qed.
  Lemma En_layer l t : (l < NL)%nat -> top_of p l <= t <= bot_of p l -> En t = 0.
  Proof.
    intros Hl Ht. pose proof (En_top l Hl). pose proof (En_bot (NL - 1 - l) l ltac:(lia) Hl). pose proof En_0. pose proof En_bottom.
    pose proof (En_mono l (top_of p l) t Hl ltac:(lra) ltac:(lra) ltac:(lra)). pose proof (En_mono l t (bot_of p l) Hl ltac:(lra) ltac:(lra) ltac:(lra)). lra.
  Qed.
  Lemma F_inside l t : (l < NL)%nat -> top_of p l < t < bot_of p l -> forall i, (i < 2 * N)%nat -> F i t = 0.
  Proof.
    intros Hl Ht. destruct (En_der l t Hl Ht) as (wg & Hc & HD).
    assert (H0 : is_derive En t 0).
    { apply (der_ext_loc (fun _ => 0) En t 0 (top_of p l) (bot_of p l) Ht); [|apply der_const]. intros y Hy. symmetry. apply (En_layer l); auto. lra. }
    apply is_derive_unique in H0. apply is_derive_unique in HD. rewrite H0 in HD. pose proof (scl_pos p V l Hl) as Hs.
    apply (proj2 (loss_nonneg l wg (fun i => F i t) Hl Hc)). symmetry in HD. apply Rmult_integral in HD as [HD|HD]; [lra|exact HD].
  Qed.
  Lemma F_layer l t : (l < NL)%nat -> top_of p l <= t <= bot_of p l -> forall i, (i < 2 * N)%nat -> F i t = 0.
  Proof.
    intros Hl Ht i Hi. destruct (layer_in p V l Hl) as (B0 & B1). pose proof (v_inc p V l Hl) as H. change (top_of p l < bot_of p l) in H.
    refine (cont_on_eq (top_of p l) (bot_of p l) (F i) (fun _ => 0) H (cont_on_sub 0 (bottom p) _ _ _ B0 B1 (proj1 HF i Hi)) (cont_on_const _ _ 0) _ t Ht).
    intros y Hy. apply (F_inside l); auto.
  Qed.
  Theorem lossy_zero i t : (i < 2 * N)%nat -> 0 <= t <= bottom p -> F i t = 0.
  Proof.
    intros Hi Ht.
    assert (X : forall k, (k < NL)%nat -> 0 <= t <= bot_of p k -> exists l, (l < NL)%nat /\ top_of p l <= t <= bot_of p l).
    { induction k as [|k IH]; intros Hk Hx; [exists 0%nat; split; [lia|exact Hx]|]. destruct (Rle_lt_dec t (bot_of p k)) as [H|H]; [apply IH; [lia|lra]|].
      exists (S k). split; [exact Hk|]. change (top_of p (S k)) with (bot_of p k). lra. }
    pose proof (v_ne p V) as Hne. change (1 <= NL)%nat in Hne. destruct (X (NL - 1)%nat ltac:(lia)) as (l & Hl & Hx); [rewrite (bottom_eq p) in Ht; exact Ht|].
    exact (F_layer l t Hl Hx i Hi).
  Qed.
End Energy.

Lemma lossy_core p mu w rho : valid p -> double_gauss (half p) mu w -> lossy p mu w rho -> core p mu w rho.
Proof. intros V HD HL. split; [exact (lo_layers p mu w rho HL)|]. intros m F Hm HF. exact (lossy_zero p V mu w rho HD HL m Hm F HF). Qed.
