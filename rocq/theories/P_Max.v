(** A minimum principle for the discretised transfer equation. *)
From Coq Require Import Classical String Reals Lra Lia List Bool Arith ZArith.
From Coquelicot Require Import Coquelicot.
From Verif Require Import Base Tensor Spec M_LinAlg Spec_RTE Calc M_Subroutines M_GenPart M_MathscrV M_Coeffs M_Assemble M_Pydisort
  Spec_Sol Spec_Valid P_Pydisort P_Pydisort2 P_Pydisort3 P_Pydisort4 P_Pydisort5 P_NT3.
Import ListNotations.
Local Open Scope R_scope.

(** Functions continuous on a closed interval, extended by constants. *)
Definition clamp (a b : R) (f : R -> R) (t : R) : R := f (Rmax a (Rmin b t)).
Lemma clamp_in a b f t : a <= t <= b -> clamp a b f t = f t.
Proof. intros H. unfold clamp. rewrite Rmin_right, Rmax_right; [reflexivity|lra|lra]. Qed.
Lemma clamp_dist a b x y : Rabs (Rmax a (Rmin b y) - Rmax a (Rmin b x)) <= Rabs (y - x).
Proof. unfold Rmax, Rmin. repeat destruct (Rle_dec _ _); unfold Rabs; repeat destruct (Rcase_abs _); lra. Qed.
Lemma clamp_range a b t : a <= b -> a <= Rmax a (Rmin b t) <= b.
Proof. intros H. unfold Rmax, Rmin. repeat destruct (Rle_dec _ _); lra. Qed.
Lemma clamp_cont a b f : a <= b -> cont_on a b f -> forall x, continuity_pt (clamp a b f) x.
Proof.
  intros H C x eps He. destruct (C (Rmax a (Rmin b x)) (clamp_range a b x H) eps He) as (d & Hd & Hc).
  exists d. split; [exact Hd|]. intros y (_ & Hy). unfold dist in *. cbn in *. unfold R_dist in *. unfold clamp. apply Hc; [apply clamp_range; auto|].
  pose proof (clamp_dist a b x y). lra.
Qed.
Lemma cont_min a b f : a <= b -> cont_on a b f -> exists t0, a <= t0 <= b /\ forall t, a <= t <= b -> f t0 <= f t.
Proof.
  intros H C. destruct (continuity_ab_min (clamp a b f) a b H) as (t0 & Hm & Ht0); [intros; apply clamp_cont; auto|].
  exists t0. split; [exact Ht0|]. intros t Ht. specialize (Hm t Ht). rewrite !clamp_in in Hm by auto. exact Hm.
Qed.
Lemma cont_mvt a b f (d : R -> R) : a < b -> cont_on a b f -> (forall t, a < t < b -> is_derive f t (d t)) -> exists c, a < c < b /\ f b - f a = d c * (b - a).
Proof.
  intros H C D.
  assert (Hd : forall c, a < c < b -> derivable_pt (clamp a b f) c).
  { intros c Hc. exists (d c). apply is_derive_Reals. apply (der_ext_loc f _ c _ a b); [lra| |apply D; auto]. intros y Hy. symmetry. apply clamp_in. lra. }
  assert (Hi : forall c, a < c < b -> derivable_pt id c) by (intros; apply derivable_pt_id).
  destruct (MVT (clamp a b f) id a b Hd Hi H) as (c & Hc & E).
  - intros c Hc. apply clamp_cont; [lra|auto].
  - intros c Hc. apply derivable_continuous_pt, derivable_pt_id.
  - exists c. split; [exact Hc|]. rewrite !clamp_in in E by lra. unfold id in E. 
    assert (E1 : derive_pt (clamp a b f) c (Hd c Hc) = d c).
    { apply derive_pt_eq_0. apply is_derive_Reals. apply (der_ext_loc f _ c _ a b); [lra| |apply D; auto]. intros y Hy. symmetry. apply clamp_in. lra. }
    assert (E2 : derive_pt (fun x => x) c (Hi c Hc) = 1) by (apply derive_pt_eq_0; apply derivable_pt_lim_id).
    rewrite E1 in E. unfold id in E2. rewrite E2 in E. lra.
Qed.

(** The minimum of finitely many functions. *)
Lemma family_min a b n (V : nat -> R -> R) : (0 < n)%nat -> a <= b -> (forall i, (i < n)%nat -> cont_on a b (V i)) ->
  exists i0 t0, (i0 < n)%nat /\ a <= t0 <= b /\ forall i t, (i < n)%nat -> a <= t <= b -> V i0 t0 <= V i t.
Proof.
  intros Hn H. induction n as [|n IH]; [lia|]. intros C. destruct (cont_min a b (V n) H (C n ltac:(lia))) as (t1 & Ht1 & H1).
  destruct n as [|n].
  - exists 0%nat, t1. split; [lia|]. split; [exact Ht1|]. intros [|i] t Hi Ht; [auto|lia].
  - destruct IH as (i0 & t0 & Hi0 & Ht0 & H0); [lia|intros; apply C; lia|].
    destruct (Rle_lt_dec (V i0 t0) (V (S n) t1)) as [Hle|Hlt].
    + exists i0, t0. split; [lia|]. split; [exact Ht0|]. intros i t Hi Ht. destruct (Nat.eq_dec i (S n)) as [->|]; [apply Rle_trans with (1:=Hle); auto|apply H0; auto; lia].
    + exists (S n), t1. split; [lia|]. split; [exact Ht1|]. intros i t Hi Ht. destruct (Nat.eq_dec i (S n)) as [->|]; [auto|]. left. apply Rlt_le_trans with (1:=Hlt). apply H0; auto; lia.
Qed.

(** A downward intensity cannot reach the minimum [-M] at the lower end of an interval, an upward
    one not at the upper end. *)
Lemma no_min_down lo hi t0 f M nu s k : lo < t0 <= hi -> cont_on lo hi f -> 0 < M -> nu < 0 -> 0 < s -> k < 1 ->
  (forall t, lo <= t <= hi -> - M <= f t) -> f t0 = - M ->
  (forall t, lo < t < hi -> exists d, is_derive f t d /\ nu * d <= s * (f t + k * M)) -> False.
Proof.
  intros Ht C HM Hnu Hs Hk Hmin E D.
  destruct (C t0 ltac:(lra) ((1 - k) * M)) as (e & He & Hc); [apply Rmult_lt_0_compat; lra|].
  set (x := Rmax ((lo + t0) / 2) (t0 - e / 2)).
  assert (Hx : lo < x < t0 /\ t0 - e < x) by (unfold x, Rmax; destruct (Rle_dec _ _); lra).
  assert (Cx : cont_on x t0 f) by (apply (cont_on_sub lo hi); [lra|lra|exact C]).
  destruct (cont_mvt x t0 f (Derive f) ltac:(lra) Cx) as (c & Hcx & Em).
  - intros t Htx. destruct (D t ltac:(lra)) as (d & Hd & _). apply Derive_correct. eexists; exact Hd.
  - destruct (D c ltac:(lra)) as (d & Hd & Hle). rewrite (is_derive_unique _ _ _ Hd) in Em.
    assert (Hf : f c - f t0 < (1 - k) * M).
    { apply Rle_lt_trans with (1 := Rle_abs _). apply Hc; [lra|]. rewrite Rabs_left by lra. lra. }
    rewrite E in Hf, Em. assert (Hneg : s * (f c + k * M) < 0) by nra. assert (Hdp : 0 < d) by nra.
    pose proof (Hmin x ltac:(lra)). assert (0 < d * (t0 - x)) by (apply Rmult_lt_0_compat; lra). lra.
Qed.
Lemma no_min_up lo hi t0 f M nu s k : lo <= t0 < hi -> cont_on lo hi f -> 0 < M -> 0 < nu -> 0 < s -> k < 1 ->
  (forall t, lo <= t <= hi -> - M <= f t) -> f t0 = - M ->
  (forall t, lo < t < hi -> exists d, is_derive f t d /\ nu * d <= s * (f t + k * M)) -> False.
Proof.
  intros Ht C HM Hnu Hs Hk Hmin E D.
  destruct (C t0 ltac:(lra) ((1 - k) * M)) as (e & He & Hc); [apply Rmult_lt_0_compat; lra|].
  set (x := Rmin ((t0 + hi) / 2) (t0 + e / 2)).
  assert (Hx : t0 < x < hi /\ x < t0 + e) by (unfold x, Rmin; destruct (Rle_dec _ _); lra).
  assert (Cx : cont_on t0 x f) by (apply (cont_on_sub lo hi); [lra|lra|exact C]).
  destruct (cont_mvt t0 x f (Derive f) ltac:(lra) Cx) as (c & Hcx & Em).
  - intros t Htx. destruct (D t ltac:(lra)) as (d & Hd & _). apply Derive_correct. eexists; exact Hd.
  - destruct (D c ltac:(lra)) as (d & Hd & Hle). rewrite (is_derive_unique _ _ _ Hd) in Em.
    assert (Hf : f c - f t0 < (1 - k) * M).
    { apply Rle_lt_trans with (1 := Rle_abs _). apply Hc; [lra|]. rewrite Rabs_right by lra. lra. }
    rewrite E in Hf, Em. assert (Hneg : s * (f c + k * M) < 0) by nra. assert (Hdp : d < 0) by nra.
    pose proof (Hmin x ltac:(lra)). assert (d * (x - t0) < 0) by nra. lra.
Qed.

Section Min.
  Variables (p : py_in) (V : valid p) (mu : list R) (w : nat -> R).
  Hypothesis Hdg : double_gauss (half p) mu w.
  Let N := half p.
  Variables (F : nat -> R -> R) (M : R) (k : nat -> R).
  Hypothesis HM : 0 < M.
  Hypothesis Hk : forall l, (l < nlayers p)%nat -> k l < 1.
  Hypothesis Fc : forall i, (i < 2 * N)%nat -> cont_on 0 (bottom p) (F i).
  Hypothesis Fmin : forall i t, (i < 2 * N)%nat -> 0 <= t <= bottom p -> - M <= F i t.
  Hypothesis Fd : forall l i t, (l < nlayers p)%nat -> (i < 2 * N)%nat -> top_of p l < t < bot_of p l ->
    exists d, is_derive (F i) t d /\ nth i mu 0 * d <= scl p l * (F i t + k l * M).
  Hypothesis Ftop : forall i, (i < N)%nat -> - M < F (N + i)%nat 0.
  Hypothesis Fbot : forall i, (i < N)%nat -> F i (bottom p) = - M -> exists j, (j < N)%nat /\ F (N + j)%nat (bottom p) = - M.

  Lemma layer_in l : (l < nlayers p)%nat -> 0 <= top_of p l /\ bot_of p l <= bottom p.
  Proof.
    intros Hl. split.
    - destruct l; [cbn; lra|]. apply Rlt_le, (v_tau p V). lia.
    - rewrite (bottom_eq p). apply (bots_mono p V); unfold nlayers in *; lia.
  Qed.
  Lemma down_above i t : (i < N)%nat -> 0 <= t <= bottom p -> - M < F (N + i)%nat t.
  Proof.
    intros Hi Ht. destruct (Rle_lt_dec (F (N + i)%nat t) (- M)) as [Hle|]; [exfalso|assumption].
    assert (E : F (N + i)%nat t = - M) by (apply Rle_antisym; [exact Hle|apply Fmin; [lia|exact Ht]]).
    destruct (layer_at_ex p V t Ht) as (l & Hl & [Hlt|(-> & ->)]); [|pose proof (Ftop i Hi); lra].
    destruct (layer_in l Hl) as (H0 & H1). destruct Hdg as (_ & Hmu & _). destruct (Hmu i Hi) as (Hp & Hn & _).
    refine (no_min_down (top_of p l) (bot_of p l) t (F (N + i)%nat) M (nth (N + i) mu 0) (scl p l) (k l) Hlt _ HM _ _ (Hk l Hl) _ E _).
    - apply (cont_on_sub 0 (bottom p)); auto. apply Fc. lia.
    - unfold N. rewrite Hn. lra.
    - apply (scl_pos p V l Hl).
    - intros x Hx. apply Fmin; [lia|lra].
    - intros x Hx. apply Fd; auto. lia.
  Qed.
  Theorem all_above i t : (i < 2 * N)%nat -> 0 <= t <= bottom p -> - M < F i t.
  Proof.
    intros Hi Ht. destruct (Nat.lt_ge_cases i N) as [HiN|HiN].
    2:{ replace i with (N + (i - N))%nat by lia. apply down_above; [lia|exact Ht]. }
    destruct (Rle_lt_dec (F i t) (- M)) as [Hle|]; [exfalso|assumption].
    assert (E : F i t = - M) by (apply Rle_antisym; [exact Hle|apply Fmin; [lia|exact Ht]]).
    destruct (Req_dec t (bottom p)) as [Eb|Hb].
    { rewrite Eb in E. destruct (Fbot i HiN E) as (j & Hj & Ej). pose proof (down_above j (bottom p) Hj ltac:(lra)). lra. }
    assert (exists l, (l < nlayers p)%nat /\ top_of p l <= t < bot_of p l) as (l & Hl & Hlt).
    { destruct (layer_at_ex p V t Ht) as (l & Hl & [Hlt|(-> & ->)]).
      - destruct (Req_dec t (bot_of p l)) as [Eq|Hq]; [|exists l; split; [auto|lra]].
        destruct (Nat.eq_dec (S l) (nlayers p)) as [EL|NL].
        + exfalso. apply Hb. rewrite Eq, (bottom_eq p). f_equal. change (length (p_tau p)) with (nlayers p). lia.
        + exists (S l). split; [lia|]. pose proof (v_inc p V (S l) ltac:(lia)). change (top_of p (S l)) with (bot_of p l) in *. lra.
      - exists 0%nat. split; [exact Hl|]. pose proof (v_inc p V 0%nat Hl). cbn [top_of] in *. lra. }
    destruct (layer_in l Hl) as (H0 & H1). destruct Hdg as (_ & Hmu & _). destruct (Hmu i HiN) as (Hp & Hn & _).
    refine (no_min_up (top_of p l) (bot_of p l) t (F i) M (nth i mu 0) (scl p l) (k l) Hlt _ HM _ _ (Hk l Hl) _ E _).
    - apply (cont_on_sub 0 (bottom p)); auto.
    - lra.
    - apply (scl_pos p V l Hl).
    - intros x Hx. apply Fmin; [lia|lra].
    - intros x Hx. apply Fd; auto.
  Qed.
End Min.
