(** Diffuse actinic fluxes built from the returned u0 (subroutines.py 708-797). *)
From Coq Require Import String Reals Lra Lia List Bool Arith ZArith.
From Coquelicot Require Import Coquelicot.
From Verif Require Import Base Tensor Spec M_LinAlg Spec_RTE Calc M_Subroutines M_GenPart M_MathscrV M_Coeffs M_Assemble M_Pydisort
  P_Sub P_Sub3 P_Quad P_Tensor P_Teq P_Coeffs P_Coeffs2 P_Coeffs3 P_Assemble P_Solve Spec_Sol Spec_Valid Spec_Calls P_Valid P_Pydisort P_Pydisort2 P_Pydisort3 P_Pydisort4 P_Pydisort5 P_Pydisort6 P_Scale
  Examples Examples2 Examples3.
Import ListNotations.
Local Open Scope R_scope.

Lemma squeezed_sq1 A n f : shp A = sq_shape [n] -> (forall k, (k < n)%nat -> elt A (if Nat.eqb n 1 then [] else [k]) = f [k]) ->
  squeezed (tsqueeze A) [n] f.
Proof.
  intros HS HE. unfold squeezed, teq, tsqueeze. cbn [shp elt]. rewrite HS. cbn [sq_shape filter unsq].
  destruct (Nat.eqb_spec n 1) as [->|Hn]; cbn [negb sq_shape filter unsq].
  - split; [reflexivity|]. intros idx Hi. exact (HE 0%nat ltac:(lia)).
  - apply Nat.eqb_neq in Hn. rewrite Hn. cbn [negb]. split; [reflexivity|]. intros idx Hi.
    apply inb_1 in Hi as (k & -> & Hk). cbn [hd tl]. apply HE. exact Hk.
Qed.

Lemma tadd_sq B d n (g h : nat -> R) : shp B = sq_shape [n] -> (forall k, (k < n)%nat -> elt B (if Nat.eqb n 1 then [] else [k]) = g k) ->
  (shp d = [] /\ (forall k, (k < n)%nat -> elt d [] = h k)) \/ (shp d = [n] /\ forall k, (k < n)%nat -> elt d [k] = h k) ->
  exists C, tadd B d = Ok C /\ squeezed (tsqueeze C) [n] (fun idx => g (nth 0 idx 0%nat) + h (nth 0 idx 0%nat)).
Proof.
  intros SB EB Hd. unfold tadd, bcast2. cbn [sq_shape filter] in SB. destruct (Nat.eqb_spec n 1) as [->|Hn]; cbn [negb] in SB.
  - destruct Hd as [[Sd Ed]|[Sd Ed]]; rewrite SB, Sd; unfold padl; cbn; (eexists; split; [reflexivity|]);
    (split; [reflexivity|]); intros idx _; cbn; specialize (EB 0%nat ltac:(lia)); specialize (Ed 0%nat ltac:(lia)); congruence.
  - assert (E1 : Nat.eqb n 1 = false) by (apply Nat.eqb_neq; auto).
    destruct Hd as [[Sd Ed]|[Sd Ed]]; rewrite SB, Sd; unfold padl; cbn.
    + rewrite bdim_1_r. eexists; split; [reflexivity|]. apply squeezed_sq1; cbn [shp elt sq_shape filter nth]; rewrite E1; [reflexivity|].
      intros k Hk. cbn. unfold bi. rewrite E1. rewrite (EB k Hk), (Ed k Hk). reflexivity.
    + rewrite bdim_refl. eexists; split; [reflexivity|]. apply squeezed_sq1; cbn [shp elt sq_shape filter nth]; rewrite E1; [reflexivity|].
      intros k Hk. cbn. unfold bi. rewrite E1. rewrite (EB k Hk), (Ed k Hk). reflexivity.
Qed.

Section Dot.
  Variable lg : leggauss_t.
  Variables (N nt r0 : nat) (f : list nat -> R) (A : tensor).
  Hypothesis HN : (1 <= N)%nat.
  Hypothesis Hr : (r0 + N <= 2 * N)%nat.
  Hypothesis HA : squeezed A [2 * N; nt]%nat f.
  Let w (i : nat) := of_list (snd (Gauss_Legendre_quad lg N 0 1)) i.

  Lemma act_dot_val : exists B, act_dot lg N (tslice 0 r0 N A) = Ok B /\ shp B = sq_shape [nt] /\
    forall k, (k < nt)%nat -> elt B (if Nat.eqb nt 1 then [] else [k]) = 2 * PI * rsum N (fun i => w i * f [(r0 + i)%nat; k]).
  Proof.
    destruct HA as [SA EA]. cbn [tsqueeze shp sq_shape filter] in SA.
    assert (E1 : Nat.eqb (2 * N) 1 = false) by (apply Nat.eqb_neq; lia). rewrite E1 in SA. cbn [negb] in SA.
    unfold act_dot. cbn [tslice shp]. rewrite SA. cbn [firstn skipn app]. destruct (Nat.eqb_spec nt 1) as [->|Hn]; cbn [Nat.eqb negb] in *.
    - rewrite Nat.eqb_refl. eexists. split; [reflexivity|]. split; [reflexivity|]. intros k Hk. cbn [t0 elt tslice nth firstn skipn app].
      rewrite <- rsum_scal. apply rsum_ext. intros i Hi. fold w. rewrite EA; [|rewrite SA; cbn [inb]; lia].
      cbn [tsqueeze elt unsq shp]. rewrite E1. cbn [Nat.eqb hd tl]. replace k with 0%nat by lia. unfold w. ring.
    - unfold tvm. cbn [tslice shp]. rewrite SA. cbn [firstn skipn app]. rewrite Nat.eqb_refl. eexists. split; [reflexivity|]. cbn [shp sq_shape filter]. apply Nat.eqb_neq in Hn. rewrite Hn.
      split; [reflexivity|]. intros k Hk. cbn [elt tslice nth firstn skipn app hd].
      rewrite <- rsum_scal. apply rsum_ext. intros i Hi. rewrite EA; [|rewrite SA; cbn [inb]; lia].
      cbn [tsqueeze elt unsq shp]. rewrite E1, Hn. cbn [Nat.eqb hd tl]. unfold w. ring.
  Qed.
End Dot.

Section Call.
  Variables (p : py_in) (lg : leggauss_t) (la : linalg) (jk : junk) (out : py_out).
  Hypothesis Hla : linalg_ok la.
  Hypothesis Hlg : leggauss_ok (half p) (lg (half p)).
  Hypothesis Hok : pydisort p lg la jk = Ok out.

  (** The share of the beam that is used for the reclassification. *)
  Definition beam_share (ss : nat -> vec) (r : R) : R := p_I0 p / divisor r.

  Theorem call_actinic_W : exists w k, w = quad_W p lg /\ double_gauss (half p) (po_mu out) w /\
    (exists ss r, scaled_s p = Ok ss /\ rescale p ss = Ok r /\ k = beam_share ss r) /\
    act_N (po_u0 out) = Ok (half p) /\
    forall U, modes_of p out U ->
    reports p (act_up lg (po_u0 out) (half p)) (fun t => 2 * PI * rsum (half p) (fun i => w i * U 0%nat i t)) /\
    (p_mu0 p <> 0 ->
     reports p (act_down lg (po_u0 out) (half p)) (fun t => 2 * PI * rsum (half p) (fun i => w i * U 0%nat (half p + i)%nat t)
        + k * (exp (- sdepth p t / p_mu0 p) - exp (- t / p_mu0 p)))).
  Proof.
    destruct (pydisort_parts _ _ _ _ _ Hok) as (V & ss & r & sv & Hss & Hr & Hsv & Emu & Eup & Edn & Eu0 & Eu).
    exists (quad_W p lg), (beam_share ss r). split; [reflexivity|]. split; [rewrite Emu; apply (mu_arr_gauss p lg Hlg)|]. split; [exists ss, r; auto|].
    assert (HN : (1 <= half p)%nat) by exact (half_pos p V).
    assert (H2 : streams p = (2 * half p)%nat) by (rewrite (streams_eq p V); lia).
    assert (H0 : depths_ok p [0]).
    { intros t [<-|[]]. pose proof (bottom_nonneg p lg la jk out Hok). lra. }
    split.
    { unfold act_N. rewrite Eu0. destruct (u0_reports p V lg Hlg ss r la Hla jk sv Hsv [0] false H0) as (A & E & [SA _]).
      rewrite E. cbn [bind]. rewrite SA. cbn [tsqueeze shp sq_shape filter length]. rewrite H2.
      replace (Nat.eqb (2 * half p) 1) with false by (symmetry; apply Nat.eqb_neq; lia). cbn [negb Nat.eqb].
      f_equal. rewrite Nat.mul_comm. apply Nat.div_mul. lia. }
    intros U HU. destruct HU as [HU0 _].
    split.
    - intros tau Ht. destruct (HU0 tau Ht) as (A & E & SA). unfold act_up. rewrite E. cbn [bind]. rewrite H2 in SA.
      destruct (act_dot_val lg (half p) (length tau) 0 _ A HN ltac:(lia) SA) as (B & EB & SB & VB). rewrite EB. cbn [bind].
      eexists. split; [reflexivity|]. apply squeezed_sq1; [exact SB|]. intros k Hk. rewrite VB by auto. reflexivity.
    - intros Hm tau Ht. unfold act_down. rewrite Eu0. pose proof (u0_reports p V lg Hlg ss r la Hla jk sv Hsv tau false Ht) as (A & E & SA).
      destruct (HU0 tau Ht) as (A' & E' & SA'). rewrite Eu0 in E'.
      assert (A' = A) by congruence. subst A'. clear SA. rename SA' into SA.
      assert (EX : exists d, cl_u0 (assemble_args p lg r ss) sv tau false false true = Ok (PTup [PT A; PT d]) /\
        ((shp d = [] /\ (forall t, In t tau -> sdepth p t = t) /\ elt d [] = 0) \/
         (shp d = [length tau] /\ forall k, (k < length tau)%nat -> elt d [k] = beam_share ss r * (exp (- sdepth p (nth k tau 0) / p_mu0 p) - exp (- nth k tau 0 / p_mu0 p))))).
      { clear E' Eu0. unfold cl_u0 in E |- *. destruct (tau_check _ tau) as [[]|]; cbn [bind] in *; [|discriminate].
        unfold act_reclass. destruct (any_scaled (assemble_args p lg r ss)) eqn:Ea.
        - cbn [a_mu0 assemble_args]. rewrite (Reqb_f (p_mu0 p) 0 Hm). cbn [bind].
          destruct (u0_all _ sv false tau) as [C|]; cbn [bind] in *; [|discriminate]. injection E as <-.
          eexists. split; [reflexivity|]. right. split; [cbn; apply f_equal2; [apply map_length|reflexivity]|].
          intros k Hk. cbn [t1 elt hd]. rewrite (nth_map_d _ tau k 0 0) by auto.
          rewrite (scaled_of_sdepth p V lg r ss Hlg) by (apply Ht, nth_In; auto).
          cbn [a_I0 a_mu0 assemble_args]. unfold beam_share. ring.
        - cbn [bind]. destruct (u0_all _ sv false tau) as [C|]; cbn [bind] in *; [|discriminate]. injection E as <-.
          eexists. split; [reflexivity|]. left. split; [reflexivity|]. split; [|reflexivity]. intros t Hin.
          rewrite <- (scaled_of_sdepth p V lg r ss Hlg t (Ht t Hin)). unfold scaled_of. rewrite Ea. reflexivity. }
      destruct EX as (d & E3 & Hd). rewrite E3. cbn [bind]. rewrite H2 in SA.
      destruct (act_dot_val lg (half p) (length tau) (half p) _ A HN ltac:(lia) SA) as (B & EB & SB & VB). rewrite EB. cbn [bind].
      destruct (tadd_sq B d (length tau) _ (fun k => beam_share ss r * (exp (- sdepth p (nth k tau 0) / p_mu0 p) - exp (- nth k tau 0 / p_mu0 p))) SB VB) as (C & EC & SC).
      { destruct Hd as [(Sd & Hs & Ed)|Hd]; [left|right; exact Hd]. split; [exact Sd|]. intros k Hk. rewrite Ed, Hs by (apply nth_In; auto). ring. }
      rewrite EC. cbn [bind]. eexists. split; [reflexivity|]. refine (squeezed_ext _ _ _ _ SC _).
      intros idx Hi. apply inb_1 in Hi as (k & -> & Hk). reflexivity.
  Qed.
End Call.

Lemma lmax_le l x c : (forall y, In y (x :: l) -> y <= c) -> lmax (x :: l) <= c.
Proof.
  revert x. induction l as [|z l IH]; intros x H; cbn -[Rmax]; [apply H; left; auto|].
  apply Rmax_lub; [apply H; left; auto|]. apply IH. intros y Hy. apply H. right; auto.
Qed.
Lemma tmax_le b m c : tmax b = Ok m -> (forall idx, inb (shp b) idx -> elt b idx <= c) -> m <= c.
Proof.
  unfold tmax. intros E H. destruct (entries b) as [|x l] eqn:Ee; [discriminate|].
  assert (E' := f_equal (fun x => match x with Ok r => r | _ => 0 end) E). cbn beta iota in E'. rewrite <- E'. apply lmax_le.
  intros y Hy. rewrite <- Ee in Hy. apply entries_In in Hy as (idx & Hi & <-). auto.
Qed.

(** The share is I0 divided by the largest source. *)
Lemma share_facts p ss r : valid p -> rescale p ss = Ok r ->
  0 <= beam_share p ss r <= 1 /\ (p_I0 p = 0 -> beam_share p ss r = 0) /\
  (0 < p_I0 p -> ~ has_source p -> (forall b idx, b = p_bpos p \/ b = p_bneg p -> inb (shp b) idx -> elt b idx <= p_I0 p) -> beam_share p ss r = 1).
Proof.
  intros V Hr. pose proof (v_I0 p V) as HI. unfold beam_share, divisor.
  assert (Hle : p_I0 p <= r).
  { revert Hr. unfold rescale. destruct (tmax (e_bpos p)) as [mp|]; cbn [bind]; [|discriminate]. destruct (tmax (e_bneg p)) as [mn|]; cbn [bind]; [|discriminate].
    destruct (has_iso p).
    - destruct (Reqb _ 0); [discriminate|]. intros E. assert (E' := f_equal (fun x => match x with Ok r => r | _ => 0 end) E). cbn beta iota in E'. rewrite <- E'.
      apply lmax_ge. left; reflexivity.
    - intros E. assert (E' := f_equal (fun x => match x with Ok r => r | _ => 0 end) E). cbn beta iota in E'. rewrite <- E'.
      apply lmax_ge. left; reflexivity. }
  destruct (Req_EM_T r 0) as [->|Hn].
  - rewrite Reqb_refl. assert (p_I0 p = 0) by lra. rewrite H. split; [lra|]. split; [intros _; lra|intros; lra].
  - rewrite (Reqb_f r 0 Hn). assert (0 < r) by lra. split; [|split].
    + split; [apply Rle_div_r; lra|]. apply Rle_div_l; lra.
    + intros ->. unfold Rdiv. ring.
    + intros HI0 Hs Hb. enough (r <= p_I0 p). { replace r with (p_I0 p) by lra. field. lra. }
      revert Hr. unfold rescale. destruct (has_iso p) eqn:Ei. { exfalso. apply Hs, has_iso_iff; auto. }
      assert (X : forall b m, b = p_bpos p \/ b = p_bneg p -> tmax (norm_b b) = Ok m -> m <= p_I0 p).
      { intros b m Hbb E. apply (tmax_le (norm_b b) m (p_I0 p)) in E; auto. intros idx Hi. unfold norm_b in *. destruct (all0 b); cbn [t0 elt shp] in *; [lra|]. eauto. }
      destruct (tmax (e_bpos p)) as [mp|] eqn:Ep; cbn [bind]; [|discriminate]. destruct (tmax (e_bneg p)) as [mn|] eqn:En; cbn [bind]; [|discriminate].
      apply X in Ep; auto. apply X in En; auto. intros E. assert (E' := f_equal (fun x => match x with Ok r => r | _ => 0 end) E). cbn beta iota in E'. rewrite <- E'.
      apply lmax_le. intros y [<-|[<-|[<-|[]]]]; lra.
Qed.

Theorem call_actinic p lg la jk out : linalg_ok la -> leggauss_ok (half p) (lg (half p)) -> pydisort p lg la jk = Ok out ->
  exists w k, double_gauss (half p) (po_mu out) w /\ 0 <= k <= 1 /\ (p_I0 p = 0 -> k = 0) /\
    (0 < p_I0 p -> ~ has_source p -> (forall b idx, b = p_bpos p \/ b = p_bneg p -> inb (shp b) idx -> elt b idx <= p_I0 p) -> k = 1) /\
    act_N (po_u0 out) = Ok (half p) /\
    forall U, modes_of p out U ->
    reports p (act_up lg (po_u0 out) (half p)) (fun t => 2 * PI * rsum (half p) (fun i => w i * U 0%nat i t)) /\
    (p_mu0 p <> 0 ->
     reports p (act_down lg (po_u0 out) (half p)) (fun t => 2 * PI * rsum (half p) (fun i => w i * U 0%nat (half p + i)%nat t)
        + k * (exp (- sdepth p t / p_mu0 p) - exp (- t / p_mu0 p)))).
Proof.
  intros Hla Hlg Hok. destruct (call_actinic_W p lg la jk out Hla Hlg Hok) as (w & k & _ & Hw & (ss & r & _ & Hr & ->) & H).
  exists w, (beam_share p ss r). split; [exact Hw|]. destruct (share_facts p ss r (call_valid _ _ _ _ _ Hok) Hr) as (H1 & H2 & H3). auto.
Qed.

Lemma tscal_squeezed c A B s f : squeezed A s f -> teq (tscal c A) B -> squeezed B s (fun idx => c * f idx).
Proof.
  intros [S1 E1] [S2 E2]. cbn [tscal tmap shp elt] in S2, E2. unfold squeezed, teq in *. rewrite <- S2. split; [exact S1|].
  intros idx Hi. rewrite <- E2, E1; auto.
Qed.
Lemma scaled_modes c p lg la jk out out' U U' : leggauss_ok (half p) (lg (half p)) -> linalg_ok la ->
  pydisort p lg la jk = Ok out -> pydisort (times_sources c p) lg la jk = Ok out' -> scaled_outputs c out out' ->
  modes_of p out U -> modes_of (times_sources c p) out' U' ->
  forall i t, (i < streams p)%nat -> 0 <= t <= bottom p -> U' 0%nat i t = c * U 0%nat i t.
Proof.
  intros Hlg Hla Hok Hok' HS [HU _] [HU' _] i t Hi Ht.
  assert (Ht1 : depths_ok p [t]) by (intros x [<-|[]]; auto).
  destruct (HU [t] Ht1) as (A & E & SA). destruct (HU' [t] Ht1) as (B & E' & SB).
  pose proof (so_u0 c out out' HS [t] false false) as H. rewrite E, E' in H. cbn in H.
  pose proof (squeezed_inj _ _ _ _ SB (tscal_squeezed _ _ _ _ _ SA H) [i; 0%nat]) as HX. apply HX. cbn. split; [exact Hi|lia].
Qed.

(** The upward actinic flux scales with the sources. *)
Theorem actinic_up_scales c p lg la jk out out' : 0 < c -> (nonneg (p_bpos p) /\ nonneg (p_bneg p)) \/ some_source p ->
  linalg_ok la -> leggauss_ok (half p) (lg (half p)) -> pydisort p lg la jk = Ok out -> pydisort (times_sources c p) lg la jk = Ok out' ->
  exists f, reports p (act_up lg (po_u0 out) (half p)) f /\ reports p (act_up lg (po_u0 out') (half p)) (fun t => c * f t).
Proof.
  intros Hc Hb Hla Hlg Hok Hok'. pose proof (sources_scale c p Hc Hb lg la jk) as HS. rewrite Hok, Hok' in HS.
  destruct (call_actinic_W p lg la jk out Hla Hlg Hok) as (w & k & Ew & Hw & _ & _ & HA).
  destruct (call_actinic_W (times_sources c p) lg la jk out' Hla Hlg Hok') as (w' & k' & Ew' & Hw' & _ & _ & HA').
  destruct (solution_exists p lg la jk out Hla Hlg Hok) as (_ & U & F & _ & HU & _).
  destruct (solution_exists (times_sources c p) lg la jk out' Hla Hlg Hok') as (_ & U' & F' & _ & HU' & _).
  exists (fun t => 2 * PI * rsum (half p) (fun i => w i * U 0%nat i t)). split; [apply HA; auto|].
  intros tau Ht. destruct (proj1 (HA' U' HU') tau Ht) as (A & E & SA). exists A. split; [exact E|]. refine (squeezed_ext _ _ _ _ SA _).
  intros idx Hi. apply inb_1 in Hi as (j & -> & Hj). cbn [nth]. change (half (times_sources c p)) with (half p).
  rewrite <- !rsum_scal. apply rsum_ext. intros i Hi.
  rewrite (scaled_modes c p lg la jk out out' U U' Hlg Hla Hok Hok' HS HU HU' i (nth j tau 0)).
  - assert (w' = w) as -> by (rewrite Ew, Ew'; reflexivity). ring.
  - rewrite (streams_eq p (call_valid _ _ _ _ _ Hok)). lia.
  - apply Ht, nth_In, Hj.
Qed.

(** Beam of strength 2, forward fraction 1/4. *)
Definition p_act : py_in := p_ex 2 (1 / 4) 0 1 0 0 false false false.
Lemma p_act_ok jk : exists out, pydisort p_act lg_12 (la_ex []) jk = Ok out.
Proof. apply ex_ok; try lra. Qed.
Lemma p_act_valid : valid p_act.
Proof. apply ex_valid; try lra. Qed.
Lemma p_act_depth : sdepth p_act (5 / 4) = 1.
Proof.
  unfold sdepth. assert (lay p_act (5 / 4) = 0%nat) as ->.
  { unfold lay. cbn -[Rltb]. rewrite Rltb_f by lra. reflexivity. }
  unfold depth_s, scl, top_of, albedo, fwd. cbn. field.
Qed.
Lemma p_act_gap : exp (- sdepth p_act (5 / 4) / p_mu0 p_act) - exp (- (5 / 4) / p_mu0 p_act) <> 0.
Proof.
  rewrite p_act_depth. cbn [p_mu0 p_act p_ex]. assert (exp (- (5 / 4) / (1 / 4)) < exp (- (1) / (1 / 4))); [|lra]. apply exp_increasing. lra.
Qed.

(** What the docstring promises is not what is returned. *)
Theorem actinic_down_wrong jk : exists p lg la out U, linalg_ok la /\ leggauss_ok (half p) (lg (half p)) /\ pydisort p lg la jk = Ok out /\
  modes_of p out U /\
  forall w, double_gauss (half p) (po_mu out) w ->
  ~ reports p (act_down lg (po_u0 out) (half p)) (fun t => 2 * PI * rsum (half p) (fun i => w i * U 0%nat (half p + i)%nat t)
        + p_I0 p * (exp (- sdepth p t / p_mu0 p) - exp (- t / p_mu0 p))).
Proof.
  destruct (p_act_ok jk) as (out & H). assert (Hlg : leggauss_ok (half p_act) (lg_12 (half p_act))) by exact leggauss1_ok.
  destruct (solution_exists _ lg_12 _ jk out (la_ex_ok _) Hlg H) as (_ & U & F & _ & HU & _).
  destruct (call_actinic p_act lg_12 _ jk out (la_ex_ok _) Hlg H) as (w & k & Hw & _ & _ & Hk & _ & HA).
  exists p_act, lg_12, (la_ex []), out, U. split; [apply la_ex_ok|]. split; [exact Hlg|]. split; [exact H|]. split; [exact HU|].
  intros w' Hw' HR. destruct (HA U HU) as [_ HD]. specialize (HD ltac:(cbn; lra)).
  assert (Hd : depths_ok p_act [5 / 4]) by (unfold depths_ok, bottom; cbn; intros t [<-|[]]; lra).
  destruct (HR _ Hd) as (A & E & SA). destruct (HD _ Hd) as (A' & E' & SA'). assert (A' = A) by congruence. subst A'.
  pose proof (squeezed_inj _ _ _ _ SA SA' [0%nat] ltac:(cbn; lia)) as X. cbn [nth] in X.
  assert (Ew : forall v, double_gauss (half p_act) (po_mu out) v -> v 0%nat = 1).
  { intros v (Hl & _ & _ & Hx). destruct Hx as [_ Hx]. specialize (Hx [1] ltac:(cbn; lia)).
    change (half p_act) with 1%nat in *. destruct (po_mu out) as [|x l]; [discriminate|]. cbn [firstn map seq] in Hx.
    assert (HI : RInt (peval [1]) 0 1 = 1).
    { rewrite (RInt_ext _ (fun _ => 1)) by (intros; cbn; ring). rewrite RInt_const. unfold scal; cbn. unfold mult; cbn. ring. }
    rewrite HI in Hx. unfold quadsum in Hx. cbn in Hx. lra. }
  change (half p_act) with 1%nat in *. cbn [rsum] in X. rewrite (Ew w Hw), (Ew w' Hw') in X.
  assert (k = 1) as ->.
  { apply Hk; [cbn; lra| |]. - intros (i & j & _ & _ & Hs). apply Hs. reflexivity. - intros b idx [-> | ->] _; cbn; lra. }
  pose proof p_act_gap as G. apply G. cbn [p_I0 p_act p_ex] in X. lra.
Qed.

(** It does not scale with the sources either. *)
Theorem actinic_down_not_linear jk : exists p lg la out out' c, 0 < c /\ nonneg (p_bpos p) /\ nonneg (p_bneg p) /\
  linalg_ok la /\ leggauss_ok (half p) (lg (half p)) /\ pydisort p lg la jk = Ok out /\ pydisort (times_sources c p) lg la jk = Ok out' /\
  ~ exists f, reports p (act_down lg (po_u0 out) (half p)) f /\ reports p (act_down lg (po_u0 out') (half p)) (fun t => c * f t).
Proof.
  destruct (p_act_ok jk) as (out & H). assert (Hlg : leggauss_ok (half p_act) (lg_12 (half p_act))) by exact leggauss1_ok.
  assert (Hbp : nonneg (p_bpos p_act)) by (intros idx _; cbn; lra). assert (Hbn : nonneg (p_bneg p_act)) by (intros idx _; cbn; lra).
  pose proof (sources_scale 2 p_act ltac:(lra) (or_introl (conj Hbp Hbn)) lg_12 (la_ex []) jk) as HS. rewrite H in HS.
  destruct (pydisort (times_sources 2 p_act) lg_12 (la_ex []) jk) as [out'|] eqn:H'; [|destruct HS].
  exists p_act, lg_12, (la_ex []), out, out', 2. split; [lra|]. split; [exact Hbp|]. split; [exact Hbn|]. split; [apply la_ex_ok|]. split; [exact Hlg|].
  split; [exact H|]. split; [exact H'|]. intros (f & Hf & Hf').
  destruct (call_actinic_W p_act lg_12 _ jk out (la_ex_ok _) Hlg H) as (w & k & Ew & _ & (ss & r & _ & Hr & Ek) & _ & HA).
  destruct (call_actinic_W (times_sources 2 p_act) lg_12 _ jk out' (la_ex_ok _) Hlg H') as (w' & k' & Ew' & _ & (ss' & r' & _ & Hr' & Ek') & _ & HA').
  destruct (share_facts p_act ss r (call_valid _ _ _ _ _ H) Hr) as (_ & _ & K).
  destruct (share_facts _ ss' r' (call_valid _ _ _ _ _ H') Hr') as (_ & _ & K').
  assert (k = 1). { rewrite Ek. apply K; [cbn; lra| |]. - intros (i & j & _ & _ & Hs). apply Hs. reflexivity. - intros b idx [-> | ->] _; cbn; lra. }
  assert (k' = 1). { rewrite Ek'. apply K'; [cbn; lra| |]. - intros (i & j & _ & _ & Hs). apply Hs. cbn. ring. - intros b idx [-> | ->] _; cbn; lra. }
  destruct (solution_exists p_act lg_12 (la_ex []) jk out (la_ex_ok _) Hlg H) as (_ & U & F & _ & HU & _).
  destruct (solution_exists (times_sources 2 p_act) lg_12 (la_ex []) jk out' (la_ex_ok _) Hlg H') as (_ & U' & F' & _ & HU' & _).
  destruct (HA U HU) as [_ HD]. specialize (HD ltac:(cbn; lra)). destruct (HA' U' HU') as [_ HD']. specialize (HD' ltac:(cbn; lra)).
  assert (Hd : depths_ok p_act [5 / 4]) by (unfold depths_ok, bottom; cbn; intros t [<-|[]]; lra).
  destruct (Hf _ Hd) as (A & E & SA). destruct (HD _ Hd) as (B & EB & SB). assert (B = A) by congruence. subst B.
  destruct (Hf' _ Hd) as (A' & E' & SA'). destruct (HD' _ Hd) as (B & EB' & SB'). change (half (times_sources 2 p_act)) with (half p_act) in EB'. assert (B = A') by congruence. subst B.
  pose proof (squeezed_inj _ _ _ _ SA SB [0%nat] ltac:(cbn; lia)) as X. pose proof (squeezed_inj _ _ _ _ SA' SB' [0%nat] ltac:(cbn; lia)) as X'. cbn [nth] in X, X'.
  pose proof (scaled_modes 2 p_act lg_12 _ jk out out' U U' Hlg (la_ex_ok _) H H' HS HU HU' 1%nat (5 / 4) ltac:(cbn; lia) ltac:(unfold bottom; cbn; lra)) as Y.
  change (half (times_sources 2 p_act)) with 1%nat in X'. change (half p_act) with 1%nat in X, X'. cbn [rsum Nat.add] in X, X'.
  change (sdepth (times_sources 2 p_act)) with (sdepth p_act) in X'. change (p_mu0 (times_sources 2 p_act)) with (p_mu0 p_act) in X'.
  assert (Ww : w' 0%nat = w 0%nat) by (rewrite Ew, Ew'; reflexivity). rewrite Ww, Y, H1 in X'. rewrite H0 in X.
  pose proof p_act_gap as G. clear - X X' G. apply G. lra.
Qed.
