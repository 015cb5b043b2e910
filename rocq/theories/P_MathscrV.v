(** The isotropic-source particular solution solves its differential equation. *)
From Coq Require Import String Reals Lra Lia List Bool Arith ZArith.
From Coquelicot Require Import Coquelicot.
From Verif Require Import Base Tensor Spec M_LinAlg Spec_RTE Calc P_Tensor M_MathscrV.
Import ListNotations.
Local Open Scope R_scope.

(** Closed form. *)
Definition cof (Ns : nat) (s : vec) (k : R) (j : nat) : R :=
  / INR (fact j) * rsum (Ns - j) (fun p => INR (fact (j + p)) * s (j + p)%nat * (1 / k) ^ S p).
Definition zk (Ns : nat) (s : vec) (k : R) (t : R) : R := rsum Ns (fun j => cof Ns s k j * t ^ j).
Definition Zk (Ns : nat) (s : vec) (k : R) (t : R) : R := rsum Ns (fun j => cof Ns s k j * (t ^ S j / INR (S j))).
Definition vsol (nq Ns : nat) (s : vec) (G : mat) (K gm : vec) (q : nat) (t : R) : R :=
  rsum nq (fun k => G q k * (zk Ns s (K k) t * gm k)).
Definition Vsol (nq Ns : nat) (s : vec) (G : mat) (K gm : vec) (q : nat) (t : R) : R :=
  rsum nq (fun k => G q k * (Zk Ns s (K k) t * gm k)).

Lemma cof_top Ns s k : cof Ns s k Ns = 0.
Proof. unfold cof. rewrite Nat.sub_diag. simpl. ring. Qed.

Lemma cof_rec Ns s k j : (j < Ns)%nat -> k <> 0 -> INR (S j) * cof Ns s k (S j) = k * cof Ns s k j - s j.
Proof.
  intros Hj Hk. unfold cof.
  replace (Ns - j)%nat with (S (Ns - S j)) by lia. rewrite rsum_S_l. rewrite Nat.add_0_r.
  rewrite (rsum_ext (Ns - S j) (fun i => INR (fact (j + S i)) * s (j + S i)%nat * (1 / k) ^ S (S i))
             (fun i => / k * (INR (fact (S j + i)) * s (S j + i)%nat * (1 / k) ^ S i))).
  2:{ intros i Hi. replace (j + S i)%nat with (S j + i)%nat by lia. simpl. field. auto. }
  rewrite rsum_scal. set (T := rsum _ _).
  rewrite fact_simpl, mult_INR. pose proof (INR_fact_neq_0 j). pose proof (not_0_INR (S j) ltac:(lia)).
  simpl pow. field. repeat split; auto.
Qed.

Lemma zk_ode Ns s k t : k <> 0 -> is_derive (zk Ns s k) t (k * zk Ns s k t - rsum Ns (fun j => s j * t ^ j)).
Proof.
  intros Hk. unfold zk.
  apply (der_eq _ _ (rsum Ns (fun j => cof Ns s k j * (INR j * t ^ pred j)))).
  - rewrite <- rsum_scal, <- rsum_minus.
    assert (Hs : forall n, rsum n (fun j => cof Ns s k j * (INR j * t ^ pred j)) + INR n * cof Ns s k n * t ^ pred n
                 = rsum n (fun j => INR (S j) * cof Ns s k (S j) * t ^ j)).
    { induction n; [simpl; ring|]. cbn [rsum]. rewrite <- IHn. cbn [pred]. ring. }
    pose proof (Hs Ns) as H. rewrite cof_top, Rmult_0_r, Rmult_0_l, Rplus_0_r in H. rewrite H.
    apply rsum_ext. intros j Hj. rewrite cof_rec by auto. ring.
  - apply (der_sum Ns (fun j y => cof Ns s k j * y ^ j)). intros j Hj. apply der_scal, der_pow.
Qed.

Lemma Zk_der Ns s k t : is_derive (Zk Ns s k) t (zk Ns s k t).
Proof.
  unfold Zk, zk. apply (der_sum Ns (fun j y => cof Ns s k j * (y ^ S j / INR (S j)))). intros j Hj.
  apply der_scal. apply (der_eq _ _ (INR (S j) * t ^ pred (S j) / INR (S j))).
  - cbn [pred]. field. apply not_0_INR. lia.
  - apply der_div, der_pow.
Qed.

Lemma Vsol_der nq Ns s G K gm q t : is_derive (Vsol nq Ns s G K gm q) t (vsol nq Ns s G K gm q t).
Proof.
  unfold Vsol, vsol. apply (der_sum nq (fun k y => G q k * (Zk Ns s (K k) y * gm k))). intros k Hk.
  apply der_scal, der_scal_r, Zk_der.
Qed.

(** The particular solution in the basis [G]. *)
Lemma vsol_ode (nq Ns : nat) (s : vec) (A G Gi : mat) (K nu gm : vec) :
  (forall i j, (i < nq)%nat -> (j < nq)%nat -> rsum nq (fun p => A i p * G p j) = G i j * K j) ->
  (forall j, (j < nq)%nat -> K j <> 0) ->
  (forall i j, (i < nq)%nat -> (j < nq)%nat -> rsum nq (fun p => G i p * Gi p j) = delta i j) ->
  (forall k, (k < nq)%nat -> gm k = rsum nq (fun j => Gi k j * (1 / nu j))) ->
  forall q t, (q < nq)%nat ->
  is_derive (vsol nq Ns s G K gm q) t
    (rsum nq (fun j => A q j * vsol nq Ns s G K gm j t) - rsum Ns (fun j => s j * t ^ j) / nu q).
Proof.
  intros HA HK HG Hgm q t Hq.
  set (S0 := rsum Ns (fun j => s j * t ^ j)).
  apply (der_eq _ _ (rsum nq (fun k => G q k * ((K k * zk Ns s (K k) t - S0) * gm k)))).
  - transitivity (rsum nq (fun k => G q k * K k * (zk Ns s (K k) t * gm k)) - S0 * rsum nq (fun k => G q k * gm k)).
    { rewrite <- rsum_scal, <- rsum_minus. apply rsum_ext. intros k Hk. ring. }
    f_equal.
    + rewrite (rsum_ext nq _ (fun k => rsum nq (fun p => A q p * (G p k * (zk Ns s (K k) t * gm k))))).
      2:{ intros k Hk. rewrite <- HA by auto. rewrite <- rsum_scal_r. apply rsum_ext. intros p Hp. ring. }
      rewrite rsum_swap. apply rsum_ext. intros j Hj. unfold vsol. rewrite rsum_scal. reflexivity.
    + unfold Rdiv. f_equal.
      rewrite (rsum_ext nq _ (fun k => rsum nq (fun j => G q k * Gi k j * (1 / nu j)))).
      2:{ intros k Hk. rewrite Hgm by auto. rewrite <- rsum_scal. apply rsum_ext. intros. ring. }
      rewrite rsum_swap. rewrite (rsum_ext nq _ (fun j => delta q j * (1 / nu j))).
      2:{ intros j Hj. rewrite rsum_scal_r, HG by auto. reflexivity. }
      rewrite rsum_delta_l by auto. unfold Rdiv. ring.
  - apply (der_sum nq (fun k y => G q k * (zk Ns s (K k) y * gm k))). intros k Hk.
    apply der_scal, der_scal_r. apply zk_ode. auto.
Qed.

(** Values of the three branches. *)
Lemma cof_1 s k : k <> 0 -> cof 1 s k 0 = s 0%nat * (1 / k).
Proof. intros. unfold cof. simpl. field. auto. Qed.
Lemma cof_2_0 s k : k <> 0 -> cof 2 s k 0 = s 0%nat * (1 / k) + s 1%nat * (1 / k * (1 / k)).
Proof. intros. unfold cof. simpl. field. auto. Qed.
Lemma cof_2_1 s k : k <> 0 -> cof 2 s k 1 = s 1%nat * (1 / k).
Proof. intros. unfold cof. simpl. field. auto. Qed.

Section Values.
  Variables (nr nq NL : nat) (tau : list R) (scale_tau : tensor) (l : list nat) (Ns : nat).
  Variables (s : nat -> vec) (G : nat -> mat) (K : nat -> vec) (gm : nat -> vec).
  Hypothesis Hl : length l = length tau.
  Hypothesis Hb : forall i, In i l -> (i < NL)%nat.
  Hypothesis HK : forall ll k, (ll < NL)%nat -> (k < nq)%nat -> K ll k <> 0.

  Let L t := nth t l 0%nat.
  Lemma L_lt t : (t < length tau)%nat -> (L t < NL)%nat.
  Proof. intros. apply Hb, nth_In. lia. Qed.

  Lemma ein_T2 c : T2 (ein_il nr nq NL G c) nr NL (fun q ll => rsum nq (fun j => G ll q j * c ll j)).
  Proof. split; reflexivity. Qed.

  Lemma ones_T1 : T1 (tmap (fun _ => 1) (t1 tau)) (length tau) (fun _ => 1).
  Proof. split; reflexivity. Qed.
  Lemma map_T1 f : T1 (t1 (map f tau)) (length tau) (fun i => f (nth i tau 0)).
  Proof.
    split; [cbn; rewrite map_length; auto|]. intros i Hi. cbn. rewrite (nth_map_d _ _ _ 0) by auto. reflexivity.
  Qed.

  Lemma branch1_val : Ns = 1%nat -> exists C, v_branch1 nr nq NL tau scale_tau l s G K gm false = Ok C /\
    T2 C nr (length tau) (fun q t => vsol nq Ns (s (L t)) (G (L t)) (K (L t)) (gm (L t)) q (nth t tau 0)).
  Proof.
    intros ->. unfold v_branch1. cbn [bind].
    destruct (T2_take1 _ _ _ _ l (ein_T2 (fun ll k => s ll 0%nat * K_inv K ll k * gm ll k)) Hb) as (D & HD & TD).
    rewrite HD. cbn [bind]. rewrite Hl in TD.
    destruct (T2_row Rmult _ _ _ _ _ _ TD ones_T1) as (C & HC & TC). exists C. split; [exact HC|].
    refine (T2_ext _ _ _ _ _ _ TC). intros q t Hq Ht. cbn beta.
    rewrite Rmult_1_r. unfold vsol. apply rsum_ext. intros k Hk. unfold zk, K_inv. cbn [rsum]. fold (L t).
    rewrite cof_1 by (apply HK; auto; apply L_lt; auto). simpl. ring.
  Qed.

  Lemma branch2_val : Ns = 2%nat -> exists C, v_branch2 nr nq NL tau scale_tau l s G K gm false = Ok C /\
    T2 C nr (length tau) (fun q t => vsol nq Ns (s (L t)) (G (L t)) (K (L t)) (gm (L t)) q (nth t tau 0)).
  Proof.
    intros ->. unfold v_branch2.
    match goal with |- context [ttake 1 l (ein_il nr nq NL G ?c)] => destruct (T2_take1 _ _ _ _ l (ein_T2 c) Hb) as (D & HD & TD) end.
    rewrite HD. cbn [bind]. rewrite Hl in TD.
    match goal with |- context [ttake 1 l (ein_il nr nq NL G ?c)] => destruct (T2_take1 _ _ _ _ l (ein_T2 c) Hb) as (D1 & HD1 & TD1) end.
    rewrite HD1. cbn [bind]. rewrite Hl in TD1.
    destruct (T2_row Rmult _ _ _ _ _ _ TD (T1_t1 tau)) as (C & HC & TC). unfold tmul. rewrite HC. cbn [bind].
    destruct (T2_row Rmult _ _ _ _ _ _ TD1 ones_T1) as (C1 & HC1 & TC1). rewrite HC1. cbn [bind].
    destruct (T2_op Rplus _ _ _ _ _ _ TC TC1) as (C2 & HC2 & TC2). unfold tadd. rewrite HC2. cbn [bind].
    exists C2. split; [reflexivity|]. refine (T2_ext _ _ _ _ _ _ TC2). intros q t Hq Ht. cbn beta. fold (L t).
    rewrite Rmult_1_r. unfold vsol. rewrite <- rsum_scal_r, <- rsum_plus. apply rsum_ext. intros k Hk. unfold zk, K_inv. cbn [rsum].
    rewrite cof_2_0, cof_2_1 by (apply HK; auto; apply L_lt; auto). simpl. ring.
  Qed.

  Lemma b_sigma_cof j ll k : (j < Ns)%nat -> b_sigma Ns s K (Ns - 1 - j) ll k = cof Ns (s ll) (K ll k) j.
  Proof.
    intros Hj. unfold b_sigma, cof, fac_rev, np_fact, exact_ints. replace (Ns - 1 - (Ns - 1 - j))%nat with j by lia.
    rewrite Rmult_comm. f_equal; [unfold Rdiv; ring|].
    replace Ns with ((Ns - j) + j)%nat at 1 by lia. rewrite rsum_split. rewrite (rsum_0 j).
    2:{ intros i Hi. unfold lower_tri. rewrite (proj2 (Nat.leb_gt _ _)) by lia. ring. }
    rewrite Rplus_0_r. apply rsum_ext. intros p Hp. unfold lower_tri. rewrite (proj2 (Nat.leb_le _ _)) by lia.
    unfold weighted_a, fac_rev, np_fact, exact_ints, K_invP, K_inv. replace (Ns - 1 - (Ns - 1 - j - p))%nat with (j + p)%nat by lia. ring.
  Qed.

  Lemma mb_T3 : T3 (mathscr_b nr nq NL Ns s G K gm) NL nr Ns (fun ll q p => rsum nq (fun k => G ll q k * b_right Ns s K gm p ll k)).
  Proof. split; reflexivity. Qed.

  Lemma branchN_sum (h : nat -> R) q ll :
    rsum Ns (fun p => rsum nq (fun k => G ll q k * b_right Ns s K gm p ll k) * h p)
    = rsum nq (fun k => G ll q k * (rsum Ns (fun j => cof Ns (s ll) (K ll k) j * h (Ns - 1 - j)%nat) * gm ll k)).
  Proof.
    rewrite (rsum_ext Ns _ (fun p => rsum nq (fun k => G ll q k * b_right Ns s K gm p ll k * h p))).
    2:{ intros p Hp. rewrite rsum_scal_r. reflexivity. }
    rewrite rsum_swap. apply rsum_ext. intros k Hk.
    rewrite <- rsum_scal_r, <- rsum_scal. rewrite rsum_rev. apply rsum_ext. intros j Hj.
    unfold b_right. rewrite b_sigma_cof by auto. ring.
  Qed.

  Lemma branchN_val : exists C, v_branchN nr nq NL tau scale_tau l Ns s G K gm false = Ok C /\
    T2 C nr (length tau) (fun q t => vsol nq Ns (s (L t)) (G (L t)) (K (L t)) (gm (L t)) q (nth t tau 0)).
  Proof.
    unfold v_branchN. cbn [bind]. destruct (T3_take0 _ _ _ _ _ l mb_T3 Hb) as (D & HD & [SD ED]).
    rewrite HD. cbn [bind shp]. rewrite <- Hl, list_eqb_refl. eexists. split; [reflexivity|].
    split; [reflexivity|]. intros q t Hq Ht. cbn [elt nth].
    rewrite (rsum_ext Ns _ (fun p => rsum nq (fun k => G (L t) q k * b_right Ns s K gm p (L t) k) * nth t tau 0 ^ (Ns - 1 - p))).
    2:{ intros p Hp. rewrite ED by auto. reflexivity. }
    rewrite branchN_sum. unfold vsol, zk. apply rsum_ext. intros k Hk. do 2 f_equal. apply rsum_ext. intros j Hj.
    replace (Ns - 1 - (Ns - 1 - j))%nat with j by lia. reflexivity.
  Qed.

  Theorem mathscr_v_val : exists C, mathscr_v nr nq NL tau scale_tau l Ns s G K gm false = Ok C /\
    T2 C nr (length tau) (fun q t => vsol nq Ns (s (L t)) (G (L t)) (K (L t)) (gm (L t)) q (nth t tau 0)).
  Proof.
    unfold mathscr_v. destruct (Nat.eqb_spec Ns 1); [apply branch1_val; auto|].
    destruct (Nat.eqb_spec Ns 2); [apply branch2_val; auto|]. apply branchN_val.
  Qed.

  (** Antiderivative, one layer. *)
  Variable c : R.
  Hypothesis Hc : c <> 0.
  Hypothesis Hsc : scale_tau = t1 [c].

  Lemma sc_T1 : T1 scale_tau 1 (fun _ => c).
  Proof. rewrite Hsc. split; [reflexivity|]. intros i Hi. assert (i = 0%nat) by lia. subst. reflexivity. Qed.

  Theorem mathscr_v_anti : exists C, mathscr_v nr nq NL tau scale_tau l Ns s G K gm true = Ok C /\
    T2 C nr (length tau) (fun q t => Vsol nq Ns (s (L t)) (G (L t)) (K (L t)) (gm (L t)) q (nth t tau 0) / c).
  Proof.
    unfold mathscr_v. destruct (Nat.eqb_spec Ns 1) as [E1|E1]; [|destruct (Nat.eqb_spec Ns 2) as [E2|E2]].
    - unfold v_branch1. unfold tdiv. destruct (T1_T1 Rdiv _ _ _ _ _ _ (T1_t1 tau) sc_T1 (or_intror eq_refl)) as (P & HP & TP).
      rewrite HP. cbn [bind].
      destruct (T2_take1 _ _ _ _ l (ein_T2 (fun ll k => s ll 0%nat * K_inv K ll k * gm ll k)) Hb) as (D & HD & TD).
      rewrite HD. cbn [bind]. rewrite Hl in TD.
      destruct (T2_row Rmult _ _ _ _ _ _ TD TP) as (C & HC & TC). exists C. split; [exact HC|].
      refine (T2_ext _ _ _ _ _ _ TC). intros q t Hq Ht. cbn beta. fold (L t).
      unfold Vsol. rewrite <- rsum_scal_r, <- rsum_div. apply rsum_ext. intros k Hk. unfold Zk, K_inv. rewrite E1. cbn [rsum].
      rewrite cof_1 by (apply HK; auto; apply L_lt; auto). simpl. field. split; auto. apply HK; auto. apply L_lt; auto.
    - unfold v_branch2.
      match goal with |- context [ttake 1 l (ein_il nr nq NL G ?c)] => destruct (T2_take1 _ _ _ _ l (ein_T2 c) Hb) as (D & HD & TD) end.
      rewrite HD. cbn [bind]. rewrite Hl in TD.
      match goal with |- context [ttake 1 l (ein_il nr nq NL G ?c)] => destruct (T2_take1 _ _ _ _ l (ein_T2 c) Hb) as (D1 & HD1 & TD1) end.
      rewrite HD1. cbn [bind]. rewrite Hl in TD1.
      destruct (T2_row Rmult _ _ _ _ _ _ TD (map_T1 (fun t => t * t / 2))) as (C & HC & TC). unfold tmul. rewrite HC. cbn [bind].
      destruct (T2_row Rmult _ _ _ _ _ _ TD1 (T1_t1 tau)) as (C1 & HC1 & TC1). rewrite HC1. cbn [bind].
      destruct (T2_op Rplus _ _ _ _ _ _ TC TC1) as (C2 & HC2 & TC2). unfold tadd. rewrite HC2. cbn [bind].
      destruct (T2_T1 Rdiv _ _ _ _ _ _ _ TC2 sc_T1 (or_intror eq_refl)) as (C3 & HC3 & TC3). unfold tdiv. rewrite HC3.
      exists C3. split; [reflexivity|]. refine (T2_ext _ _ _ _ _ _ TC3). intros q t Hq Ht. cbn beta. fold (L t).
      f_equal. unfold Vsol. rewrite <- !rsum_scal_r, <- rsum_plus. apply rsum_ext. intros k Hk. unfold Zk, K_inv. rewrite E2. cbn [rsum].
      rewrite cof_2_0, cof_2_1 by (apply HK; auto; apply L_lt; auto). simpl. field. apply HK; auto; apply L_lt; auto.
    - unfold v_branchN. unfold tmul, tdiv.
      set (pw := fun j => (Ns - 1 - j)%nat).
      assert (TP0 : T2 (mkT [1%nat; Ns] (fun idx => INR (S (pw (nth 1 idx 0%nat))))) 1 Ns (fun _ j => INR (S (pw j)))) by (split; reflexivity).
      destruct (T2_T1 Rmult _ _ _ _ _ _ _ TP0 sc_T1 (or_intror eq_refl)) as (P & HP & TP). rewrite HP. cbn [bind].
      destruct TP as [SP EP].
      match goal with |- context [bcast2 Rdiv ?X P] => destruct (bcast2_2 Rdiv X P (length tau) Ns 1 Ns (length tau) Ns eq_refl SP (bc_1r _) (bc_same _)) as (Q & HQ & SQ & EQ) end.
      rewrite HQ. cbn [bind].
      destruct (T3_take0 _ _ _ _ _ l mb_T3 Hb) as (D & HD & [SD ED]).
      rewrite HD. cbn [bind]. rewrite SQ, <- Hl, list_eqb_refl. eexists. split; [reflexivity|].
      split; [reflexivity|]. intros q t Hq Ht. cbn [elt nth].
      rewrite (rsum_ext Ns _ (fun p => rsum nq (fun k => G (L t) q k * b_right Ns s K gm p (L t) k) * (nth t tau 0 ^ S (pw p) / (INR (S (pw p)) * c)))).
      2:{ intros p Hp. rewrite ED by auto. rewrite EQ. rewrite !bi_lt by lia. cbn [nth elt]. rewrite bi_1, EP by lia. reflexivity. }
      rewrite branchN_sum. unfold Vsol, Zk. rewrite <- rsum_div. apply rsum_ext. intros k Hk.
      replace (rsum Ns (fun j => cof Ns (s (L t)) (K (L t) k) j * (nth t tau 0 ^ S (pw (Ns - 1 - j)%nat) / (INR (S (pw (Ns - 1 - j)%nat)) * c))))
        with (rsum Ns (fun j => cof Ns (s (L t)) (K (L t) k) j * (nth t tau 0 ^ S j / INR (S j))) / c); [unfold Rdiv; ring|].
      rewrite <- rsum_div. apply rsum_ext. intros j Hj. unfold pw. replace (Ns - 1 - (Ns - 1 - j))%nat with j by lia.
      field. split; auto. apply not_0_INR. lia.
  Qed.
End Values.

(** Padding the polynomial with zero coefficients does not change the solution, so the
    three code branches agree wherever they can be compared. *)
Lemma cof_pad Ns Ns' s k j : (Ns <= Ns')%nat -> (forall i, (Ns <= i < Ns')%nat -> s i = 0) -> (j < Ns')%nat ->
  cof Ns' s k j = (if Nat.ltb j Ns then cof Ns s k j else 0).
Proof.
  intros H Hs Hj. unfold cof. destruct (Nat.ltb_spec j Ns).
  - f_equal. replace (Ns' - j)%nat with ((Ns - j) + (Ns' - Ns))%nat by lia. rewrite rsum_split, (rsum_0 (Ns' - Ns)); [ring|].
    intros i Hi. rewrite (Hs (j + (Ns - j + i))%nat) by lia. ring.
  - rewrite rsum_0; [ring|]. intros i Hi. rewrite (Hs (j + i)%nat) by lia. ring.
Qed.
Lemma zk_pad Ns Ns' s k t : (Ns <= Ns')%nat -> (forall i, (Ns <= i < Ns')%nat -> s i = 0) -> zk Ns' s k t = zk Ns s k t.
Proof.
  intros H Hs. unfold zk. replace Ns' with (Ns + (Ns' - Ns))%nat at 1 by lia. rewrite rsum_split, (rsum_0 (Ns' - Ns)).
  - rewrite Rplus_0_r. apply rsum_ext. intros j Hj. rewrite (cof_pad Ns Ns') by (auto; lia).
    rewrite (proj2 (Nat.ltb_lt _ _)) by auto. reflexivity.
  - intros i Hi. rewrite (cof_pad Ns Ns') by (auto; lia). rewrite (proj2 (Nat.ltb_ge _ _)) by lia. ring.
Qed.

Lemma mathscr_v_sampled nr nq NL tau sc l Ns s G K gm :
  length l = length tau -> (forall i, In i l -> (i < NL)%nat) ->
  (forall ll k, (ll < NL)%nat -> (k < nq)%nat -> K ll k <> 0) ->
  exists C, mathscr_v nr nq NL tau sc l Ns s G K gm false = Ok C /\
            sampled C nr tau l (fun ll q x => vsol nq Ns (s ll) (G ll) (K ll) (gm ll) q x).
Proof. intros. apply (mathscr_v_val nr nq NL tau sc l Ns s G K gm); auto. Qed.

Theorem mathscr_v_ode nq NL Ns s (A G Gi : nat -> mat) (K gm : nat -> vec) (nu : vec) :
  (forall ll, (ll < NL)%nat ->
     (forall i j, (i < nq)%nat -> (j < nq)%nat -> rsum nq (fun p => A ll i p * G ll p j) = G ll i j * K ll j) /\
     (forall j, (j < nq)%nat -> K ll j <> 0) /\
     (forall i j, (i < nq)%nat -> (j < nq)%nat -> rsum nq (fun p => G ll i p * Gi ll p j) = delta i j) /\
     (forall k, (k < nq)%nat -> gm ll k = rsum nq (fun j => Gi ll k j * (1 / nu j)))) ->
  exists v : nat -> nat -> R -> R,
    (forall ll i x, (ll < NL)%nat -> (i < nq)%nat ->
       is_derive (v ll i) x (rsum nq (fun j => A ll i j * v ll j x) - rsum Ns (fun j => s ll j * x ^ j) / nu i)) /\
    (forall r0 nr tau l sc, (r0 + nr <= nq)%nat -> length l = length tau -> (forall i, In i l -> (i < NL)%nat) ->
       exists C, mathscr_v nr nq NL tau sc l Ns s (fun ll q => G ll (r0 + q)%nat) K gm false = Ok C /\
                 sampled C nr tau l (fun ll q => v ll (r0 + q)%nat)).
Proof.
  intros H. exists (fun ll i x => vsol nq Ns (s ll) (G ll) (K ll) (gm ll) i x). split.
  - intros ll i x Hll Hi. destruct (H ll Hll) as (H1 & H2 & H3 & H4). apply (vsol_ode nq Ns (s ll) (A ll) (G ll) (Gi ll) (K ll) nu (gm ll)); auto.
  - intros r0 nr tau l sc Hr Hlen Hin.
    destruct (mathscr_v_sampled nr nq NL tau sc l Ns s (fun ll q => G ll (r0 + q)%nat) K gm Hlen Hin) as (C & HC & SC).
    { intros ll k Hll. exact (proj1 (proj2 (H ll Hll)) k). }
    exists C. split; auto.
Qed.

Theorem mathscr_v_pad nr nq NL tau sc l Ns Ns' s G K gm :
  length l = length tau -> (forall i, In i l -> (i < NL)%nat) ->
  (forall ll k, (ll < NL)%nat -> (k < nq)%nat -> K ll k <> 0) ->
  (Ns <= Ns')%nat -> (forall ll i, (ll < NL)%nat -> (Ns <= i < Ns')%nat -> s ll i = 0) ->
  exists C C', mathscr_v nr nq NL tau sc l Ns s G K gm false = Ok C /\
               mathscr_v nr nq NL tau sc l Ns' s G K gm false = Ok C' /\ teq C C'.
Proof.
  intros Hl Hb HK Hle Hs.
  destruct (mathscr_v_sampled nr nq NL tau sc l Ns s G K gm Hl Hb HK) as (C & HC & SC & EC).
  destruct (mathscr_v_sampled nr nq NL tau sc l Ns' s G K gm Hl Hb HK) as (C' & HC' & SC' & EC').
  exists C, C'. split; auto. split; auto. split; [congruence|]. intros idx Hin. rewrite SC in Hin.
  destruct idx as [|q [|t [|? ?]]]; cbn in Hin; try tauto. destruct Hin as (Hq & Ht & _).
  rewrite EC, EC' by auto. unfold vsol. apply rsum_ext. intros k Hk. rewrite (zk_pad Ns Ns'); auto.
  intros i Hi. apply Hs; auto. apply Hb, nth_In. lia.
Qed.

(** One layer: the antiderivative with respect to the unscaled depth. *)
Theorem mathscr_v_antideriv nq Ns s (G : nat -> mat) (K gm : nat -> vec) (c : R) :
  c <> 0 -> (forall j, (j < nq)%nat -> K 0%nat j <> 0) ->
  exists v V : nat -> nat -> R -> R,
    (forall i x a, is_derive (fun y => V 0%nat i (c * y + a)) x (v 0%nat i (c * x + a))) /\
    (forall nr tau sc l, length l = length tau -> (forall i, In i l -> (i < 1)%nat) ->
       (exists C, mathscr_v nr nq 1 tau sc l Ns s G K gm false = Ok C /\ sampled C nr tau l v) /\
       (exists C, mathscr_v nr nq 1 tau (t1 [c]) l Ns s G K gm true = Ok C /\ sampled C nr tau l V)).
Proof.
  intros Hc HK. exists (fun ll i x => vsol nq Ns (s ll) (G ll) (K ll) (gm ll) i x).
  exists (fun ll i x => Vsol nq Ns (s ll) (G ll) (K ll) (gm ll) i x / c). split.
  - intros i x a.
    apply (der_eq _ _ (c * vsol nq Ns (s 0%nat) (G 0%nat) (K 0%nat) (gm 0%nat) i (c * x + a) / c)); [field; auto|].
    apply der_div. apply (is_derive_comp (V:=R_NormedModule) (fun y => Vsol nq Ns (s 0%nat) (G 0%nat) (K 0%nat) (gm 0%nat) i y) (fun y => c * y + a)).
    + apply Vsol_der.
    + apply (der_eq _ _ (c * 1 + 0)); [ring|]. apply der_plus; [apply der_scal, der_id|apply der_const].
  - intros nr tau sc l Hl Hb.
    assert (HK' : forall ll k, (ll < 1)%nat -> (k < nq)%nat -> K ll k <> 0) by (intros ll k H; replace ll with 0%nat by lia; auto).
    split; [apply mathscr_v_sampled; auto|].
    destruct (mathscr_v_anti nr nq 1 tau (t1 [c]) l Ns s G K gm Hl Hb HK' c Hc eq_refl) as (C & HC & TC).
    exists C. split; auto.
Qed.

(** Several layers: with at most two coefficients a shape error. *)
Theorem mathscr_v_anti_err nr nq NL tau (sc : list R) l Ns s G K gm :
  length l = length tau -> (forall i, In i l -> (i < NL)%nat) ->
  (Ns = 1 \/ Ns = 2)%nat -> (2 <= length sc)%nat -> (2 <= length tau)%nat -> length tau <> length sc ->
  mathscr_v nr nq NL tau (t1 sc) l Ns s G K gm true = Err EShape.
Proof.
  intros Hl Hb [->| ->] HNL Ht Hne; cbn [mathscr_v Nat.eqb].
  - unfold v_branch1, tdiv. rewrite (bcast2_1_err Rdiv (t1 tau) (t1 sc) (length tau) (length sc)); auto; lia.
  - unfold mathscr_v. cbn [Nat.eqb]. unfold v_branch2.
    match goal with |- context [ttake 1 l (ein_il nr nq NL G ?c)] => destruct (T2_take1 _ _ _ _ l (ein_T2 nr nq NL G c) Hb) as (D & HD & TD) end.
    rewrite HD. cbn [bind]. rewrite Hl in TD.
    match goal with |- context [ttake 1 l (ein_il nr nq NL G ?c)] => destruct (T2_take1 _ _ _ _ l (ein_T2 nr nq NL G c) Hb) as (D1 & HD1 & TD1) end.
    rewrite HD1. cbn [bind]. rewrite Hl in TD1.
    destruct (T2_row Rmult _ _ _ _ _ _ TD (map_T1 tau (fun t => t * t / 2))) as (C & HC & TC). unfold tmul. rewrite HC. cbn [bind].
    destruct (T2_row Rmult _ _ _ _ _ _ TD1 (T1_t1 tau)) as (C1 & HC1 & TC1). rewrite HC1. cbn [bind].
    destruct (T2_op Rplus _ _ _ _ _ _ TC TC1) as (C2 & HC2 & [SC2 _]). unfold tadd. rewrite HC2. cbn [bind].
    unfold tdiv. rewrite (bcast2_21_err Rdiv C2 (t1 sc) nr (length tau) (length sc)); auto; lia.
Qed.

(** ... and for two depths in two layers a value that depends on the position in [tau]:
    one direction, K = G = gm = 1, s = 1, both depths equal and in the second layer. *)
Theorem mathscr_v_anti_wrong :
  exists C, mathscr_v 1 1 2 [1; 1] (t1 [1; 1 / 2]) [1; 1]%nat 1 (fun _ _ => 1) (fun _ _ _ => 1) (fun _ _ => 1) (fun _ _ => 1) true = Ok C /\
            elt C [0; 0]%nat = 1 /\ elt C [0; 1]%nat = 2.
Proof.
  eexists. split; [reflexivity|]. cbn. unfold K_inv. split; lra.
Qed.
