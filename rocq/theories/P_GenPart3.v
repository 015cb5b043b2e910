(** The eigen-solver stage solves the homogeneous and beam problems. *)
From Coq Require Import String Reals Lra Lia List Bool Arith ZArith.
From Verif Require Import Base Tensor Spec M_LinAlg Spec_RTE P_Special M_GenPart P_GenPart P_GenPart2.
Import ListNotations.
Local Open Scope R_scope.

Lemma rsum_from n m f : rsum (n - m) (fun k => f (m + k)%nat) = rsum n (fun e => if Nat.leb m e then f e else 0).
Proof.
  destruct (Nat.le_gt_cases m n) as [H|H].
  - replace n with (m + (n - m))%nat at 2 by lia. rewrite rsum_split.
    rewrite (rsum_0 m). { rewrite Rplus_0_l. apply rsum_ext. intros i Hi. rewrite (proj2 (Nat.leb_le _ _)) by lia. reflexivity. }
    intros i Hi. rewrite (proj2 (Nat.leb_gt _ _)) by lia. reflexivity.
  - replace (n - m)%nat with 0%nat by lia. simpl. symmetry. apply rsum_0. intros i Hi.
    rewrite (proj2 (Nat.leb_gt _ _)) by lia. reflexivity.
Qed.

Lemma signs_pow k : signs k = (-1) ^ k.
Proof.
  unfold signs. induction k as [|k IH]; [reflexivity|].
  rewrite Nat.odd_succ, <- Nat.negb_odd. cbn [pow]. rewrite <- IH. destruct (Nat.odd k); simpl; lra.
Qed.
Lemma lpmv_neg m k x : lpmv m (m + k) (- x) = lpmv m (m + k) x * signs k.
Proof.
  rewrite lpmv_parity, signs_pow. replace (m + (m + k))%nat with (2 * m + k)%nat by lia.
  rewrite pow_add, pow_mult. replace ((-1) ^ 2) with 1 by ring. rewrite pow1. ring.
Qed.

Lemma D_spec_neg om wg NLeg m x y : D_spec om wg NLeg m (- x) y = D_spec om wg NLeg m x (- y).
Proof.
  unfold D_spec. f_equal. apply rsum_ext. intros e He. destruct (Nat.leb_spec m e) as [H|H]; auto.
  replace e with (m + (e - m))%nat by lia. rewrite !lpmv_neg. ring.
Qed.
Lemma D_spec_negneg om wg NLeg m x y : D_spec om wg NLeg m (- x) (- y) = D_spec om wg NLeg m x y.
Proof. rewrite D_spec_neg, Ropp_involutive. reflexivity. Qed.

Section GP3.
  Variable g : gp_in.
  Let N := gp_N g.
  Let NQ := (2 * gp_N g)%nat.
  Let NL := gp_NLayers g.
  Let NF := gp_NFourier g.
  Let mu := gp_mu g.

  Lemma D_pos_eq m l i j : D_pos g m l i j = D_spec (gp_omega g l) (gp_wLeg g l) (gp_NLeg g) m (mu i) (mu j).
  Proof.
    unfold D_pos, D_spec. rewrite <- rsum_scal.
    rewrite (rsum_ext (gp_NLeg g) _ (fun e => if Nat.leb m e then gp_omega g l / 2 * gp_wLeg g l e * (poch_term m e * lpmv m e (mu i)) * lpmv m e (mu j) else 0)).
    2:{ intros e He. destruct (Nat.leb m e); ring. }
    rewrite <- (rsum_from (gp_NLeg g) m (fun e => gp_omega g l / 2 * gp_wLeg g l e * (poch_term m e * lpmv m e (mu i)) * lpmv m e (mu j))).
    reflexivity.
  Qed.
  Lemma D_neg_eq m l i j : D_neg g m l i j = D_spec (gp_omega g l) (gp_wLeg g l) (gp_NLeg g) m (mu i) (- mu j).
  Proof.
    unfold D_neg, D_spec. rewrite <- rsum_scal.
    rewrite (rsum_ext (gp_NLeg g) _ (fun e => if Nat.leb m e then gp_omega g l / 2 * gp_wLeg g l e * (poch_term m e * lpmv m e (mu i)) * lpmv m e (- mu j) else 0)).
    2:{ intros e He. destruct (Nat.leb m e); ring. }
    rewrite <- (rsum_from (gp_NLeg g) m (fun e => gp_omega g l / 2 * gp_wLeg g l e * (poch_term m e * lpmv m e (mu i)) * lpmv m e (- mu j))).
    apply rsum_ext. intros k Hk. unfold leg_neg, leg_pos, D_temp, om_leg, gp_poch, leg_pos.
    rewrite lpmv_neg. reflexivity.
  Qed.
  Lemma X_pos_eq m l i : X_pos g m l i = X_spec (gp_I0_div_4pi g) (gp_omega g l) (gp_wLeg g l) (gp_NLeg g) m (gp_mu0 g) (mu i).
  Proof.
    unfold X_pos, X_spec. rewrite <- rsum_scal.
    set (c := if Nat.eqb m 0 then 1 else 2).
    rewrite (rsum_ext (gp_NLeg g) _ (fun e => if Nat.leb m e then
       gp_I0_div_4pi g * c * poch_term m e * lpmv m e (- gp_mu0 g) * gp_omega g l * gp_wLeg g l e * lpmv m e (mu i) else 0)).
    2:{ intros e He. destruct (Nat.leb m e); ring. }
    rewrite <- (rsum_from (gp_NLeg g) m (fun e => gp_I0_div_4pi g * c * poch_term m e * lpmv m e (- gp_mu0 g) * gp_omega g l * gp_wLeg g l e * lpmv m e (mu i))).
    reflexivity.
  Qed.
  Lemma X_neg_eq m l i : X_neg g m l i = X_spec (gp_I0_div_4pi g) (gp_omega g l) (gp_wLeg g l) (gp_NLeg g) m (gp_mu0 g) (- mu i).
  Proof.
    unfold X_neg, X_spec. rewrite <- rsum_scal.
    set (c := if Nat.eqb m 0 then 1 else 2).
    rewrite (rsum_ext (gp_NLeg g) _ (fun e => if Nat.leb m e then
       gp_I0_div_4pi g * c * poch_term m e * lpmv m e (- gp_mu0 g) * gp_omega g l * gp_wLeg g l e * lpmv m e (- mu i) else 0)).
    2:{ intros e He. destruct (Nat.leb m e); ring. }
    rewrite <- (rsum_from (gp_NLeg g) m (fun e => gp_I0_div_4pi g * c * poch_term m e * lpmv m e (- gp_mu0 g) * gp_omega g l * gp_wLeg g l e * lpmv m e (- mu i))).
    apply rsum_ext. intros k Hk. unfold leg_neg, leg_pos. rewrite (lpmv_neg m k (mu i)). reflexivity.
  Qed.

  Lemma scatters_iff m l : scatters g m l = true <-> ~ negligible (gp_omega g l) (gp_wLeg g l) (gp_NLeg g) m.
  Proof.
    unfold scatters, negligible. rewrite (existsb_seq_iff g). split.
    - intros (k & Hk & E) C. apply Rltb_iff in E. specialize (C (m + k)%nat ltac:(lia)). unfold om_leg in E. lra.
    - intros C. apply Classical_Prop.NNPP. intros D. apply C. intros e He.
      destruct (Rle_or_lt (Rabs (gp_omega g l / 2 * gp_wLeg g l e)) (1 / 100000000)) as [H|H]; auto.
      exfalso. apply D. exists (e - m)%nat. split; [lia|]. apply Rltb_iff. unfold om_leg.
      replace (m + (e - m))%nat with e by lia. auto.
  Qed.

  Hypothesis Hmu : forall i, (i < N)%nat -> 0 < mu i /\ gp_M_inv g i = 1 / mu i.

  Definition Af (m l : nat) (wg : vec) : mat := A_spec N mu (gp_W g) (gp_omega g l) wg (gp_NLeg g) m.

  Lemma node_lo i : (i < N)%nat -> node N mu i = mu i.
  Proof. intros. unfold node. rewrite (proj2 (Nat.ltb_lt _ _)) by auto. reflexivity. Qed.
  Lemma node_hi i : node N mu (N + i)%nat = - mu i.
  Proof. unfold node. rewrite (proj2 (Nat.ltb_ge _ _)) by lia. do 2 f_equal. lia. Qed.
  Lemma wnode_lo i w : (i < N)%nat -> wnode N w i = w i.
  Proof. intros. unfold wnode. rewrite (proj2 (Nat.ltb_lt _ _)) by auto. reflexivity. Qed.
  Lemma wnode_hi i w : wnode N w (N + i)%nat = w i.
  Proof. unfold wnode. rewrite (proj2 (Nat.ltb_ge _ _)) by lia. f_equal. lia. Qed.

  Lemma A_blocks m l i j : (i < N)%nat -> (j < N)%nat ->
    Af m l (gp_wLeg g l) i j = - alpha g m l i j /\
    Af m l (gp_wLeg g l) i (N + j)%nat = - beta g m l i j /\
    Af m l (gp_wLeg g l) (N + i)%nat j = beta g m l i j /\
    Af m l (gp_wLeg g l) (N + i)%nat (N + j)%nat = alpha g m l i j.
  Proof.
    intros Hi Hj. unfold Af, A_spec. rewrite !node_hi, !node_lo, !wnode_hi, !wnode_lo by auto.
    unfold alpha, beta. rewrite D_pos_eq, D_neg_eq, D_spec_negneg, D_spec_neg.
    destruct (Hmu i Hi) as [Hp ->].
    rewrite (delta_ne i (N + j)), (delta_ne (N + i) j) by lia.
    replace (delta (N + i) (N + j)) with (delta i j).
    2:{ unfold delta. destruct (Nat.eqb_spec i j); destruct (Nat.eqb_spec (N + i) (N + j)); auto; lia. }
    repeat split; field; lra.
  Qed.

  Variable la : linalg.
  Hypothesis Hla : linalg_ok la.

  (** What the eigen-decomposition gives. *)
  Lemma gp_eig_alg A e : gp_eig g la A = Ok e ->
    let al : mat := fun i j => A (N + i)%nat (N + j)%nat in
    let be : mat := fun i j => A (N + i)%nat j in
    (forall j, (j < N)%nat -> 0 < fst e j) /\
    forall i j, (i < N)%nat -> (j < N)%nat ->
      rsum N (fun p => al i p * gp_P g A e p j + be i p * gp_Q g A e p j) = fst e j * gp_P g A e i j /\
      rsum N (fun p => be i p * gp_P g A e p j + al i p * gp_Q g A e p j) = - fst e j * gp_Q g A e i j.
  Proof.
    intros H al be. unfold gp_eig in H. fold N in H.
    apply bind_Ok in H as ([k2 E] & HE & H).
    destruct (forallb (fun j => Rltb 0 (of_list k2 j)) (seq 0 N)) eqn:Hf; [|discriminate].
    inversion H; subst e; clear H. cbn [fst snd].
    assert (Hk : forall j, (j < N)%nat -> 0 < of_list k2 j).
    { intros j Hj. rewrite forallb_forall in Hf. apply Rltb_iff. apply Hf. apply in_seq. lia. }
    assert (Hs : forall j, (j < N)%nat -> 0 < sqrt (of_list k2 j)) by (intros; apply sqrt_lt_R0; auto).
    split; [exact Hs|].
    unfold ofopt in HE. match type of HE with match ?t with _ => _ end = _ => destruct t as [[k2' E']|] eqn:Ee; [|discriminate] end.
    inversion HE; subst k2' E'; clear HE.
    pose proof (eig_ok la Hla _ _ _ _ Ee) as Heig. clear Ee.
    set (e := (fun j : nat => sqrt (of_list k2 j), of_rows E)).
    intros i j Hi Hj.
    set (k := sqrt (of_list k2 j)). assert (Hkj : 0 < k) by (apply Hs; auto).
    assert (Hkk : k * k = of_list k2 j) by (apply sqrt_sqrt; apply Rlt_le; auto).
    set (F := fun a => rsum N (fun p => (al a p + be a p) * (of_rows E p j / 2 / k))).
    assert (EP : forall a, gp_P g A e a j = of_rows E a j / 2 + F a).
    { intros a. unfold gp_P, mmul. fold N. reflexivity. }
    assert (EQ : forall a, gp_Q g A e a j = of_rows E a j / 2 - F a).
    { intros a. unfold gp_Q, mmul. fold N. reflexivity. }
    assert (F1 : forall a, (a < N)%nat -> rsum N (fun p => (al a p + be a p) * (of_rows E p j / 2)) = k * F a).
    { intros a Ha. unfold F. rewrite <- rsum_scal. apply rsum_ext. intros p Hp. field. lra. }
    assert (F2 : rsum N (fun p => (al i p - be i p) * F p) = k * (of_rows E i j / 2)).
    { specialize (Heig i j Hi Hj). unfold mmul in Heig.
      rewrite <- Hkk in Heig.
      apply (Rmult_eq_reg_r (2 * k)); [|lra].
      replace (k * (of_rows E i j / 2) * (2 * k)) with (of_rows E i j * (k * k)) by field.
      rewrite <- Heig. rewrite <- rsum_scal_r.
      transitivity (rsum N (fun q => rsum N (fun p => (al i q - be i q) * (al q p + be q p) * of_rows E p j))).
      - apply rsum_ext. intros q Hq. unfold F. rewrite Rmult_assoc. rewrite <- rsum_scal_r, <- rsum_scal. apply rsum_ext. intros p Hp. field. lra.
      - rewrite rsum_swap. apply rsum_ext. intros p Hp. rewrite <- rsum_scal_r. apply rsum_ext. intros q Hq. reflexivity. }
    specialize (F1 i Hi). fold e. rewrite EP, EQ. split.
    - rewrite (rsum_ext N _ (fun p => (al i p + be i p) * (of_rows E p j / 2) + (al i p - be i p) * F p)).
      2:{ intros p Hp. rewrite EP, EQ. ring. }
      rewrite rsum_plus, F1, F2. ring.
    - rewrite (rsum_ext N _ (fun p => (al i p + be i p) * (of_rows E p j / 2) - (al i p - be i p) * F p)).
      2:{ intros p Hp. rewrite EP, EQ. ring. }
      rewrite rsum_minus, F1, F2. ring.
  Qed.

  Lemma cA_lo m l i j : (j < N)%nat -> cA g m l (N + i)%nat j = beta g m l i j.
  Proof. intros. unfold cA. fold N. rewrite (proj2 (Nat.ltb_ge _ _)), (proj2 (Nat.ltb_lt _ _)) by lia. f_equal; lia. Qed.
  Lemma cA_hi m l i j : cA g m l (N + i)%nat (N + j)%nat = alpha g m l i j.
  Proof. unfold cA. fold N. rewrite !(proj2 (Nat.ltb_ge _ _)) by lia. f_equal; lia. Qed.

  Lemma lt_cases i : (i < NQ)%nat -> (i < N)%nat \/ exists i', (i' < N)%nat /\ i = (N + i')%nat.
  Proof. unfold NQ. fold N. intros. destruct (Nat.lt_ge_cases i N); [left; auto|right; exists (i - N)%nat; lia]. Qed.

  Lemma rsum_NQ f : rsum NQ f = rsum N (fun i => f i + f (N + i)%nat).
  Proof. unfold NQ. fold N. replace (2 * N)%nat with (N + N)%nat by lia. rewrite rsum_split, rsum_plus. reflexivity. Qed.

  Lemma blockG_ll P Q i j : (i < N)%nat -> (j < N)%nat -> blockG g P Q i j = P i j.
  Proof. intros. unfold blockG. fold N. rewrite !(proj2 (Nat.ltb_lt _ _)) by lia. auto. Qed.
  Lemma blockG_lh P Q i j : (i < N)%nat -> blockG g P Q i (N + j)%nat = Q i j.
  Proof. intros. unfold blockG. fold N. rewrite (proj2 (Nat.ltb_lt _ _)), (proj2 (Nat.ltb_ge _ _)) by lia. f_equal; lia. Qed.
  Lemma blockG_hl P Q i j : (j < N)%nat -> blockG g P Q (N + i)%nat j = Q i j.
  Proof. intros. unfold blockG. fold N. rewrite (proj2 (Nat.ltb_lt j _)), (proj2 (Nat.ltb_ge _ _)) by lia. f_equal; lia. Qed.
  Lemma blockG_hh P Q i j : blockG g P Q (N + i)%nat (N + j)%nat = P i j.
  Proof. intros. unfold blockG. fold N. rewrite !(proj2 (Nat.ltb_ge _ _)) by lia. f_equal; lia. Qed.

  Lemma AG_alg m l e : gp_eig g la (cA g m l) = Ok e ->
    forall i j, (i < NQ)%nat -> (j < NQ)%nat ->
    let G := blockG g (gp_P g (cA g m l) e) (gp_Q g (cA g m l) e) in
    rsum NQ (fun p => Af m l (gp_wLeg g l) i p * G p j) = G i j * (if Nat.ltb j N then - fst e j else fst e (j - N)%nat).
  Proof.
    intros He i j Hi Hj G. destruct (gp_eig_alg _ _ He) as [Hk Halg].
    assert (H1 : forall i j, (i < N)%nat -> (j < N)%nat ->
       rsum N (fun p => alpha g m l i p * gp_P g (cA g m l) e p j + beta g m l i p * gp_Q g (cA g m l) e p j) = fst e j * gp_P g (cA g m l) e i j /\
       rsum N (fun p => beta g m l i p * gp_P g (cA g m l) e p j + alpha g m l i p * gp_Q g (cA g m l) e p j) = - fst e j * gp_Q g (cA g m l) e i j).
    { intros a b Ha Hb. destruct (Halg a b Ha Hb) as [A1 A2]. split; [rewrite <- A1|rewrite <- A2];
        apply rsum_ext; intros p Hp; rewrite cA_hi, cA_lo by auto; reflexivity. }
    rewrite rsum_NQ. unfold G.
    destruct (lt_cases i Hi) as [Hi'|(i' & Hi' & ->)]; destruct (lt_cases j Hj) as [Hj'|(j' & Hj' & ->)].
    - rewrite (proj2 (Nat.ltb_lt _ _)) by auto. rewrite blockG_ll by auto. destruct (H1 i j Hi' Hj') as [A1 A2].
      replace (gp_P g (cA g m l) e i j * - fst e j) with (- (fst e j * gp_P g (cA g m l) e i j)) by ring. rewrite <- A1, <- rsum_opp.
      apply rsum_ext. intros p Hp. rewrite blockG_ll, blockG_hl by auto.
      destruct (A_blocks m l i p Hi' Hp) as (-> & -> & _). ring.
    - rewrite (proj2 (Nat.ltb_ge _ _)) by lia. rewrite blockG_lh by auto. replace (N + j' - N)%nat with j' by lia.
      destruct (H1 i j' Hi' Hj') as [A1 A2].
      replace (gp_Q g (cA g m l) e i j' * fst e j') with (- (- fst e j' * gp_Q g (cA g m l) e i j')) by ring. rewrite <- A2, <- rsum_opp.
      apply rsum_ext. intros p Hp. rewrite blockG_lh, blockG_hh by auto.
      destruct (A_blocks m l i p Hi' Hp) as (-> & -> & _). ring.
    - rewrite (proj2 (Nat.ltb_lt _ _)) by auto. rewrite blockG_hl by auto. destruct (H1 i' j Hi' Hj') as [A1 A2].
      replace (gp_Q g (cA g m l) e i' j * - fst e j) with (- fst e j * gp_Q g (cA g m l) e i' j) by ring. rewrite <- A2.
      apply rsum_ext. intros p Hp. rewrite blockG_ll, blockG_hl by auto.
      destruct (A_blocks m l i' p Hi' Hp) as (_ & _ & -> & ->). ring.
    - rewrite (proj2 (Nat.ltb_ge _ _)) by lia. rewrite blockG_hh by auto. replace (N + j' - N)%nat with j' by lia.
      destruct (H1 i' j' Hi' Hj') as [A1 A2].
      replace (gp_P g (cA g m l) e i' j' * fst e j') with (fst e j' * gp_P g (cA g m l) e i' j') by ring. rewrite <- A1.
      apply rsum_ext. intros p Hp. rewrite blockG_lh, blockG_hh by auto.
      destruct (A_blocks m l i' p Hi' Hp) as (_ & _ & -> & ->). ring.
  Qed.

  Lemma D_spec_0 om wg NLeg m x y : (forall e, wg e = 0) -> D_spec om wg NLeg m x y = 0.
  Proof.
    intros H. unfold D_spec. rewrite rsum_0; [ring|]. intros e He. destruct (Nat.leb m e); auto. rewrite H. ring.
  Qed.
  Lemma X_spec_0 I om wg NLeg m mu0 x : (forall e, wg e = 0) -> X_spec I om wg NLeg m mu0 x = 0.
  Proof.
    intros H. unfold X_spec. rewrite rsum_0; [ring|]. intros e He. destruct (Nat.leb m e); auto. rewrite H. ring.
  Qed.
  Lemma D_spec_ext om wg wg' NLeg m x y : (forall e, wg e = wg' e) -> D_spec om wg NLeg m x y = D_spec om wg' NLeg m x y.
  Proof. intros H. unfold D_spec. f_equal. apply rsum_ext. intros. rewrite H. reflexivity. Qed.
  Lemma X_spec_ext I om wg wg' NLeg m mu0 x : (forall e, wg e = wg' e) -> X_spec I om wg NLeg m mu0 x = X_spec I om wg' NLeg m mu0 x.
  Proof. intros H. unfold X_spec. f_equal. apply rsum_ext. intros. rewrite H. reflexivity. Qed.

  Lemma Af_trivial m l wg i j : (forall e, wg e = 0) -> Af m l wg i j = delta i j / node N mu i.
  Proof. intros H. unfold Af, A_spec. rewrite D_spec_0 by auto. f_equal. ring. Qed.
  Lemma Af_ext m l wg wg' i j : (forall e, wg e = wg' e) -> Af m l wg i j = Af m l wg' i j.
  Proof. intros H. unfold Af, A_spec. rewrite (D_spec_ext _ _ _ _ _ _ _ H). reflexivity. Qed.

  Variables (jG : nat -> mat) (jK : nat -> vec) (jA : nat -> mat) (jX : nat -> vec) (jGi : nat -> mat).
  Variable o : gp_out.
  Hypothesis Ho : gen_and_part_sols g la jG jK jA jX jGi = Ok o.

  Lemma out_char m l : (m < NF)%nat -> (l < NL)%nat ->
    if scatters g m l then
      exists e, gp_eig g la (cA g m l) = Ok e /\
      (forall i j, (i < NQ)%nat -> (j < NQ)%nat -> o_G o m l i j = blockG g (gp_P g (cA g m l) e) (gp_Q g (cA g m l) e) i j) /\
      (forall i, (i < NQ)%nat -> o_K o m l i = if Nat.ltb i N then - fst e i else fst e (i - N)%nat) /\
      (gp_iso g = true -> m = 0%nat -> exists L, la_inv la (rows NQ NQ (o_G o m l)) = Some L /\ o_Ginv o l = of_rows L) /\
      (gp_beam g = true ->
         (gp_iso g = true -> m = 0%nat -> exists X, (forall i, (i < NQ)%nat -> X i = cX g m l i) /\
              B_from_inv g (o_G o m l) (o_K o m l) (o_Ginv o l) X = Ok (o_B o m l)) /\
         (~ (gp_iso g = true /\ m = 0%nat) -> B_from_solve g la (cA g m l) (cX g m l) = Ok (o_B o m l)))
    else
      o_G o m l = G_trivial g /\
      (forall i, (i < N)%nat -> o_K o m l i = - gp_M_inv g i /\ o_K o m l (N + i)%nat = gp_M_inv g i) /\
      (forall i, o_B o m l i = 0) /\
      (gp_iso g = true -> m = 0%nat -> o_Ginv o l = G_trivial g).
  Proof.
    intros Hm Hl. unfold gen_and_part_sols in Ho. apply bind_Ok in Ho as (s & Hs & E). inversion E; subst o; clear E.
    cbn [o_G o_K o_B o_Ginv]. fold NL.
    pose proof (loop_inv g jG jK jA jX jGi) as HI. set (s0 := gp_loop g (gp_init jG jK jA jX jGi)) in *.
    pose proof (post_ok g la s0 s HI Hs m l Hm Hl) as H. cbv zeta in H. fold NL in H.
    destruct (scatters g m l) eqn:Es; [|exact H].
    destruct H as (e & H1 & H2 & H3 & H4 & H5). exists e.
    split; [exact H1|]. split; [exact H2|]. split; [exact H3|]. split; [exact H4|].
    intros Hb. destruct (H5 Hb) as [H5a H5b]. split; [|exact H5b].
    intros Hiso H0. exists (sX s0 (m * NL + l)%nat). split; [|apply H5a; auto].
    intros i Hi. apply inv_X; auto.
  Qed.

  Theorem eigen_pairs m l wg' : (m < NF)%nat -> (l < NL)%nat ->
    is_cutoff (gp_omega g l) (gp_wLeg g l) (gp_NLeg g) m wg' ->
    (forall i j, (i < NQ)%nat -> (j < NQ)%nat ->
       rsum NQ (fun p => Af m l wg' i p * o_G o m l p j) = o_G o m l i j * o_K o m l j) /\
    (forall j, (j < N)%nat -> 0 < o_K o m l (N + j)%nat /\ o_K o m l j = - o_K o m l (N + j)%nat).
  Proof.
    intros Hm Hl Hcut. pose proof (out_char m l Hm Hl) as H.
    destruct (scatters g m l) eqn:Es.
    - destruct H as (e & H1 & H2 & H3 & _).
      assert (Hw : forall e, wg' e = gp_wLeg g l e) by (apply Hcut, scatters_iff; auto).
      split.
      + intros i j Hi Hj. rewrite (rsum_ext NQ _ (fun p => Af m l (gp_wLeg g l) i p * blockG g (gp_P g (cA g m l) e) (gp_Q g (cA g m l) e) p j)).
        2:{ intros p Hp. rewrite (Af_ext m l _ _ i p Hw), (H2 p j) by auto. reflexivity. }
        rewrite (AG_alg m l e H1 i j Hi Hj), H2, H3 by auto. reflexivity.
      + intros j Hj. destruct (gp_eig_alg _ _ H1) as [Hk _].
        rewrite !H3 by (unfold NQ; fold N; lia). rewrite (proj2 (Nat.ltb_lt j N)), (proj2 (Nat.ltb_ge (N + j) N)) by lia.
        replace (N + j - N)%nat with j by lia. split; auto.
    - destruct H as (H1 & H2 & _).
      assert (Hw : forall e, wg' e = 0).
      { apply Hcut. apply Classical_Prop.NNPP. intros C. apply scatters_iff in C. congruence. }
      split.
      + intros i j Hi Hj. rewrite (rsum_ext NQ _ (fun p => delta i p * (/ node N mu i * o_G o m l p j))).
        2:{ intros p Hp. rewrite Af_trivial by auto. unfold Rdiv. ring. }
        rewrite rsum_delta_l by auto. rewrite H1, G_trivial_spec by auto. fold N.
        destruct (lt_cases i Hi) as [Hi'|(i' & Hi' & ->)].
        * rewrite (proj2 (Nat.ltb_lt i N)) by auto. rewrite node_lo by auto. unfold delta.
          destruct (Nat.eqb_spec (N + i) j) as [<-|]; [|ring].
          destruct (H2 i Hi') as [_ ->]. destruct (Hmu i Hi') as [Hp ->]. field. lra.
        * rewrite (proj2 (Nat.ltb_ge (N + i') N)) by lia. rewrite node_hi. replace (N + i' - N)%nat with i' by lia. unfold delta.
          destruct (Nat.eqb_spec i' j) as [<-|]; [|ring].
          destruct (H2 i' Hi') as [-> _]. destruct (Hmu i' Hi') as [Hp ->]. field. lra.
      + intros j Hj. destruct (H2 j Hj) as [-> ->]. destruct (Hmu j Hj) as [Hp ->]. split; [|ring].
        apply Rdiv_lt_0_compat; lra.
  Qed.

  Lemma cX_eq m l i : (i < NQ)%nat ->
    cX g m l i = X_spec (gp_I0_div_4pi g) (gp_omega g l) (gp_wLeg g l) (gp_NLeg g) m (gp_mu0 g) (node N mu i) / node N mu i.
  Proof.
    intros Hi. unfold cX. fold N. destruct (lt_cases i Hi) as [Hi'|(i' & Hi' & ->)].
    - rewrite (proj2 (Nat.ltb_lt i N)), node_lo, X_pos_eq by auto. destruct (Hmu i Hi') as [Hp ->]. field. lra.
    - rewrite (proj2 (Nat.ltb_ge (N + i') N)), node_hi by lia. replace (N + i' - N)%nat with i' by lia.
      rewrite X_neg_eq. destruct (Hmu i' Hi') as [Hp ->]. field. lra.
  Qed.

  Lemma A_full_eq m l i j : (i < NQ)%nat -> (j < NQ)%nat ->
    A_full g (cA g m l) i j = Af m l (gp_wLeg g l) i j + delta i j * (1 / gp_mu0 g).
  Proof.
    intros Hi Hj. unfold A_full. fold N. f_equal.
    destruct (lt_cases i Hi) as [Hi'|(i' & Hi' & ->)]; destruct (lt_cases j Hj) as [Hj'|(j' & Hj' & ->)].
    - rewrite setblk_in by lia. rewrite setblk_out by lia. rewrite !Nat.sub_0_r, cA_hi.
      destruct (A_blocks m l i j Hi' Hj') as (-> & _). reflexivity.
    - rewrite setblk_out by lia. rewrite setblk_in by lia. rewrite Nat.sub_0_r. replace (N + j' - N)%nat with j' by lia.
      rewrite cA_lo by auto. destruct (A_blocks m l i j' Hi' Hj') as (_ & -> & _). reflexivity.
    - rewrite !setblk_out by lia. rewrite cA_lo by auto. destruct (A_blocks m l i' j Hi' Hj') as (_ & _ & -> & _). reflexivity.
    - rewrite !setblk_out by lia. rewrite cA_hi. destruct (A_blocks m l i' j' Hi' Hj') as (_ & _ & _ & ->). reflexivity.
  Qed.

  Theorem beam_particular m l wg' : gp_beam g = true -> (m < NF)%nat -> (l < NL)%nat ->
    is_cutoff (gp_omega g l) (gp_wLeg g l) (gp_NLeg g) m wg' ->
    (forall i, (i < NQ)%nat ->
       rsum NQ (fun j => (Af m l wg' i j + delta i j / gp_mu0 g) * o_B o m l j)
       = X_spec (gp_I0_div_4pi g) (gp_omega g l) wg' (gp_NLeg g) m (gp_mu0 g) (node N mu i) / node N mu i) /\
    (negligible (gp_omega g l) (gp_wLeg g l) (gp_NLeg g) m -> forall i, o_B o m l i = 0).
  Proof.
    intros Hb Hm Hl Hcut. pose proof (out_char m l Hm Hl) as H.
    destruct (scatters g m l) eqn:Es.
    - pose proof Es as Es'. apply scatters_iff in Es'. split; [|tauto].
      assert (Hw : forall e, wg' e = gp_wLeg g l e) by (apply Hcut; auto).
      destruct H as (e & H1 & H2 & H3 & H4 & H5). destruct (H5 Hb) as [H5a H5b]. clear H5.
      intros i Hi. rewrite (X_spec_ext _ _ _ _ _ _ _ _ Hw). rewrite <- cX_eq by auto.
      destruct (Classical_Prop.classic (gp_iso g = true /\ m = 0%nat)) as [[Hiso H0]|Hn].
      + destruct (H5a Hiso H0) as (X & HX & HB). destruct (H4 Hiso H0) as (L & HLi & HGi).
        unfold B_from_inv in HB. fold NQ in HB.
        destruct (forallb (fun k => negb (Reqb (1 / gp_mu0 g + o_K o m l k) 0)) (seq 0 NQ)) eqn:Hf; [|discriminate].
        assert (Hd : forall k, (k < NQ)%nat -> 1 / gp_mu0 g + o_K o m l k <> 0).
        { intros k Hk. rewrite forallb_forall in Hf. specialize (Hf k ltac:(apply in_seq; lia)).
          apply negb_true_iff, Reqb_false in Hf. auto. }
        injection HB as HB. rewrite <- (HX i Hi).
        pose proof (inv_ok la Hla _ _ _ HLi) as Hinv. rewrite <- HGi in Hinv.
        destruct (eigen_pairs m l wg' Hm Hl Hcut) as [HE _].
        rewrite (rsum_ext NQ _ (fun j => rsum NQ (fun q => (Af m l wg' i j + delta i j / gp_mu0 g) * o_G o m l j q *
             rsum NQ (fun k => / (1 / gp_mu0 g + o_K o m l q) * o_Ginv o l q k * X k)))).
        2:{ intros j Hj. rewrite <- HB. rewrite of_list_vlist by auto.
            rewrite <- rsum_scal. apply rsum_ext. intros q Hq. rewrite <- !rsum_scal. apply rsum_ext. intros k Hk.
            unfold Rdiv. ring. }
        rewrite rsum_swap.
        rewrite (rsum_ext NQ _ (fun q => rsum NQ (fun k => o_G o m l i q * o_Ginv o l q k * X k))).
        2:{ intros q Hq. rewrite rsum_scal_r.
            replace (rsum NQ (fun j => (Af m l wg' i j + delta i j / gp_mu0 g) * o_G o m l j q))
              with (o_G o m l i q * (1 / gp_mu0 g + o_K o m l q)).
            - rewrite <- rsum_scal. apply rsum_ext. intros k Hk. specialize (Hd q Hq).
              set (d := 1 / gp_mu0 g + o_K o m l q) in *. clearbody d. field. auto.
            - rewrite (rsum_ext NQ _ (fun j => Af m l wg' i j * o_G o m l j q + delta i j * (/ gp_mu0 g * o_G o m l j q))).
              2:{ intros j Hj. unfold Rdiv. ring. }
              rewrite rsum_plus, HE, rsum_delta_l by auto. unfold Rdiv. ring. }
        rewrite rsum_swap. rewrite (rsum_ext NQ _ (fun k => delta i k * X k)).
        2:{ intros k Hk. rewrite rsum_scal_r. rewrite Hinv by auto. reflexivity. }
        apply rsum_delta_l; auto.
      + specialize (H5b Hn). unfold B_from_solve in H5b. fold NQ in H5b.
        apply bind_Ok in H5b as (x & Hx & E). inversion E as [E']. 
        unfold ofopt in Hx. destruct (la_solve la (rows NQ NQ (A_full g (cA g m l))) (vlist NQ (cX g m l))) as [x'|] eqn:Es2; [|discriminate].
        inversion Hx; subst x'. pose proof (solve_ok la Hla _ _ _ _ Es2 i Hi) as Hs. rewrite <- Hs.
        apply rsum_ext. intros j Hj. rewrite A_full_eq, (Af_ext m l _ _ i j Hw) by auto. unfold Rdiv. ring.
    - destruct H as (_ & _ & H3 & _). split; [|auto].
      assert (Hw : forall e, wg' e = 0).
      { apply Hcut. apply Classical_Prop.NNPP. intros C. apply scatters_iff in C. congruence. }
      intros i Hi. rewrite X_spec_0 by auto. rewrite rsum_0; [unfold Rdiv; ring|]. intros j Hj. rewrite H3. ring.
  Qed.

  (** The matrix returned for the isotropic source inverts the eigenvector matrix. *)
  Theorem ginv_spec l : gp_iso g = true -> (0 < NF)%nat -> (l < NL)%nat ->
    forall i j, (i < NQ)%nat -> (j < NQ)%nat -> rsum NQ (fun p => o_G o 0 l i p * o_Ginv o l p j) = delta i j.
  Proof.
    intros Hiso Hm Hl i j Hi Hj. pose proof (out_char 0 l Hm Hl) as H.
    destruct (scatters g 0 l) eqn:Es.
    - destruct H as (e & _ & _ & _ & H4 & _). destruct (H4 Hiso eq_refl) as (L & HL & ->).
      apply (inv_ok la Hla _ _ _ HL); auto.
    - destruct H as (-> & _ & _ & H4). rewrite (H4 Hiso eq_refl).
      rewrite (rsum_ext NQ _ (fun p => (if Nat.ltb i N then delta (N + i) p else delta (i - N) p) * G_trivial g p j)).
      2:{ intros p Hp. rewrite (G_trivial_spec g i p) by auto. reflexivity. }
      destruct (lt_cases i Hi) as [Hi'|(i' & Hi' & ->)].
      + rewrite (proj2 (Nat.ltb_lt i N)) by auto. rewrite rsum_delta_l by (unfold NQ; fold N; lia).
        rewrite G_trivial_spec by (auto; unfold NQ; fold N; lia). fold N.
        rewrite (proj2 (Nat.ltb_ge (N + i) N)) by lia. f_equal; lia.
      + rewrite (proj2 (Nat.ltb_ge (N + i') N)) by lia. replace (N + i' - N)%nat with i' by lia.
        rewrite rsum_delta_l by (unfold NQ; fold N; lia).
        rewrite G_trivial_spec by (auto; unfold NQ; fold N; lia). fold N.
        rewrite (proj2 (Nat.ltb_lt i' N)) by lia. reflexivity.
  Qed.
End GP3.
