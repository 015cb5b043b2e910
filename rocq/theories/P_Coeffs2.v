(** The boundary system: right-hand side, and what its solution means for the field. *)
From Coq Require Import String Reals Lra Lia List Bool Arith ZArith.
From Verif Require Import Base Tensor Spec M_LinAlg Spec_RTE M_Subroutines M_GenPart M_MathscrV M_Coeffs P_GenPart P_Tensor P_MathscrV P_Coeffs.
Import ListNotations.
Local Open Scope R_scope.

Lemma opseg_in f v i0 n w i : (i < n)%nat -> opseg f v i0 n w (i0 + i)%nat = f (v (i0 + i)%nat) (w i).
Proof. intros H. unfold opseg. rewrite setseg_in by lia. replace (i0 + i - i0)%nat with i by lia. reflexivity. Qed.
Lemma opseg_out f v i0 n w i : ~ (i0 <= i < i0 + n)%nat -> opseg f v i0 n w i = v i.
Proof. intros H. unfold opseg. apply setseg_out; auto. Qed.

Section Rhs.
  Variable g : sc_in.
  Let N := sc_N g.
  Let NQ := (2 * sc_N g)%nat.
  Let NL := sc_NLayers g.
  Let dim := (sc_NLayers g * (2 * sc_N g))%nat.
  Hypothesis HN : (1 <= N)%nat.
  Hypothesis HNL : (1 <= NL)%nat.
  Hypothesis Hmulti : sc_multi g = Nat.ltb 1 NL.
  Variable m : nat.

  (** Particular solutions as functions of layer, direction and depth. *)
  Definition part_iso (l q : nat) (x : R) : R :=
    if (Nat.eqb m 0 && sc_iso g)%bool
    then vsol NQ (sc_Ns g) (sc_s g l) (sc_G g 0%nat l) (sc_K g 0%nat l) (sc_gmi g l) q x else 0.
  Definition part_beam (l q : nat) : R := if sc_beam g then sc_B g m l q else 0.
  Definition bdR (bd : option (mat * vec)) : mat := match bd with Some (R, _) => R | None => fun _ _ => 0 end.
  Definition bdX (bd : option (mat * vec)) : vec := match bd with Some (_, X) => X | None => fun _ => 0 end.

  Hypothesis HK : sc_iso g = true -> forall l k, (l < NL)%nat -> (k < NQ)%nat -> sc_K g 0%nat l k <> 0.

  Lemma v_at_val ids lo nr tau pos :
    sc_iso g = true -> (forall l, In l ids -> (l < NL)%nat) -> length pos = length tau -> (forall p, In p pos -> (p < length ids)%nat) ->
    exists C, v_at g ids lo nr tau pos = Ok C /\
      T2 C nr (length tau) (fun q t => let l := nth (nth t pos 0%nat) ids 0%nat in
         vsol NQ (sc_Ns g) (sc_s g l) (sc_G g 0%nat l) (sc_K g 0%nat l) (sc_gmi g l) (lo + q) (nth t tau 0)).
  Proof.
    intros Hiso Hids Hlen Hpos. unfold v_at.
    match goal with |- exists C, mathscr_v _ _ _ _ _ _ _ ?s ?G ?K ?gm _ = _ /\ _ =>
      destruct (mathscr_v_val nr NQ (length ids) tau (t0 0) pos (sc_Ns g) s G K gm Hlen Hpos) as (C & HC & TC) end.
    - intros ll k Hll Hk. apply HK; auto. apply Hids, nth_In; auto.
    - exists C. split; [exact HC|]. refine (T2_ext _ _ _ _ _ _ TC). intros q t Hq Ht. reflexivity.
  Qed.

  Lemma dim_eq2 : dim = (NL * (2 * N))%nat. Proof. reflexivity. Qed.
  Lemma dim_ge2 : (2 * N <= dim)%nat. Proof. rewrite dim_eq2. nia. Qed.
  Lemma dim_1 : NL = 1%nat -> dim = (2 * N)%nat. Proof. intros H. rewrite dim_eq2, H. lia. Qed.
  Lemma mid_row l a : (l < NL - 1)%nat -> (a < 2 * N)%nat -> (l * (2 * N) + a < dim - N - N)%nat.
  Proof. intros. rewrite dim_eq2. nia. Qed.
  Lemma row_if_eq l a : row_if g l a = (N + (l * (2 * N) + a))%nat.
  Proof. unfold row_if. fold N. lia. Qed.
  Lemma mid_div l a : (a < 2 * N)%nat -> ((l * (2 * N) + a) / (2 * N) = l /\ (l * (2 * N) + a) mod (2 * N) = a)%nat.
  Proof.
    intros Ha. split.
    - rewrite Nat.add_comm, Nat.div_add, Nat.div_small by lia. reflexivity.
    - rewrite Nat.add_comm, Nat.mod_add, Nat.mod_small by lia. reflexivity.
  Qed.

  Variable bd : option (mat * vec).

  Lemma rhs_iso_val r : exists r', rhs_iso g m bd r = Ok r' /\
    (forall i, (i < N)%nat -> r' i = r i - part_iso 0 (N + i) 0) /\
    (forall l a, (l < NL - 1)%nat -> (a < 2 * N)%nat ->
       r' (row_if g l a) = r (row_if g l a) + (part_iso (l + 1) a (sc_tau0 g (l + 1)%nat) - part_iso l a (sc_tau0 g (l + 1)%nat))) /\
    (forall a, (a < N)%nat ->
       r' (dim - N + a)%nat = r (dim - N + a)%nat - part_iso (NL - 1) a (sc_tau0 g NL)
          + mvec N (bdR bd) (fun p => part_iso (NL - 1) (N + p) (sc_tau0 g NL)) a).
  Proof.
    unfold rhs_iso, part_iso. destruct (Nat.eqb m 0 && sc_iso g)%bool eqn:Eb.
    2:{ exists r. split; [reflexivity|]. repeat split; intros; try ring.
        unfold mvec. rewrite rsum_0; [ring|]. intros; ring. }
    apply andb_prop in Eb as [Em Hiso].
    pose proof dim_ge2 as Hd.
    change (2 * sc_N g)%nat with NQ. change (sc_N g) with N. change (sc_NLayers g) with NL.
    replace (NL * NQ)%nat with dim by reflexivity.
    destruct (v_at_val [0%nat] N N [0] [0%nat] Hiso) as (vt & E1 & [_ T1]).
    { intros l [<-|[]]; lia. } { reflexivity. } { intros p [<-|[]]; cbn; lia. }
    rewrite E1. cbn [bind].
    destruct (v_at_val [(NL - 1)%nat] 0 N [sc_tau0 g NL] [0%nat] Hiso) as (vb & E3 & [_ T3]).
    { intros l [<-|[]]; lia. } { reflexivity. } { intros p [<-|[]]; cbn; lia. }
    destruct (v_at_val [(NL - 1)%nat] N N [sc_tau0 g NL] [0%nat] Hiso) as (vn & E4 & [_ T4]).
    { intros l [<-|[]]; lia. } { reflexivity. } { intros p [<-|[]]; cbn; lia. }
    set (r1 := opseg Rminus r 0 N (ravel1 vt)).
    assert (H2 : exists r2, (if sc_multi g then
        let! vp := v_at g (map S (seq 0 (NL - 1))) 0 NQ (map (fun l => sc_tau0 g (S l)) (seq 0 (NL - 1))) (seq 0 (NL - 1)) in
        let! vm := v_at g (seq 0 (NL - 1)) 0 NQ (map (fun l => sc_tau0 g (S l)) (seq 0 (NL - 1))) (seq 0 (NL - 1)) in
        let! d := tsub vp vm in Ok (opseg Rplus r1 N (dim - N - N) (ravelF NQ d)) else Ok r1) = Ok r2 /\
        (forall i, (i < N)%nat -> r2 i = r1 i) /\ (forall a, (a < N)%nat -> r2 (dim - N + a)%nat = r1 (dim - N + a)%nat) /\
        (forall l a, (l < NL - 1)%nat -> (a < 2 * N)%nat ->
           r2 (row_if g l a) = r1 (row_if g l a) +
           (vsol NQ (sc_Ns g) (sc_s g (l + 1)%nat) (sc_G g 0%nat (l + 1)%nat) (sc_K g 0%nat (l + 1)%nat) (sc_gmi g (l + 1)%nat) a (sc_tau0 g (l + 1)%nat)
            - vsol NQ (sc_Ns g) (sc_s g l) (sc_G g 0%nat l) (sc_K g 0%nat l) (sc_gmi g l) a (sc_tau0 g (l + 1)%nat)))).
    { rewrite Hmulti. destruct (Nat.ltb_spec 1 NL) as [Hm|Hm].
      - set (idx := seq 0 (NL - 1)). set (taus := map (fun l => sc_tau0 g (S l)) idx).
        assert (Li : length idx = (NL - 1)%nat) by apply seq_length.
        assert (Lt : length taus = (NL - 1)%nat) by (unfold taus; rewrite map_length; auto).
        destruct (v_at_val (map S idx) 0 NQ taus idx Hiso) as (vp & EP & TP).
        { intros l Hl. apply in_map_iff in Hl as (x & <- & Hx). apply in_seq in Hx. lia. }
        { congruence. } { intros p Hp. rewrite map_length, Li. apply in_seq in Hp. lia. }
        destruct (v_at_val idx 0 NQ taus idx Hiso) as (vm & EM & TM).
        { intros l Hl. apply in_seq in Hl. lia. }
        { congruence. } { intros p Hp. rewrite Li. apply in_seq in Hp. lia. }
        rewrite EP, EM. cbn [bind]. destruct (T2_op Rminus _ _ _ _ _ _ TP TM) as (d & ED & [_ TD]).
        unfold tsub. rewrite ED. cbn [bind]. eexists. split; [reflexivity|]. split; [|split].
        + intros i Hi. apply opseg_out. lia.
        + intros a Ha. apply opseg_out. lia.
        + intros l a Hl Ha. rewrite row_if_eq, opseg_in by (apply mid_row; auto). f_equal. unfold ravelF.
          change NQ with (2 * N)%nat at 1 2. destruct (mid_div l a Ha) as [-> ->].
          rewrite TD by (auto; rewrite Lt; auto). cbn beta zeta.
          assert (En : nth l idx 0%nat = l) by (unfold idx; rewrite seq_nth; auto).
          assert (Et : nth l taus 0 = sc_tau0 g (S l)).
          { unfold taus. rewrite (nth_map_d _ idx l 0%nat 0) by lia. rewrite En. reflexivity. }
          assert (Es : nth l (map S idx) 0%nat = S l).
          { rewrite (nth_map_d S idx l 0%nat 0%nat) by lia. rewrite En. reflexivity. }
          rewrite !En, Et, Es.
          replace (l + 1)%nat with (S l) by lia. reflexivity.
      - exists r1. split; auto. split; auto. split; auto. intros l a Hl. lia. }
    destruct H2 as (r2 & E2 & A2 & B2 & C2). cbv zeta. rewrite E2. cbn [bind]. rewrite E3. cbn [bind].
    set (r3 := opseg Rminus r2 (dim - N) N (ravel1 vb)).
    assert (A1 : forall i, (i < N)%nat -> r1 i = r i - vsol NQ (sc_Ns g) (sc_s g 0%nat) (sc_G g 0%nat 0%nat) (sc_K g 0%nat 0%nat) (sc_gmi g 0%nat) (N + i) 0).
    { intros i Hi. unfold r1. change i with (0 + i)%nat at 1. rewrite opseg_in by auto. unfold ravel1. rewrite T1 by (auto; cbn; lia). reflexivity. }
    assert (B1 : forall i, (N <= i)%nat -> r1 i = r i) by (intros; apply opseg_out; lia).
    assert (A3 : forall i, (i < dim - N)%nat -> r3 i = r2 i) by (intros; apply opseg_out; lia).
    assert (B3 : forall a, (a < N)%nat -> r3 (dim - N + a)%nat = r (dim - N + a)%nat -
        vsol NQ (sc_Ns g) (sc_s g (NL - 1)%nat) (sc_G g 0%nat (NL - 1)%nat) (sc_K g 0%nat (NL - 1)%nat) (sc_gmi g (NL - 1)%nat) a (sc_tau0 g NL)).
    { intros a Ha. unfold r3. rewrite opseg_in by auto. rewrite B2, B1 by (auto; lia). f_equal. unfold ravel1. rewrite T3 by (auto; cbn; lia). reflexivity. }
    assert (Hrow : forall l a, (l < NL - 1)%nat -> (a < 2 * N)%nat -> (N <= row_if g l a < dim - N)%nat).
    { intros l a Hl Ha. rewrite row_if_eq. pose proof (mid_row l a Hl Ha). lia. }
    destruct bd as [[R X]|].
    - rewrite E4. cbn [bind]. eexists. split; [reflexivity|]. split; [|split].
      + intros i Hi. rewrite opseg_out by lia. rewrite A3, A2 by lia. apply A1; auto.
      + intros l a Hl Ha. specialize (Hrow l a Hl Ha). rewrite opseg_out by lia. rewrite A3 by lia. rewrite C2, B1 by (auto; lia). reflexivity.
      + intros a Ha. rewrite opseg_in by auto. rewrite B3 by auto. f_equal. unfold mvec, bdR. apply rsum_ext. intros p Hp. f_equal.
        unfold ravel1. rewrite T4 by (auto; cbn; lia). reflexivity.
    - exists r3. split; [reflexivity|]. split; [|split].
      + intros i Hi. rewrite A3, A2 by lia. apply A1; auto.
      + intros l a Hl Ha. specialize (Hrow l a Hl Ha). rewrite A3 by lia. rewrite C2, B1 by (auto; lia). reflexivity.
      + intros a Ha. rewrite B3 by auto. unfold mvec, bdR. rewrite (rsum_0 N); [ring|]. intros; ring.
  Qed.

  Lemma rhs_beam_val r : let r' := rhs_beam g m bd r in
    (forall i, (i < N)%nat -> r' i = r i - part_beam 0 (N + i)) /\
    (forall l a, (l < NL - 1)%nat -> (a < 2 * N)%nat ->
       r' (row_if g l a) = r (row_if g l a) + (part_beam (l + 1) a - part_beam l a) * exp (- sc_tau0 g (l + 1)%nat / sc_mu0 g)) /\
    (forall a, (a < N)%nat ->
       r' (dim - N + a)%nat = r (dim - N + a)%nat +
         ((if sc_beam g then bdX bd a else 0) + mvec N (bdR bd) (fun p => part_beam (NL - 1) (N + p)) a - part_beam (NL - 1) a)
         * exp (- sc_tau0 g NL / sc_mu0 g)).
  Proof.
    cbv zeta. unfold rhs_beam, part_beam. destruct (sc_beam g).
    2:{ repeat split; intros; try ring. unfold mvec. rewrite rsum_0; [ring|]. intros; ring. }
    pose proof dim_ge2 as Hd.
    change (2 * sc_N g)%nat with NQ. change (sc_N g) with N. change (sc_NLayers g) with NL.
    replace (NL * NQ)%nat with dim by reflexivity.
    set (r1 := opseg Rminus r 0 N _).
    match goal with |- context [if sc_multi g then ?a else r1] => set (r2 := if sc_multi g then a else r1) end.
    assert (A1 : forall i, (i < N)%nat -> r1 i = r i - sc_B g m 0%nat (N + i)%nat).
    { intros i Hi. unfold r1. change i with (0 + i)%nat at 1. rewrite opseg_in by auto. reflexivity. }
    assert (B1 : forall i, (N <= i)%nat -> r1 i = r i) by (intros; apply opseg_out; lia).
    assert (H2 : (forall i, (i < N)%nat -> r2 i = r1 i) /\ (forall a, (a < N)%nat -> r2 (dim - N + a)%nat = r1 (dim - N + a)%nat) /\
        (forall l a, (l < NL - 1)%nat -> (a < 2 * N)%nat ->
           r2 (row_if g l a) = r1 (row_if g l a) + (sc_B g m (l + 1)%nat a - sc_B g m l a) * exp (- sc_tau0 g (l + 1)%nat / sc_mu0 g))).
    { unfold r2. rewrite Hmulti. destruct (Nat.ltb_spec 1 NL) as [Hm|Hm].
      - split; [intros i Hi; apply opseg_out; lia|]. split; [intros a Ha; apply opseg_out; lia|].
        intros l a Hl Ha. rewrite row_if_eq, opseg_in by (apply mid_row; auto). f_equal.
        change NQ with (2 * N)%nat. destruct (mid_div l a Ha) as [-> ->]. cbv zeta.
        replace (S l - 1)%nat with l by lia. replace (l + 1)%nat with (S l) by lia. reflexivity.
      - split; auto. split; auto. intros l a Hl. lia. }
    destruct H2 as (A2 & B2 & C2).
    assert (Hrow : forall l a, (l < NL - 1)%nat -> (a < 2 * N)%nat -> (N <= row_if g l a < dim - N)%nat).
    { intros l a Hl Ha. rewrite row_if_eq. pose proof (mid_row l a Hl Ha). lia. }
    cbv zeta. fold r1. fold r2. clearbody r2 r1.
    destruct bd as [[R X]|]; (split; [|split]).
    - intros i Hi. rewrite opseg_out by lia. rewrite A2 by auto. auto.
    - intros l a Hl Ha. specialize (Hrow l a Hl Ha). rewrite opseg_out by lia. rewrite C2, B1 by (auto; lia). reflexivity.
    - intros a Ha. rewrite opseg_in by auto. rewrite B2, B1 by (auto; lia). reflexivity.
    - intros i Hi. rewrite opseg_out by lia. rewrite A2 by auto. auto.
    - intros l a Hl Ha. specialize (Hrow l a Hl Ha). rewrite opseg_out by lia. rewrite C2, B1 by (auto; lia). reflexivity.
    - intros a Ha. rewrite opseg_in by auto. rewrite B2, B1 by (auto; lia). unfold bdX, bdR, mvec. rewrite (rsum_0 N); [ring|]. intros; ring.
  Qed.

  Lemma rhs_bc_val junk r : rhs_bc g m junk = Ok r ->
    exists bneg bpos,
      b_mode g (sc_bneg_scalar g) (sc_bneg_vector g) (sc_bneg g) m = Ok bneg /\
      b_mode g (sc_bpos_scalar g) (sc_bpos_vector g) (sc_bpos g) m = Ok bpos /\
      (forall i, (i < N)%nat -> r i = bneg i) /\
      (forall l a, (l < NL - 1)%nat -> (a < 2 * N)%nat -> r (row_if g l a) = 0) /\
      (forall a, (a < N)%nat -> r (dim - N + a)%nat = bpos a).
  Proof.
    unfold rhs_bc. intros H. apply bind_Ok in H as (bneg & E1 & H). apply bind_Ok in H as (bpos & E2 & H). injection H as <-.
    exists bneg, bpos. split; auto. split; auto. pose proof dim_ge2 as Hd.
    change (2 * sc_N g)%nat with NQ. change (sc_N g) with N. change (sc_NLayers g) with NL.
    replace (NL * NQ)%nat with dim by reflexivity. split; [|split].
    - intros i Hi. rewrite !setseg_out by lia. rewrite setseg_in by lia. f_equal; lia.
    - intros l a Hl Ha. rewrite row_if_eq. pose proof (mid_row l a Hl Ha). rewrite setseg_in by lia. reflexivity.
    - intros a Ha. rewrite setseg_out by lia. rewrite setseg_in by lia. f_equal; lia.
  Qed.

  (** ** The field assembled from the coefficients *)
  Definition ref_depth (l k : nat) : R := if Nat.ltb k N then sc_tau0 g l else sc_tau0 g (l + 1)%nat.
  Definition field (GC : nat -> mat) (l q : nat) (x : R) : R :=
    rsum NQ (fun k => GC l q k * exp (sc_K g m l k * (x - ref_depth l k)))
    + part_beam l q * exp (- x / sc_mu0 g) + part_iso l q x.

  Hypothesis Hanti : forall l j, (l < NL)%nat -> (j < N)%nat -> sc_K g m l j = - sc_K g m l (N + j)%nat.
  Hypothesis Ht0 : sc_tau0 g 0%nat = 0.

  Variable C : vec.
  Let GC : nat -> mat := fun l i j => sc_G g m l i j * C (l * NQ + j)%nat.

  Lemma NQ_cases k : (k < NQ)%nat -> (k < N)%nat \/ exists j, (j < N)%nat /\ k = (N + j)%nat.
  Proof. intros H. destruct (Nat.lt_ge_cases k N); [left; auto|right]. exists (k - N)%nat. unfold NQ in H. fold N in H. lia. Qed.
  Lemma ltb_lo k : (k < N)%nat -> Nat.ltb k N = true. Proof. apply Nat.ltb_lt. Qed.
  Lemma ltb_hi j : Nat.ltb (N + j) N = false. Proof. apply Nat.ltb_ge. lia. Qed.

  Lemma top_sum i : (i < N)%nat ->
    rsum NQ (fun k => blk_top g m i k * C k) = rsum NQ (fun k => GC 0%nat (N + i)%nat k * exp (sc_K g m 0 k * (0 - ref_depth 0 k))).
  Proof.
    intros Hi. apply rsum_ext. intros k Hk. unfold blk_top, GC, ref_depth. fold N. cbn [Nat.mul plus].
    destruct (NQ_cases k Hk) as [H|(j & Hj & ->)].
    - rewrite ltb_lo by auto. rewrite Ht0. replace (sc_K g m 0 k * (0 - 0)) with 0 by ring. rewrite exp_0. ring.
    - rewrite ltb_hi. replace (N + j - N)%nat with j by lia. unfold E_01.
      rewrite (Hanti 0 j) by (auto; lia). replace (0 + 1)%nat with 1%nat by lia.
      replace (- sc_K g m 0 (N + j)%nat * sc_tau0 g 1%nat) with (sc_K g m 0 (N + j)%nat * (0 - sc_tau0 g 1%nat)) by ring. ring.
  Qed.
  Lemma up_sum l a : (l < NL - 1)%nat ->
    rsum NQ (fun k => blk_up g m l a k * C (l * NQ + k)%nat) = rsum NQ (fun k => GC l a k * exp (sc_K g m l k * (sc_tau0 g (l + 1)%nat - ref_depth l k))).
  Proof.
    intros Hl. apply rsum_ext. intros k Hk. unfold blk_up, GC, ref_depth. fold N.
    destruct (NQ_cases k Hk) as [H|(j & Hj & ->)].
    - rewrite ltb_lo by auto. unfold E_lm1l. fold N. rewrite (Hanti l k) by (auto; lia).
      replace (- sc_K g m l (N + k)%nat * (sc_tau0 g (l + 1)%nat - sc_tau0 g l)) with (sc_K g m l (N + k)%nat * (sc_tau0 g l - sc_tau0 g (l + 1)%nat)) by ring. ring.
    - rewrite ltb_hi. replace (sc_K g m l (N + j)%nat * (sc_tau0 g (l + 1)%nat - sc_tau0 g (l + 1)%nat)) with 0 by ring. rewrite exp_0. ring.
  Qed.
  Lemma dn_sum l a : (l < NL - 1)%nat ->
    rsum NQ (fun k => blk_dn g m l a k * C ((l + 1) * NQ + k)%nat) = - rsum NQ (fun k => GC (l + 1)%nat a k * exp (sc_K g m (l + 1) k * (sc_tau0 g (l + 1)%nat - ref_depth (l + 1) k))).
  Proof.
    intros Hl. rewrite <- rsum_opp. apply rsum_ext. intros k Hk. unfold blk_dn, GC, ref_depth. fold N.
    destruct (NQ_cases k Hk) as [H|(j & Hj & ->)].
    - rewrite ltb_lo by auto. replace (sc_K g m (l + 1) k * (sc_tau0 g (l + 1)%nat - sc_tau0 g (l + 1)%nat)) with 0 by ring. rewrite exp_0. ring.
    - rewrite ltb_hi. replace (N + j - N)%nat with j by lia. unfold E_llp1. fold N. replace (l + 1 + 1)%nat with (l + 2)%nat by lia. ring.
  Qed.
  Lemma bot_sum a : (a < N)%nat ->
    rsum NQ (fun k => blk_bot g m bd a k * C ((NL - 1) * NQ + k)%nat)
    = rsum NQ (fun k => GC (NL - 1)%nat a k * exp (sc_K g m (NL - 1) k * (sc_tau0 g NL - ref_depth (NL - 1) k)))
      - mvec N (bdR bd) (fun p => rsum NQ (fun k => GC (NL - 1)%nat (N + p)%nat k * exp (sc_K g m (NL - 1) k * (sc_tau0 g NL - ref_depth (NL - 1) k)))) a.
  Proof.
    intros Ha. unfold mvec.
    rewrite (rsum_ext N _ (fun p => rsum NQ (fun k => bdR bd a p * (GC (NL - 1)%nat (N + p)%nat k * exp (sc_K g m (NL - 1) k * (sc_tau0 g NL - ref_depth (NL - 1) k)))))).
    2:{ intros p Hp. rewrite rsum_scal. reflexivity. }
    rewrite rsum_swap, <- rsum_minus. apply rsum_ext. intros k Hk.
    assert (E : forall A B : mat, forall i j, minus_R g bd A B i j = A i j - rsum N (fun p => bdR bd i p * B p j)).
    { intros A B i j. unfold minus_R, bdR. destruct bd as [[R X]|]; [reflexivity|]. rewrite rsum_0; [ring|]. intros; ring. }
    unfold blk_bot, GC, ref_depth. fold N. replace (NL - 1 + 1)%nat with NL by lia.
    destruct (NQ_cases k Hk) as [H|(j & Hj & ->)].
    - rewrite ltb_lo by auto. unfold bot_left, scale_cols. rewrite E. unfold sub, E_L. fold N NL. cbn [plus].
      rewrite (rsum_ext N (fun i => bdR bd a i * (sc_G g m (NL - 1)%nat (N + i)%nat k * C ((NL - 1) * NQ + k)%nat * exp (sc_K g m (NL - 1) k * (sc_tau0 g NL - sc_tau0 g (NL - 1)%nat))))
                 (fun i => bdR bd a i * sc_G g m (NL - 1)%nat (N + i)%nat k * (C ((NL - 1) * NQ + k)%nat * exp (sc_K g m (NL - 1) k * (sc_tau0 g NL - sc_tau0 g (NL - 1)%nat)))))
        by (intros; ring).
      rewrite rsum_scal_r. ring.
    - rewrite ltb_hi. replace (N + j - N)%nat with j by lia. unfold bot_right. rewrite E. unfold sub. fold N NL. cbn [plus].
      replace (sc_K g m (NL - 1) (N + j)%nat * (sc_tau0 g NL - sc_tau0 g NL)) with 0 by ring. rewrite exp_0.
      rewrite (rsum_ext N (fun i => bdR bd a i * (sc_G g m (NL - 1)%nat (N + i)%nat (N + j)%nat * C ((NL - 1) * NQ + (N + j))%nat * 1))
                 (fun i => bdR bd a i * sc_G g m (NL - 1)%nat (N + i)%nat (N + j)%nat * (C ((NL - 1) * NQ + (N + j))%nat)))
        by (intros; ring).
      rewrite rsum_scal_r. ring.
  Qed.

  (** If [C] solves the assembled system then the field satisfies the three kinds of
      boundary conditions. *)
  Lemma system_bc M junk r0 r1 :
    zero_out g M -> rhs_bc g m junk = Ok r0 -> rhs_iso g m bd r0 = Ok r1 ->
    (forall i, (i < dim)%nat -> rsum dim (fun j => dense_lhs g m bd M i j * C j) = rhs_beam g m bd r1 i) ->
    exists bneg bpos,
      b_mode g (sc_bneg_scalar g) (sc_bneg_vector g) (sc_bneg g) m = Ok bneg /\
      b_mode g (sc_bpos_scalar g) (sc_bpos_vector g) (sc_bpos g) m = Ok bpos /\
      (forall i, (i < N)%nat -> field GC 0 (N + i) 0 = bneg i) /\
      (forall l a, (l < NL - 1)%nat -> (a < NQ)%nat ->
         field GC l a (sc_tau0 g (l + 1)%nat) = field GC (l + 1) a (sc_tau0 g (l + 1)%nat)) /\
      (forall a, (a < N)%nat ->
         field GC (NL - 1) a (sc_tau0 g NL) = bpos a
           + rsum N (fun p => bdR bd a p * field GC (NL - 1) (N + p) (sc_tau0 g NL))
           + (if sc_beam g then bdX bd a else 0) * exp (- sc_tau0 g NL / sc_mu0 g)).
  Proof.
    intros HM Hbc Hiso Hsys.
    destruct (rhs_bc_val junk r0 Hbc) as (bneg & bpos & Eneg & Epos & T0 & M0 & B0).
    destruct (rhs_iso_val r0) as (r1' & E1 & T1 & M1 & B1). rewrite Hiso in E1. injection E1 as <-.
    destruct (rhs_beam_val r1) as (T2 & M2 & B2).
    exists bneg, bpos. split; auto. split; auto. pose proof dim_ge2 as Hd. split; [|split].
    - intros i Hi. specialize (Hsys i ltac:(lia)).
      pose proof (sum_top g HN HNL m bd M C i HM Hi) as Es. change (sc_NLayers g * (2 * sc_N g))%nat with dim in Es.
      change (2 * sc_N g)%nat with NQ in Es. rewrite Es in Hsys. clear Es. rewrite top_sum in Hsys by auto. rewrite T2, T1, T0 in Hsys by auto.
      unfold field. rewrite Hsys. replace (- 0 / sc_mu0 g) with 0 by (unfold Rdiv; ring). rewrite exp_0. ring.
    - intros l a Hl Ha. assert (Hr : (row_if g l a < dim)%nat) by (pose proof (mid_row l a Hl Ha); rewrite row_if_eq; lia).
      specialize (Hsys _ Hr).
      pose proof (sum_mid g HN HNL m bd M C l a HM Hl Ha) as Es. change (sc_NLayers g * (2 * sc_N g))%nat with dim in Es.
      change (2 * sc_N g)%nat with NQ in Es. rewrite Es in Hsys. clear Es. rewrite up_sum, dn_sum in Hsys by auto. rewrite M2, M1, M0 in Hsys by auto.
      unfold field. lra.
    - intros a Ha. specialize (Hsys (dim - N + a)%nat ltac:(lia)).
      pose proof (sum_bot g HN HNL m bd M C a HM Ha) as Es. change (sc_NLayers g * (2 * sc_N g))%nat with dim in Es.
      change (sc_N g) with N in Es. change (sc_NLayers g) with NL in Es. rewrite Es in Hsys. clear Es.
      change (2 * N)%nat with NQ in Hsys. rewrite bot_sum in Hsys by auto. rewrite B2, B1, B0 in Hsys by auto.
      unfold field.
      rewrite (rsum_ext N _ (fun p => bdR bd a p * rsum NQ (fun k => GC (NL - 1)%nat (N + p)%nat k * exp (sc_K g m (NL - 1) k * (sc_tau0 g NL - ref_depth (NL - 1) k)))
               + bdR bd a p * part_beam (NL - 1) (N + p) * exp (- sc_tau0 g NL / sc_mu0 g) + bdR bd a p * part_iso (NL - 1) (N + p) (sc_tau0 g NL)))
        by (intros; ring).
      rewrite !rsum_plus, rsum_scal_r. unfold mvec in Hsys. cbn beta in Hsys. lra.
  Qed.

  (** Conversely, a field satisfying the boundary conditions comes from a solution of the system. *)
  Lemma bc_system M junk r0 r1 bneg bpos :
    zero_out g M -> rhs_bc g m junk = Ok r0 -> rhs_iso g m bd r0 = Ok r1 ->
    b_mode g (sc_bneg_scalar g) (sc_bneg_vector g) (sc_bneg g) m = Ok bneg ->
    b_mode g (sc_bpos_scalar g) (sc_bpos_vector g) (sc_bpos g) m = Ok bpos ->
    (forall i, (i < N)%nat -> field GC 0 (N + i) 0 = bneg i) ->
    (forall l a, (l < NL - 1)%nat -> (a < NQ)%nat ->
         field GC l a (sc_tau0 g (l + 1)%nat) = field GC (l + 1) a (sc_tau0 g (l + 1)%nat)) ->
    (forall a, (a < N)%nat ->
         field GC (NL - 1) a (sc_tau0 g NL) = bpos a
           + rsum N (fun p => bdR bd a p * field GC (NL - 1) (N + p) (sc_tau0 g NL))
           + (if sc_beam g then bdX bd a else 0) * exp (- sc_tau0 g NL / sc_mu0 g)) ->
    forall i, (i < dim)%nat -> rsum dim (fun j => dense_lhs g m bd M i j * C j) = rhs_beam g m bd r1 i.
  Proof.
    intros HM Hbc Hiso En Ep Htop Hmid Hbot i Hi.
    destruct (rhs_bc_val junk r0 Hbc) as (bneg' & bpos' & Eneg & Epos & T0 & M0 & B0).
    assert (bneg' = bneg) by congruence. assert (bpos' = bpos) by congruence. subst bneg' bpos'.
    destruct (rhs_iso_val r0) as (r1' & E1 & T1 & M1 & B1). rewrite Hiso in E1. injection E1 as <-.
    destruct (rhs_beam_val r1) as (T2 & M2 & B2). pose proof dim_ge2 as Hd.
    destruct (row_cases g HN HNL i Hi) as [Hi'|[(l & a & Hl & Ha & ->)|(a & Ha & ->)]].
    - pose proof (sum_top g HN HNL m bd M C i HM Hi') as Es. change (sc_NLayers g * (2 * sc_N g))%nat with dim in Es.
      change (2 * sc_N g)%nat with NQ in Es. rewrite Es. rewrite top_sum by auto. rewrite T2, T1, T0 by auto.
      rewrite <- Htop by auto. unfold field. replace (- 0 / sc_mu0 g) with 0 by (unfold Rdiv; ring). rewrite exp_0. ring.
    - pose proof (sum_mid g HN HNL m bd M C l a HM Hl Ha) as Es. change (sc_NLayers g * (2 * sc_N g))%nat with dim in Es.
      change (2 * sc_N g)%nat with NQ in Es. rewrite Es. rewrite up_sum, dn_sum by auto. rewrite M2, M1, M0 by auto.
      pose proof (Hmid l a Hl Ha) as Hm. unfold field in Hm. lra.
    - change (sc_N g) with N. change (sc_NLayers g * (2 * N))%nat with dim. change (sc_N g) with N in Ha.
      pose proof (sum_bot g HN HNL m bd M C a HM Ha) as Es. change (sc_NLayers g * (2 * sc_N g))%nat with dim in Es.
      change (sc_N g) with N in Es. change (sc_NLayers g) with NL in Es. rewrite Es.
      change (2 * N)%nat with NQ. rewrite bot_sum by auto. rewrite B2, B1, B0 by auto.
      pose proof (Hbot a Ha) as Hb. unfold field in Hb.
      rewrite (rsum_ext N _ (fun p => bdR bd a p * rsum NQ (fun k => GC (NL - 1)%nat (N + p)%nat k * exp (sc_K g m (NL - 1) k * (sc_tau0 g NL - ref_depth (NL - 1) k)))
               + bdR bd a p * part_beam (NL - 1) (N + p) * exp (- sc_tau0 g NL / sc_mu0 g) + bdR bd a p * part_iso (NL - 1) (N + p) (sc_tau0 g NL))) in Hb
        by (intros; ring).
      rewrite !rsum_plus, rsum_scal_r in Hb. unfold mvec. lra.
  Qed.
End Rhs.
