(** The Gauss-Legendre rule: it exists for every number of nodes, its nodes are the zeros of the
    Legendre polynomial, and a rule with the documented properties is unique up to order. *)
From Coq Require Import Reals Lra Lia List Bool Arith.
From Coquelicot Require Import Coquelicot.
From Verif Require Import Base Tensor Spec Calc M_LinAlg P_Quad P_Special P_Energy P_Addition.
Import ListNotations.
Local Open Scope R_scope.

(** ** Polynomial functions with at most [k] coefficients *)
Definition pol (k : nat) (f : R -> R) : Prop := exists p, (length p <= k)%nat /\ forall x, f x = peval p x.

Lemma pol_peval k p : (length p <= k)%nat -> pol k (peval p).
Proof. intros H; exists p; auto. Qed.
Lemma pol_ext k f g : (forall x, g x = f x) -> pol k f -> pol k g.
Proof. intros E (p & H & Hp). exists p; split; auto. intros; rewrite E; auto. Qed.
Lemma pol_mono k k' f : (k <= k')%nat -> pol k f -> pol k' f.
Proof. intros L (p & H & Hp). exists p; split; auto; lia. Qed.
Lemma pol_const k c : (0 < k)%nat -> pol k (fun _ => c).
Proof. intros H. exists [c]; split; [cbn; lia|]. intros; cbn; lra. Qed.
Lemma pol_zero k : pol k (fun _ => 0).
Proof. exists []; split; [cbn; lia|auto]. Qed.
Lemma pol_0 f : pol 0 f -> forall x, f x = 0.
Proof. intros (p & H & Hp) x. rewrite Hp. destruct p; [auto|cbn in H; lia]. Qed.
Lemma pol_1 f : pol 1 f -> exists c, forall x, f x = c.
Proof. intros (p & H & Hp). destruct p as [|c [|d p]]; [exists 0; intros; rewrite Hp; auto|exists c; intros; rewrite Hp; cbn; lra|cbn in H; lia]. Qed.
Lemma pol_plus k f g : pol k f -> pol k g -> pol k (fun x => f x + g x).
Proof. intros (p & H & Hp) (q & H' & Hq). exists (padd p q). split; [rewrite length_padd; lia|]. intros; rewrite peval_padd, Hp, Hq; auto. Qed.
Lemma pol_scal k c f : pol k f -> pol k (fun x => c * f x).
Proof. intros (p & H & Hp). exists (pscal c p). split; [unfold pscal; rewrite map_length; auto|]. intros; rewrite peval_pscal, Hp; auto. Qed.
Lemma pol_minus k f g : pol k f -> pol k g -> pol k (fun x => f x - g x).
Proof. intros Hf Hg. apply (pol_ext _ (fun x => f x + (-1) * g x)); [intros; ring|]. apply pol_plus, pol_scal; auto. Qed.
Lemma pol_x k f : pol k f -> pol (S k) (fun x => x * f x).
Proof. intros (p & H & Hp). exists (0 :: p). split; [cbn; lia|]. intros; cbn; rewrite Hp; lra. Qed.
Lemma pol_lin k a f : pol k f -> pol (S k) (fun x => (x - a) * f x).
Proof. intros H. apply (pol_ext _ (fun x => x * f x + (- a) * f x)); [intros; ring|]. apply pol_plus; [apply pol_x; auto|apply (pol_mono k); [lia|apply pol_scal; auto]]. Qed.
Lemma pol_mul a b f g : pol a f -> pol (S b) g -> pol (a + b) (fun x => f x * g x).
Proof.
  intros (p & H & Hp) Hg. apply (pol_ext _ (fun x => peval p x * g x)); [intros; rewrite Hp; auto|]. clear f Hp. revert a H. induction p as [|c p IH]; intros a H.
  - apply (pol_ext _ (fun _ => 0)); [intros; cbn; ring|apply pol_zero].
  - cbn in H. destruct a as [|a]; [lia|]. apply (pol_ext _ (fun x => c * g x + x * (peval p x * g x))); [intros; cbn; ring|].
    apply pol_plus; [apply (pol_mono (S b)); [lia|apply pol_scal; auto]|]. apply pol_x, IH. lia.
Qed.
Lemma pol_sum k n (F : nat -> R -> R) : (forall i, (i < n)%nat -> pol k (F i)) -> pol k (fun x => rsum n (fun i => F i x)).
Proof. induction n; intros H; [apply pol_zero|]. apply (pol_plus k (fun x => rsum n (fun i => F i x)) (F n)); auto. Qed.
Lemma pol_cont k f x : pol k f -> continuous f x.
Proof. intros (p & H & Hp). apply (continuous_ext (peval p)); [intros; rewrite Hp; auto|apply peval_continuous]. Qed.
Lemma pol_int k f a b : pol k f -> ex_RInt f a b.
Proof. intros H. apply (ex_RInt_continuous (V := R_CompleteNormedModule)). intros; eapply pol_cont; eauto. Qed.
Lemma leg_pol n : pol (S n) (legendre n).
Proof. exists (legendre_poly n). split; [pose proof (leg_poly_len n); lia|auto]. Qed.

Lemma pol_div k f a : pol (S k) f -> exists q, pol k q /\ forall x, f x = f a + (x - a) * q x.
Proof.
  intros (p & H & Hp). enough (G : exists q, (length q <= length p - 1)%nat /\ forall x, peval p x = peval p a + (x - a) * peval q x).
  { destruct G as (q & L & E). exists (peval q). split; [apply pol_peval; lia|]. intros; rewrite !Hp; auto. }
  clear. induction p as [|c t (s & Ls & E)].
  - exists []. split; [cbn; lia|]. intros; cbn; ring.
  - destruct t as [|d t]; [exists []; split; [cbn; lia|intros; cbn; ring]|]. exists (peval (d :: t) a :: s). split; [cbn in *; lia|].
    intros x. change (c + x * peval (d :: t) x = c + a * peval (d :: t) a + (x - a) * (peval (d :: t) a + x * peval s x)). rewrite (E x). ring.
Qed.

(** ** Products of linear factors *)
Fixpoint om (l : list R) (x : R) : R := match l with [] => 1 | a :: t => (x - a) * om t x end.

Lemma om_pol l : pol (S (length l)) (om l).
Proof. induction l as [|a l IH]; [apply pol_const; lia|]. apply (pol_lin (S (length l)) a (om l)), IH. Qed.
Lemma om_root l a : In a l -> om l a = 0.
Proof. induction l as [|b l IH]; [intros []|]. intros [E|H]; cbn; [subst; ring|rewrite IH; auto; ring]. Qed.
Lemma om_nz l a : ~ In a l -> om l a <> 0.
Proof.
  induction l as [|b l IH]; intros H; cbn; [lra|]. apply Rmult_integral_contrapositive. split.
  - intros E. apply H. left. lra.
  - apply IH. intros G; apply H; right; auto.
Qed.
Lemma om_newton l : forall k f, pol (length l + k) f -> exists r q, pol (length l) r /\ pol k q /\ forall x, f x = r x + om l x * q x.
Proof.
  induction l as [|a l IH]; intros k f H.
  - exists (fun _ => 0), f. split; [apply pol_zero|]. split; auto. intros; cbn; ring.
  - cbn [length] in *. destruct (pol_div _ _ a H) as (g & Hg & Eg). destruct (IH k g Hg) as (r & q & Hr & Hq & E).
    exists (fun x => f a + (x - a) * r x), q. split; [|split; auto].
    + apply (pol_plus _ (fun _ => f a)); [apply pol_const; lia|apply pol_lin; auto].
    + intros x. rewrite Eg, E. cbn. ring.
Qed.
Lemma om_roots l : NoDup l -> forall k f, pol (length l + k) f -> (forall a, In a l -> f a = 0) -> exists q, pol k q /\ forall x, f x = om l x * q x.
Proof.
  induction 1 as [|a l Ha Hl IH]; intros k f H R0.
  - exists f. split; auto. intros; cbn; ring.
  - cbn [length] in *. destruct (pol_div _ _ a H) as (g & Hg & Eg). assert (Fa : f a = 0) by (apply R0; left; auto).
    destruct (IH k g Hg) as (q & Hq & E).
    { intros b Hb. assert (Fb : f b = 0) by (apply R0; right; auto). rewrite Eg, Fa in Fb. assert (b <> a) by (intros ->; auto). apply (Rmult_eq_reg_l (b - a)); [lra|lra]. }
    exists q. split; auto. intros x. rewrite Eg, Fa, E. cbn. ring.
Qed.
Lemma pol_many_roots l f : NoDup l -> pol (length l) f -> (forall a, In a l -> f a = 0) -> forall x, f x = 0.
Proof.
  intros Hl H R0 x. destruct (om_roots l Hl 0 f) as (q & Hq & E); [rewrite Nat.add_0_r; auto|auto|]. rewrite E, (pol_0 q Hq). ring.
Qed.
Lemma om_sign l : forall i y, (i <= length l)%nat -> (forall j, (j < i)%nat -> nth j l 0 < y) -> (forall j, (i <= j < length l)%nat -> y < nth j l 0) -> 0 < (-1) ^ (length l - i) * om l y.
Proof.
  induction l as [|a l IH]; intros i y Hi Lo Hi'; [cbn; lra|]. destruct i as [|i].
  - assert (G : 0 < (-1) ^ (length l - 0) * om l y).
    { apply IH; [lia|intros; lia|]. intros j Hj. apply (Hi' (S j)). cbn; lia. }
    rewrite Nat.sub_0_r in *. cbn [length pow om]. assert (y < a) by (apply (Hi' 0%nat); cbn; lia). replace (-1 * (-1) ^ length l * ((y - a) * om l y)) with ((a - y) * ((-1) ^ length l * om l y)) by ring. apply Rmult_lt_0_compat; lra.
  - cbn [length om] in *. replace (S (length l) - S i)%nat with (length l - i)%nat by lia. assert (a < y) by (apply (Lo 0%nat); lia).
    assert (G : 0 < (-1) ^ (length l - i) * om l y).
    { apply IH; [lia|intros j Hj; apply (Lo (S j)); lia|]. intros j Hj. apply (Hi' (S j)). lia. }
    replace ((-1) ^ (length l - i) * ((y - a) * om l y)) with ((y - a) * ((-1) ^ (length l - i) * om l y)) by ring. apply Rmult_lt_0_compat; lra.
Qed.

(** ** The zeros of the Legendre polynomials *)
Lemma fin_choice n (P : nat -> R -> Prop) : (forall i, (i < n)%nat -> {y | P i y}) -> {l | length l = n /\ forall i, (i < n)%nat -> P i (nth i l 0)}.
Proof.
  induction n; intros H; [exists []; split; auto; intros; lia|].
  destruct IHn as (l & L & E); [auto|]. destruct (H n) as (y & Hy); [lia|]. exists (l ++ [y]). split; [rewrite app_length; cbn; lia|].
  intros i Hi. destruct (Nat.eq_dec i n) as [->|Hn]; [rewrite app_nth2, L, Nat.sub_diag by lia; auto|]. rewrite app_nth1 by lia. apply E. lia.
Qed.
Lemma inc_nodup l : increasing l -> NoDup l.
Proof.
  intros H. apply (NoDup_nth l 0). intros i j Hi Hj E. destruct (Nat.lt_trichotomy i j) as [G|[G|G]]; auto; exfalso.
  - pose proof (H i j ltac:(lia)). lra.
  - pose proof (H j i ltac:(lia)). lra.
Qed.
Lemma sgn_sq n : (-1) ^ n * (-1) ^ n = 1.
Proof. induction n; cbn; lra. Qed.
Lemma leg_cont n : continuity (legendre n).
Proof. intros x. apply continuity_pt_filterlim. exact (pol_cont _ _ x (leg_pol n)). Qed.
Lemma sign_root n a b s : a < b -> 0 < s * legendre n a -> 0 < - s * legendre n b -> {y | a < y < b /\ legendre n y = 0}.
Proof.
  intros H A B. destruct (IVT_cor (legendre n) a b (leg_cont n)) as (z & Hz & E); [lra|nra|]. exists z. split; auto.
  assert (z <> a) by (intros ->; rewrite E in A; lra). assert (z <> b) by (intros ->; rewrite E in B; lra). lra.
Qed.
Lemma sgn_sub n i : (i < n)%nat -> (-1) ^ (n - i) = - (-1) ^ (n - S i).
Proof. intros H. replace (n - i)%nat with (S (n - S i)) by lia. cbn; ring. Qed.

Lemma leg_zeros n : {l | length l = n /\ increasing l /\ (forall i, (i < n)%nat -> -1 < nth i l 0 < 1 /\ legendre n (nth i l 0) = 0 /\ 0 < (-1) ^ (n - S i) * legendre (n - 1) (nth i l 0))}.
Proof.
  induction n as [|n (l & L & Hinc & Hl)].
  { exists []. split; [auto|]. split; [intros i j H; cbn in H; lia|intros; lia]. }
  set (e := fun i => nth i (-1 :: l ++ [1]) 0).
  assert (e0 : e 0%nat = -1) by reflexivity.
  assert (eS : forall i, (i < n)%nat -> e (S i) = nth i l 0) by (intros i Hi; unfold e; cbn [nth]; rewrite app_nth1 by lia; auto).
  assert (eN : e (S n) = 1) by (unfold e; cbn [nth]; rewrite app_nth2, L, Nat.sub_diag by lia; auto).
  assert (einc : forall i, (i < S n)%nat -> e i < e (S i)).
  { intros [|i] Hi.
    - rewrite e0. destruct n; [rewrite eN; lra|]. rewrite eS by lia. apply Hl. lia.
    - rewrite eS by lia. destruct (Nat.eq_dec (S i) n) as [<-|Hn]; [rewrite eN; apply Hl; lia|]. rewrite eS by lia. apply Hinc. lia. }
  assert (esign : forall i, (i <= S n)%nat -> 0 < (-1) ^ (S n - i) * legendre (S n) (e i)).
  { intros i Hi. destruct (Nat.eq_dec i (S n)) as [->|H1]; [rewrite eN, legendre_at_1, Nat.sub_diag; cbn; lra|].
    destruct i as [|i]; [rewrite e0, Nat.sub_0_r; replace (-1) with (- (1)) at 2 by lra; rewrite legendre_parity, legendre_at_1, Rmult_1_r, sgn_sq; lra|].
    rewrite eS by lia. destruct (Hl i) as (_ & R0 & Sg); [lia|]. destruct n as [|k]; [lia|]. rewrite legendre_rec, R0. replace (S k - 1)%nat with k in Sg by lia.
    replace (S k - S i)%nat with (k - i)%nat in Sg by lia. replace (S (S k) - S i)%nat with (S (k - i)) by lia. cbn [pow]. pose proof (pos_INR k).
    replace (-1 * (-1) ^ (k - i) * ((2 * INR k + 3) / (INR k + 2) * (nth i l 0 * 0) - (INR k + 1) / (INR k + 2) * legendre k (nth i l 0))) with ((INR k + 1) / (INR k + 2) * ((-1) ^ (k - i) * legendre k (nth i l 0))) by (field; lra).
    apply Rmult_lt_0_compat; [apply Rdiv_lt_0_compat; lra|auto]. }
  destruct (fin_choice (S n) (fun i y => e i < y < e (S i) /\ legendre (S n) y = 0)) as (l' & L' & H').
  { intros i Hi. apply (sign_root _ _ _ ((-1) ^ (S n - i))); [apply einc; auto|apply esign; lia|].
    rewrite sgn_sub, Ropp_involutive by auto. apply esign. lia. }
  assert (emono : forall i j, (i <= j)%nat -> (j <= S n)%nat -> e i <= e j).
  { intros i j Hij. induction Hij as [|j Hij IH]; intros Hj; [lra|]. pose proof (einc j ltac:(lia)). pose proof (IH ltac:(lia)). lra. }
  exists l'. split; auto. split.
  { intros i j Hij. rewrite L' in Hij. destruct (H' i) as (B1 & _); [lia|]. destruct (H' j) as (B2 & _); [lia|]. pose proof (emono (S i) j ltac:(lia) ltac:(lia)). lra. }
  destruct (om_roots l (inc_nodup l Hinc) 1 (legendre n)) as (q & Hq & Eq).
  { rewrite L, Nat.add_1_r. apply leg_pol. }
  { intros a Ha. destruct (In_nth l a 0 Ha) as (i & Hi & <-). apply Hl. lia. }
  destruct (pol_1 q Hq) as (c & Ec).
  assert (Hc : 0 < c).
  { pose proof (Eq 1) as E1. rewrite Ec, legendre_at_1 in E1. pose proof (om_sign l (length l) 1 ltac:(lia)) as G.
    rewrite Nat.sub_diag, pow_O, Rmult_1_l in G. assert (0 < om l 1) by (apply G; [intros; apply Hl; lia|intros; lia]).
    destruct (Rlt_dec 0 c); auto. exfalso. nra. }
  intros i Hi. destruct (H' i Hi) as (B & R0). pose proof (emono 0%nat i ltac:(lia) ltac:(lia)). pose proof (emono (S i) (S n) ltac:(lia) ltac:(lia)). rewrite e0, eN in *. split; [lra|]. split; auto.
  replace (S n - 1)%nat with n by lia. cbn [Nat.sub]. rewrite Eq, Ec. replace ((-1) ^ (n - i) * (om l (nth i l' 0) * c)) with (c * ((-1) ^ (n - i) * om l (nth i l' 0))) by ring.
  apply Rmult_lt_0_compat; auto. rewrite <- L. apply om_sign; [lia| |].
  - intros j Hj. pose proof (emono (S j) i ltac:(lia) ltac:(lia)). rewrite eS in * by lia. lra.
  - intros j Hj. pose proof (emono (S i) (S j) ltac:(lia) ltac:(lia)). rewrite (eS j) in * by lia. lra.
Qed.

(** ** Orthogonality *)
Lemma RInt_add2 c f g a b : ex_RInt f a b -> ex_RInt g a b -> RInt (fun x => c * f x + g x) a b = c * RInt f a b + RInt g a b.
Proof.
  intros Hf Hg. apply (is_RInt_unique (V := R_CompleteNormedModule)). apply (is_RInt_plus (V := R_NormedModule)); [apply (is_RInt_scal (V := R_NormedModule))|]; apply (RInt_correct (V := R_CompleteNormedModule)); auto.
Qed.

Lemma dl_ode n x : (1 - x ^ 2) * dl 2 n x = 2 * x * dl 1 n x - INR n * (INR n + 1) * dl 0 n x.
Proof.
  destruct n as [|n].
  - rewrite !dl_high by lia. change (INR 0) with 0. ring.
  - destruct (dl_CD 1 n x) as (_ & C). destruct (dl_AB 0 n x) as (_ & B). rewrite S_INR in *. change (INR 1) with 1 in *. change (INR 0) with 0 in *. rewrite B in C. lra.
Qed.

Lemma leg_mono_rec n k : (INR n * (INR n + 1) - INR k * (INR k + 1)) * RInt (fun x => legendre n x * x ^ k) (-1) 1 = - (INR k * (INR k - 1)) * RInt (fun x => legendre n x * x ^ (k - 2)) (-1) 1.
Proof.
  set (A := INR n * (INR n + 1) - INR k * (INR k + 1)). set (B := INR k * (INR k - 1)).
  assert (HI : forall j, ex_RInt (fun x => legendre n x * x ^ j) (-1) 1).
  { intros j. apply (ex_RInt_continuous (V := R_CompleteNormedModule)). intros z _. apply (continuous_mult (legendre n) (fun x => x ^ j)); [exact (pol_cont _ _ z (leg_pol n))|].
    apply (ex_derive_continuous (fun x => x ^ j)). exists (INR j * z ^ pred j). apply der_pow. }
  enough (G : is_RInt (fun x => A * (legendre n x * x ^ k) + B * (legendre n x * x ^ (k - 2))) (-1) 1 0).
  { assert (G2 : is_RInt (fun x => A * (legendre n x * x ^ k) + B * (legendre n x * x ^ (k - 2))) (-1) 1 (A * RInt (fun x => legendre n x * x ^ k) (-1) 1 + B * RInt (fun x => legendre n x * x ^ (k - 2)) (-1) 1)).
    { apply (is_RInt_plus (V := R_NormedModule)); apply (is_RInt_scal (V := R_NormedModule)); apply (RInt_correct (V := R_CompleteNormedModule)); auto. }
    pose proof (is_RInt_unique _ _ _ _ G) as E1. rewrite (is_RInt_unique _ _ _ _ G2) in E1. lra. }
  (* antiderivative: - (1 - x^2) (P' x^k - P k x^(k-1)) *)
  set (F := fun x => - ((1 - x * x) * (dl 1 n x * x ^ k - dl 0 n x * (INR k * x ^ pred k)))).
  replace 0 with (F 1 - F (-1)) by (unfold F; ring).
  apply (is_RInt_derive (V := R_CompleteNormedModule)).
  - intros x _. apply (der_eq _ _ (- ((0 - (1 * x + x * 1)) * (dl 1 n x * x ^ k - dl 0 n x * (INR k * x ^ pred k)) + (1 - x * x) * ((dl 2 n x * x ^ k + dl 1 n x * (INR k * x ^ pred k)) - (dl 1 n x * (INR k * x ^ pred k) + dl 0 n x * (INR k * (INR (pred k) * x ^ pred (pred k)))))))).
    + pose proof (dl_ode n x) as O. rewrite !dl_0 in *. set (P := legendre n x) in *. set (P1 := dl 1 n x) in *. set (P2 := dl 2 n x) in *.
      assert (E2 : (1 - x * x) * P2 = 2 * x * P1 - INR n * (INR n + 1) * P) by (rewrite <- O; ring).
      unfold A, B. destruct k as [|[|k]].
      * cbn [pred pow Nat.sub]. change (INR 0) with 0. nra.
      * cbn [pred pow Nat.sub]. change (INR 0) with 0. change (INR 1) with 1. transitivity (- (-2 * x * (P1 * x - P) + ((1 - x * x) * P2) * x)); [ring|]. rewrite E2. ring.
      * cbn [pred Nat.sub]. rewrite Nat.sub_0_r. set (y := x ^ k). replace (x ^ S (S k)) with (x * x * y) by (unfold y; cbn; ring). replace (x ^ S k) with (x * y) by (unfold y; cbn; ring).
        rewrite !S_INR. set (K := INR k) in *.
        transitivity (- (-2 * x * (P1 * (x * x * y) - P * ((K + 1 + 1) * (x * y))) + ((1 - x * x) * P2) * (x * x * y) - (1 - x * x) * (P * ((K + 1 + 1) * ((K + 1) * y))))); [ring|].
        rewrite E2. ring.
    + unfold F. apply der_opp. apply (der_mult (fun x => 1 - x * x) (fun x => dl 1 n x * x ^ k - dl 0 n x * (INR k * x ^ pred k))); [apply (der_minus (fun _ => 1) (fun x => x * x)); [apply der_const|apply (der_mult (fun x => x) (fun x => x)); apply der_id]|].
      apply (der_minus (fun x => dl 1 n x * x ^ k) (fun x => dl 0 n x * (INR k * x ^ pred k))); [apply (der_mult (dl 1 n) (fun x => x ^ k)); [apply dl_der|apply der_pow]|].
      apply (der_mult (dl 0 n) (fun x => INR k * x ^ pred k)); [apply dl_der|apply (der_scal (fun x => x ^ pred k)), der_pow].
  - intros x _. apply (continuous_plus (fun x => A * (legendre n x * x ^ k)) (fun x => B * (legendre n x * x ^ (k - 2))));
    (apply (continuous_scal_r (V := R_NormedModule)); apply (continuous_mult (legendre n)); [exact (pol_cont _ _ x (leg_pol n))|apply (ex_derive_continuous (fun x => x ^ _)); eexists; apply der_pow]).
Qed.

Lemma leg_mono_orth n k : (k < n)%nat -> RInt (fun x => legendre n x * x ^ k) (-1) 1 = 0.
Proof.
  induction k as [k IH] using (well_founded_induction lt_wf). intros Hk. pose proof (leg_mono_rec n k) as E.
  assert (Z : INR k * (INR k - 1) * RInt (fun x => legendre n x * x ^ (k - 2)) (-1) 1 = 0).
  { destruct k as [|[|k]]; [change (INR 0) with 0; ring|change (INR 1) with 1; ring|]. rewrite (IH (S (S k) - 2)%nat) by lia. ring. }
  assert (E' : (INR n * (INR n + 1) - INR k * (INR k + 1)) * RInt (fun x => legendre n x * x ^ k) (-1) 1 = 0) by lra.
  apply Rmult_integral in E'. destruct E' as [E'|]; auto. exfalso. apply lt_INR in Hk. pose proof (pos_INR k). nra.
Qed.
Lemma leg_orth n q : pol n q -> RInt (fun x => legendre n x * q x) (-1) 1 = 0.
Proof.
  intros (p & H & Hp).
  enough (G : forall j, (length p + j <= n)%nat -> RInt (fun x => legendre n x * (x ^ j * peval p x)) (-1) 1 = 0).
  { rewrite <- (G 0%nat) by lia. apply RInt_ext. intros x _. rewrite Hp. cbn; ring. }
  clear H q Hp. induction p as [|c p IH]; intros j Hj.
  - rewrite (RInt_ext _ (fun _ => 0)) by (intros; cbn; ring). rewrite RInt_const. apply Rmult_0_r.
  - cbn [length] in Hj. assert (C : forall i z, continuous (fun x => x ^ i) z) by (intros i z; apply (ex_derive_continuous (fun x => x ^ i)); eexists; apply der_pow).
    assert (I1 : ex_RInt (fun x => legendre n x * x ^ j) (-1) 1).
    { apply (ex_RInt_continuous (V := R_CompleteNormedModule)). intros z _. apply (continuous_mult (legendre n) (fun x => x ^ j)); [exact (pol_cont _ _ z (leg_pol n))|auto]. }
    assert (I2 : ex_RInt (fun x => legendre n x * (x ^ S j * peval p x)) (-1) 1).
    { apply (ex_RInt_continuous (V := R_CompleteNormedModule)). intros z _. apply (continuous_mult (legendre n) (fun x => x ^ S j * peval p x)); [exact (pol_cont _ _ z (leg_pol n))|].
      apply (continuous_mult (fun x => x ^ S j)); [auto|apply peval_continuous]. }
    rewrite (RInt_ext _ (fun x => c * (legendre n x * x ^ j) + legendre n x * (x ^ S j * peval p x))) by (intros; cbn; ring).
    rewrite RInt_add2 by auto. rewrite IH by lia. rewrite leg_mono_orth by lia. change (c * 0 + 0 = 0). ring.
Qed.

(** ** Integrals of squares *)
Lemma int_pos f a b c : a < c < b -> (forall x, continuous f x) -> (forall x, 0 <= f x) -> 0 < f c -> 0 < RInt f a b.
Proof.
  intros Hc Cf Nf Pc.
  assert (HI : forall u v, ex_RInt f u v) by (intros; apply (ex_RInt_continuous (V := R_CompleteNormedModule)); auto).
  assert (HD : exists d, 0 < d /\ forall x, Rabs (x - c) < d -> 0 < f x).
  { pose proof (Cf c) as C. apply continuity_pt_filterlim in C. destruct (C (f c) Pc) as (d & Hd & E). exists d. split; auto. intros x Hx.
    destruct (Req_dec x c) as [->|Hn]; auto. assert (G : R_dist (f x) (f c) < f c) by (apply E; split; [split; [exact I|auto]|exact Hx]).
    unfold R_dist in G. apply Rabs_def2 in G. lra. }
  destruct HD as (d & Hd & E). set (u := Rmax ((a + c) / 2) (c - d / 2)). set (v := Rmin ((c + b) / 2) (c + d / 2)).
  assert (Hu : a < u < c /\ c - d / 2 <= u) by (unfold u; apply Rmax_case_strong; lra). assert (Hv : c < v < b /\ v <= c + d / 2) by (unfold v; apply Rmin_case_strong; lra).
  assert (P : 0 < RInt f u v) by (apply RInt_gt_0; [lra| |auto]; intros x Hx; apply E, Rabs_def1; lra).
  assert (P1 : 0 <= RInt f a u) by (apply RInt_ge_0; auto; lra). assert (P2 : 0 <= RInt f v b) by (apply RInt_ge_0; auto; lra).
  assert (C1 : RInt f a u + RInt f u b = RInt f a b) by (apply (RInt_Chasles f a u b (HI _ _) (HI _ _))). assert (C2 : RInt f u v + RInt f v b = RInt f u b) by (apply (RInt_Chasles f u v b (HI _ _) (HI _ _))). lra.
Qed.

(** ** The weights *)
Definition lag (l : list R) (i : nat) (x : R) : R :=
  let o := firstn i l ++ skipn (S i) l in om o x / om o (nth i l 0).

Lemma others_len (l : list R) i : (i < length l)%nat -> length (firstn i l ++ skipn (S i) l) = (length l - 1)%nat.
Proof. intros H. rewrite app_length, firstn_length, skipn_length. lia. Qed.
Lemma others_in (l : list R) i j : (i < length l)%nat -> (j < length l)%nat -> i <> j -> In (nth j l 0) (firstn i l ++ skipn (S i) l).
Proof.
  intros Hi Hj Hn. apply in_or_app. destruct (Nat.lt_ge_cases j i) as [G|G]; [left|right].
  - rewrite <- (firstn_skipn i l) at 1. rewrite app_nth1 by (rewrite firstn_length; lia). apply nth_In. rewrite firstn_length; lia.
  - rewrite <- (firstn_skipn (S i) l) at 1. rewrite app_nth2 by (rewrite firstn_length; lia). apply nth_In. rewrite firstn_length, skipn_length; lia.
Qed.
Lemma others_notin (l : list R) i : NoDup l -> (i < length l)%nat -> ~ In (nth i l 0) (firstn i l ++ skipn (S i) l).
Proof.
  intros H Hi. destruct (nth_split l 0 Hi) as (l1 & l2 & E & L1). set (a := nth i l 0) in *. clearbody a. subst i. rewrite E in H |- *.
  rewrite firstn_app, Nat.sub_diag, firstn_all, app_nil_r. change (skipn (S (length l1)) (l1 ++ a :: l2)) with (skipn (S (length l1)) (l1 ++ a :: l2)).
  replace (l1 ++ a :: l2) with ((l1 ++ [a]) ++ l2) at 1 by (rewrite <- app_assoc; auto). rewrite skipn_app, skipn_all2 by (rewrite app_length; cbn; lia). rewrite app_length. cbn [length].
  replace (S (length l1) - (length l1 + 1))%nat with 0%nat by lia. cbn [skipn app]. apply NoDup_remove_2. auto.
Qed.
Lemma lag_pol l i : (i < length l)%nat -> pol (length l) (lag l i).
Proof.
  intros H. unfold lag. set (o := firstn i l ++ skipn (S i) l). apply (pol_ext _ (fun x => / om o (nth i l 0) * om o x)); [intros; unfold Rdiv; ring|].
  apply pol_scal. apply (pol_mono (S (length o))); [unfold o; rewrite others_len; lia|apply om_pol].
Qed.
Lemma lag_delta l i j : NoDup l -> (i < length l)%nat -> (j < length l)%nat -> lag l i (nth j l 0) = delta i j.
Proof.
  intros H Hi Hj. unfold lag, delta. destruct (Nat.eqb_spec i j) as [<-|Hn].
  - field. apply om_nz, others_notin; auto.
  - rewrite om_root by (apply others_in; auto). unfold Rdiv. ring.
Qed.

Definition gauss_weights (l : list R) : list R := map (fun i => RInt (lag l i) (-1) 1) (seq 0 (length l)).
Lemma gw_len l : length (gauss_weights l) = length l.
Proof. unfold gauss_weights. rewrite map_length, seq_length. auto. Qed.
Lemma gw_nth l i : (i < length l)%nat -> nth i (gauss_weights l) 0 = RInt (lag l i) (-1) 1.
Proof. intros H. unfold gauss_weights. rewrite nth_seq0_map; auto. Qed.

Lemma quadsum_ext xs ws f g : (forall i, (i < length xs)%nat -> f (nth i xs 0) = g (nth i xs 0)) -> quadsum xs ws f = quadsum xs ws g.
Proof. intros H. apply rsum_ext. intros i Hi. rewrite H; auto. Qed.
Lemma quadsum_delta xs ws i : NoDup xs -> (i < length xs)%nat -> quadsum xs ws (lag xs i) = nth i ws 0.
Proof.
  intros H Hi. unfold quadsum. transitivity (rsum (length xs) (fun j => delta i j * nth j ws 0)); [|apply rsum_delta_l; auto].
  apply rsum_ext. intros j Hj. rewrite lag_delta by auto. ring.
Qed.
(** Interpolation: a polynomial with as many coefficients as there are nodes is its Lagrange form. *)
Lemma lag_interp l f x : NoDup l -> pol (length l) f -> f x = rsum (length l) (fun i => f (nth i l 0) * lag l i x).
Proof.
  intros H Hf. apply Rminus_diag_uniq. apply (pol_many_roots l (fun x => f x - rsum (length l) (fun i => f (nth i l 0) * lag l i x)) H).
  - apply pol_minus; auto. apply pol_sum. intros i Hi. apply pol_scal, lag_pol; auto.
  - intros a Ha. destruct (In_nth l a 0 Ha) as (j & Hj & <-). apply Rminus_diag_eq. symmetry.
    transitivity (rsum (length l) (fun i => f (nth i l 0) * delta i j)); [|apply rsum_delta_r; auto]. apply rsum_ext. intros i Hi. rewrite lag_delta by auto. ring.
Qed.
Lemma gw_exact l f : NoDup l -> pol (length l) f -> quadsum l (gauss_weights l) f = RInt f (-1) 1.
Proof.
  intros H Hf. rewrite (RInt_ext f (fun x => rsum (length l) (fun i => f (nth i l 0) * (if Nat.ltb i (length l) then lag l i else fun _ => 0) x))).
  - rewrite RInt_lin.
    + apply rsum_ext. intros i Hi. rewrite gw_nth by auto. destruct (Nat.ltb_spec i (length l)); [apply Rmult_comm|lia].
    + intros i z. destruct (Nat.ltb_spec i (length l)); [exact (pol_cont _ _ z (lag_pol l i ltac:(auto)))|apply continuous_const].
  - intros x _. rewrite (lag_interp l f x) by auto. apply rsum_ext. intros i Hi. destruct (Nat.ltb_spec i (length l)); [auto|lia].
Qed.

(** The zeros of the Legendre polynomial with the interpolatory weights. *)
Lemma leg_factor n l : NoDup l -> length l = n -> (forall i, (i < n)%nat -> legendre n (nth i l 0) = 0) -> exists c, c <> 0 /\ forall x, legendre n x = c * om l x.
Proof.
  intros H L R0. destruct (om_roots l H 1 (legendre n)) as (q & Hq & E).
  - rewrite L, Nat.add_1_r. apply leg_pol.
  - intros a Ha. destruct (In_nth l a 0 Ha) as (i & Hi & <-). apply R0. lia.
  - destruct (pol_1 q Hq) as (c & Ec). exists c. split; [|intros x; rewrite E, Ec; ring]. intros ->. pose proof (E 1) as E1. rewrite Ec, legendre_at_1 in E1. lra.
Qed.
Lemma zeros_exact n l : NoDup l -> length l = n -> (forall i, (i < n)%nat -> legendre n (nth i l 0) = 0) ->
  forall f, pol (2 * n) f -> quadsum l (gauss_weights l) f = RInt f (-1) 1.
Proof.
  intros H L R0 f Hf. destruct (leg_factor n l H L R0) as (c & Hc & Ec).
  destruct (om_newton l n f) as (r & q & Hr & Hq & E); [rewrite L; apply (pol_mono (2 * n)); [lia|auto]|].
  transitivity (quadsum l (gauss_weights l) r).
  { apply quadsum_ext. intros i Hi. rewrite E, om_root by (apply nth_In; auto). ring. }
  rewrite gw_exact by auto.
  rewrite (RInt_ext f (fun x => / c * (legendre n x * q x) + r x)) by (intros; rewrite E, Ec; change (r x + om l x * q x = / c * (c * om l x * q x) + r x); field; auto).
  rewrite RInt_add2.
  - rewrite leg_orth by auto. symmetry. etransitivity; [apply f_equal2; [apply Rmult_0_r|reflexivity]|apply Rplus_0_l].
  - apply (pol_int (S n + n)). destruct n; [apply (pol_ext _ (fun _ => 0)); [intros; rewrite (pol_0 q Hq); ring|apply pol_zero]|]. apply (pol_mono (S (S n) + n)); [lia|]. apply pol_mul; [apply leg_pol|auto].
  - apply (pol_int (length l)). auto.
Qed.
Lemma lag_sq_pol l i : (i < length l)%nat -> pol (2 * length l) (fun x => lag l i x * lag l i x).
Proof.
  intros H. destruct (length l) as [|m] eqn:E; [lia|]. apply (pol_mono (S m + m)); [lia|]. rewrite <- E in H. pose proof (lag_pol l i H) as P. rewrite E in P. apply pol_mul; auto.
Qed.
Lemma exact_weight_pos n xs ws : NoDup xs -> length xs = n -> (forall i, (i < n)%nat -> -1 < nth i xs 0 < 1) -> (forall f, pol (2 * n) f -> quadsum xs ws f = RInt f (-1) 1) ->
  forall i, (i < n)%nat -> 0 < nth i ws 0.
Proof.
  intros H L B E i Hi.
  assert (Q : nth i ws 0 = quadsum xs ws (fun x => lag xs i x * lag xs i x)).
  { rewrite <- (quadsum_delta xs ws i) by (auto; lia). apply quadsum_ext. intros j Hj. rewrite lag_delta by (auto; lia). unfold delta. destruct (Nat.eqb i j); ring. }
  rewrite Q, E by (rewrite <- L; apply lag_sq_pol; lia). apply (int_pos _ _ _ (nth i xs 0)); [auto| | |].
  - intros x. apply (pol_cont (2 * length xs)). apply lag_sq_pol. lia.
  - intros x. apply Rle_0_sqr.
  - rewrite lag_delta by (auto; lia). unfold delta. rewrite Nat.eqb_refl. lra.
Qed.

(** The rule with [n] nodes: the zeros of the Legendre polynomial with their interpolatory weights. *)
Definition gauss_rule (n : nat) : list R * list R := (proj1_sig (leg_zeros n), gauss_weights (proj1_sig (leg_zeros n))).
Lemma gauss_rule_ok n : leggauss_ok n (gauss_rule n) /\ increasing (fst (gauss_rule n)).
Proof.
  unfold gauss_rule, leggauss_ok. cbn [fst snd]. destruct (leg_zeros n) as (l & L & Hinc & Hl). cbn [proj1_sig]. pose proof (inc_nodup l Hinc) as Hn. split; auto.
  assert (EX : forall f, pol (2 * n) f -> quadsum l (gauss_weights l) f = RInt f (-1) 1) by (apply zeros_exact; auto; intros; apply Hl; auto).
  repeat split; auto; try (apply Hl; auto).
  - rewrite gw_len; auto.
  - intros i j Hi Hj Hij E. apply Hij. apply (proj1 (NoDup_nth l 0) Hn); auto; lia.
  - apply (exact_weight_pos n l); auto. intros; apply Hl; auto.
  - rewrite gw_len; auto.
  - intros p Hp. apply EX. apply pol_peval; auto.
Qed.

(** ** Uniqueness *)
Lemma ok_nodup n r : leggauss_ok n r -> NoDup (fst r).
Proof. intros (L & _ & _ & D & _). apply (NoDup_nth (fst r) 0). intros i j Hi Hj E. destruct (Nat.eq_dec i j); auto. exfalso. apply (D i j); auto; lia. Qed.
Lemma ok_exact n r f : leggauss_ok n r -> pol (2 * n) f -> quadsum (fst r) (snd r) f = RInt f (-1) 1.
Proof.
  intros (_ & _ & _ & _ & _ & _ & E) (p & Hp & Ep). rewrite (RInt_ext _ (peval p)) by (intros; auto). rewrite <- E by auto. apply quadsum_ext. auto.
Qed.
(** The nodes are the zeros of the Legendre polynomial. *)
Lemma ok_zero n r : leggauss_ok n r -> forall i, (i < n)%nat -> legendre n (nth i (fst r) 0) = 0.
Proof.
  intros H i Hi. pose proof H as (L & _ & B & _ & W & _). pose proof (ok_nodup n r H) as Hn. set (xs := fst r) in *.
  pose proof (ok_exact n r (fun x => legendre n x * lag xs i x) H) as E. fold xs in E.
  assert (Q : quadsum xs (snd r) (fun x => legendre n x * lag xs i x) = nth i (snd r) 0 * legendre n (nth i xs 0)).
  { unfold quadsum. transitivity (rsum (length xs) (fun j => delta i j * (nth j (snd r) 0 * legendre n (nth j xs 0)))); [|apply rsum_delta_l; lia].
    apply rsum_ext. intros j Hj. rewrite lag_delta by (auto; lia). ring. }
  rewrite Q in E. rewrite leg_orth in E by (rewrite <- L; apply lag_pol; lia).
  assert (P : pol (2 * n) (fun x => legendre n x * lag xs i x)).
  { destruct n as [|m]; [lia|]. apply (pol_mono (S (S m) + m)); [lia|]. apply pol_mul; [apply leg_pol|]. rewrite <- L. apply lag_pol. lia. }
  specialize (E P). specialize (W i Hi). apply Rmult_integral in E. destruct E; [lra|auto].
Qed.
Lemma ok_weight n r : leggauss_ok n r -> forall i, (i < n)%nat -> nth i (snd r) 0 = RInt (lag (fst r) i) (-1) 1.
Proof.
  intros H i Hi. pose proof H as (L & _). rewrite <- (ok_exact n r); [|auto|apply (pol_mono n); [lia|rewrite <- L; apply lag_pol; lia]].
  symmetry. apply quadsum_delta; [apply (ok_nodup n); auto|lia].
Qed.
Lemma inc_same_set l l' : increasing l -> increasing l' -> length l = length l' -> (forall a, In a l -> In a l') -> l = l'.
Proof.
  revert l'. induction l as [|a l IH]; intros [|b l'] Hl Hl' L SS; cbn in L; try lia; auto.
  assert (T : forall c m, increasing (c :: m) -> increasing m /\ forall x, In x m -> c < x).
  { intros c m I. split.
    - intros i j Hij. apply (I (S i) (S j)). cbn; lia.
    - intros x Hx. destruct (In_nth m x 0 Hx) as (k & Hk & <-). apply (I 0%nat (S k)). cbn; lia. }
  destruct (T a l Hl) as (I1 & M1). destruct (T b l' Hl') as (I2 & M2).
  assert (S' : forall x, In x l -> In x l').
  { intros x Hx. destruct (SS x (or_intror Hx)) as [E|]; auto. exfalso. subst x. specialize (M1 b Hx). destruct (SS a (or_introl eq_refl)) as [E|G]; [lra|]. specialize (M2 a G). lra. }
  assert (E : l = l') by (apply IH; auto; lia). subst l'. f_equal. destruct (SS a (or_introl eq_refl)) as [|G]; auto. exfalso. specialize (M1 a G). lra.
Qed.
Lemma ok_unique n r r' : leggauss_ok n r -> leggauss_ok n r' -> increasing (fst r) -> increasing (fst r') -> r = r'.
Proof.
  intros H H' I I'. pose proof H as (L & Lw & _). pose proof H' as (L' & Lw' & _).
  assert (E : fst r = fst r').
  { apply inc_same_set; auto; [lia|]. intros a Ha. destruct (In_nth _ _ 0 Ha) as (i & Hi & <-).
    destruct (leg_factor n (fst r') (ok_nodup n r' H') L' (ok_zero n r' H')) as (c & Hc & Ec). pose proof (ok_zero n r H i ltac:(lia)) as Z. rewrite Ec in Z.
    destruct (in_dec Req_EM_T (nth i (fst r) 0) (fst r')) as [|N]; auto. exfalso. apply Rmult_integral in Z. destruct Z as [|Z]; [auto|]. apply (om_nz _ _ N Z). }
  destruct r as [xs ws], r' as [xs' ws']. cbn [fst snd] in *. subst xs'. f_equal. apply (nth_ext _ _ 0 0); [lia|]. intros i Hi.
  pose proof (ok_weight n _ H i ltac:(lia)) as A. pose proof (ok_weight n _ H' i ltac:(lia)) as B. cbn [fst snd] in *. rewrite A, B. auto.
Qed.
