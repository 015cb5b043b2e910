(** No answer where a layer scatters radiation of one symmetry back in full. *)
From Coq Require Import Classical String Reals Lra Lia List Bool Arith ZArith.
From Verif Require Import Base Tensor Spec M_LinAlg Spec_RTE M_GenPart P_Special P_GenPart P_GenPart2 P_GenPart3 P_GenPart4 P_LinA P_Spec1 P_Spec2 P_Spec3
  M_Subroutines M_Assemble M_Pydisort Spec_Sol Spec_Phys Spec_Solved Spec_Valid Spec_Rates P_Assemble P_Pydisort P_Pydisort2 P_Pydisort3 P_Pydisort4.
Import ListNotations.
Local Open Scope R_scope.

Lemma spectral_sym n P Q : pd n P -> sym n Q ->
  exists (lam : vec) (V : nat -> vec), (forall k i, (k < n)%nat -> (i < n)%nat -> mv n Q (V k) i = lam k * mv n P (V k) i) /\ inj n (fun i k => V k i).
Proof.
  intros HP HQ. destruct (coercive n P HP) as (c & Hc & HC). destruct (q_bound n (fun i j => - Q i j)) as (B & HB & HBq).
  set (t := B / c + 1). set (M := fun i j => Q i j + t * P i j).
  assert (MV : forall y i, mv n M y i = mv n Q y i + t * mv n P y i).
  { intros y i. unfold mv, M. rewrite <- rsum_scal, <- rsum_plus. apply rsum_ext. intros; ring. }
  assert (QM : forall y, dot n y (mv n M y) = dot n y (mv n Q y) + t * dot n y (mv n P y)).
  { intros y. rewrite (dot_ext n y y (mv n M y) (fun i => mv n Q y i + t * mv n P y i)) by (auto; intros; apply MV). rewrite dot_plus_r, dot_scal_r. reflexivity. }
  assert (NQ : forall y, dot n y (mv n (fun i j => - Q i j) y) = - dot n y (mv n Q y)).
  { intros y. rewrite (dot_ext n y y _ (fun i => (-1) * mv n Q y i)); auto; [rewrite dot_scal_r; ring|]. intros i Hi. unfold mv. rewrite <- rsum_scal. apply rsum_ext. intros; ring. }
  assert (HM : pd n M).
  { split; [intros i j Hi Hj; unfold M; rewrite (HQ i j), (proj1 HP i j) by auto; reflexivity|]. intros x Hx. rewrite QM. specialize (HBq x). rewrite NQ in HBq. specialize (HC x).
    pose proof (proj2 HP x Hx) as H. assert (B * dot n x x <= B / c * dot n x (mv n P x)).
    { replace (B * dot n x x) with (B / c * (c * dot n x x)) by (field; lra). apply Rmult_le_compat_l; [apply Rlt_le, Rdiv_lt_0_compat; auto|exact HC]. }
    unfold t. lra. }
  destruct (spectral n P M HP HM) as (lam & V & _ & HV & HI). exists (fun k => lam k - t), V. split; [|exact HI].
  intros k i Hk Hi. specialize (HV k i Hk Hi). rewrite MV in HV. lra.
Qed.

(** Products of two symmetric matrices, of which the left or the right one is positive definite. *)
Section Product.
  Variables (n : nat) (z : vec) (P Q : mat).
  Hypothesis Hz : forall i, (i < n)%nat -> 0 < z i.
  Hypothesis HP : pd n P.
  Hypothesis HQ : sym n Q.
  Let c (x : vec) : vec := fun i => mv n P x i / z i.
  Let d (x : vec) : vec := fun i => mv n Q x i / z i.
  Let T (x : vec) : vec := d (c x).
  (** [R = P (Q/z) (P/z)], the form of [Q] after the substitution [y = P x / z]. *)
  Let F : mat := fun i j => rsum n (fun a => rsum n (fun b => P i a / z a * Q a b * (P b j / z b))).
  Lemma F_mv x i : mv n F x i = mv n P (T x) i.
  Proof.
    unfold mv at 1, F. unfold T, d, c, mv.
    rewrite (rsum_ext n _ (fun j => rsum n (fun a => rsum n (fun b => P i a / z a * Q a b * (P b j / z b) * x j)))).
    2: { intros j Hj. rewrite <- rsum_scal_r. apply rsum_ext. intros a Ha. rewrite <- rsum_scal_r. reflexivity. }
    rewrite rsum_swap. apply rsum_ext. intros a Ha. rewrite rsum_swap.
    rewrite (rsum_ext n (fun j => rsum n (fun i0 => _)) (fun b => P i a / z a * (Q a b * (rsum n (fun j => P b j * x j) / z b)))).
    2: { intros b Hb. rewrite <- rsum_div, <- !rsum_scal. apply rsum_ext. intros j Hj. unfold Rdiv. ring. }
    rewrite rsum_scal. unfold Rdiv. ring.
  Qed.
  Lemma F_bil x y : dot n x (mv n F y) = dot n (c x) (mv n Q (c y)).
  Proof.
    rewrite (dot_ext n x x (mv n F y) (mv n P (T y))) by (auto; intros; apply F_mv).
    rewrite bil_sym by apply HP. apply rsum_ext. intros i Hi. unfold T, d, c. specialize (Hz i Hi). field. lra.
  Qed.
  Lemma F_sym : sym n F.
  Proof.
    intros i j Hi Hj. unfold F. rewrite rsum_swap. apply rsum_ext. intros b Hb. apply rsum_ext. intros a Ha. 
    rewrite (HQ a b) by auto. rewrite (proj1 HP i a), (proj1 HP b j) by auto. unfold Rdiv. ring.
  Qed.
  Lemma c_inj x : (forall i, (i < n)%nat -> c x i = 0) -> forall i, (i < n)%nat -> x i = 0.
  Proof.
    intros H. apply (pd_inj n P HP). intros i Hi. specialize (H i Hi). unfold c in H. specialize (Hz i Hi). fold (mv n P x i).
    apply (Rmult_eq_reg_r (/ z i)); [unfold Rdiv in H; rewrite H; ring|]. apply Rinv_neq_0_compat. lra.
  Qed.
  Lemma c_onto y : exists x, forall i, (i < n)%nat -> c x i = y i.
  Proof.
    destruct (inj_surj n P (pd_inj n P HP) (fun i => y i * z i)) as (x & Hx). exists x. intros i Hi. unfold c, mv. rewrite Hx by auto. specialize (Hz i Hi). field. lra.
  Qed.
  Lemma c_nz x : nz n x -> nz n (c x).
  Proof.
    intros (i & Hi & Hx). apply NNPP. intros H. pose proof (not_nz _ _ H) as Z. apply Hx. apply (c_inj x Z). exact Hi.
  Qed.
  Lemma P_elim x y : (forall i, (i < n)%nat -> mv n P x i = mv n P y i) -> forall i, (i < n)%nat -> x i = y i.
  Proof.
    intros H i Hi. apply Rminus_diag_uniq. apply (pd_inj n P HP (fun i => x i - y i)); auto. intros k Hk.
    rewrite (rsum_ext n _ (fun j => P k j * x j - P k j * y j)) by (intros; ring). rewrite rsum_minus. fold (mv n P x k) (mv n P y k). rewrite H by auto. ring.
  Qed.
  (** [(Q/z) (P/z)] has a full set of real eigenvectors. *)
  Lemma T_basis : exists (lam : vec) (V : nat -> vec), inj n (fun i k => V k i) /\ forall k i, (k < n)%nat -> (i < n)%nat -> T (V k) i = lam k * V k i.
  Proof.
    destruct (spectral_sym n P F HP F_sym) as (lam & V & HV & HI). exists lam, V. split; [exact HI|]. intros k i Hk Hi.
    apply (P_elim (T (V k)) (fun i => lam k * V k i)); auto. intros q Hq. rewrite <- F_mv, HV, mv_scal by auto. reflexivity.
  Qed.
  (** One of the eigenvalues is not positive if [Q] is not positive definite. *)
  Lemma T_bad y : (0 < n)%nat -> nz n y -> dot n y (mv n Q y) <= 0 -> exists lam x, lam <= 0 /\ nz n x /\ forall i, (i < n)%nat -> T x i = lam * x i.
  Proof.
    intros Hn Hy H0. destruct (c_onto y) as (x0 & Hx0).
    assert (Hx0n : nz n x0).
    { apply NNPP. intros H. pose proof (not_nz _ _ H) as Z. destruct Hy as (i & Hi & Hne). apply Hne. rewrite <- Hx0 by auto. unfold c, mv. rewrite rsum_0; [unfold Rdiv; ring|]. intros j Hj. rewrite Z by auto. ring. }
    assert (HF : dot n x0 (mv n F x0) <= 0).
    { rewrite F_bil. rewrite (dot_ext n (c x0) y (mv n Q (c x0)) (mv n Q y)); auto. intros i Hi. apply mv_ext. auto. }
    destruct (top_eigen n P (fun i j => - F i j) Hn HP) as (lam & x & Hx & Ex & Top).
    { intros i j Hi Hj. rewrite (F_sym i j) by auto. reflexivity. }
    assert (NF : forall u i, mv n (fun i j => - F i j) u i = - mv n F u i) by (intros u i; unfold mv; rewrite <- (Rmult_1_l (rsum n (fun j => F i j * u j))), Ropp_mult_distr_l, <- rsum_scal; apply rsum_ext; intros; ring).
    exists (- lam), x. split; [|split; [exact Hx|]].
    - specialize (Top x0). rewrite (dot_ext n x0 x0 _ (fun i => (-1) * mv n F x0 i)) in Top by (auto; intros; rewrite NF; ring). rewrite dot_scal_r in Top.
      pose proof (proj2 HP x0 Hx0n) as H. destruct (Rle_lt_dec 0 lam); [lra|]. exfalso. nra.
    - apply (P_elim (T x) (fun i => - lam * x i)). intros q Hq. rewrite <- F_mv, mv_scal. specialize (Ex q Hq). rewrite NF in Ex. lra.
  Qed.
  (** The same of the product in the other order, [(P/z) (Q/z)]. *)
  Let T' (x : vec) : vec := c (d x).
  Lemma cT x i : T' (c x) i = c (T x) i.
  Proof. reflexivity. Qed.
  Lemma c_ext x y i : (forall j, (j < n)%nat -> x j = y j) -> c x i = c y i.
  Proof. intros H. unfold c. f_equal. apply mv_ext. exact H. Qed.
  Lemma c_scal a x i : c (fun j => a * x j) i = a * c x i.
  Proof. unfold c. rewrite mv_scal. unfold Rdiv. ring. Qed.
  Lemma T'_basis : exists (lam : vec) (V : nat -> vec), inj n (fun i k => V k i) /\ forall k i, (k < n)%nat -> (i < n)%nat -> T' (V k) i = lam k * V k i.
  Proof.
    destruct T_basis as (lam & V & HI & HV). exists lam, (fun k => c (V k)). split.
    - intros v Hv. apply HI. intros i Hi. apply (c_inj (fun i => rsum n (fun j => V j i * v j))); auto. intros k Hk. rewrite <- (Hv k Hk). unfold c, mv.
      rewrite (rsum_ext n (fun j => P k j * _) (fun j => rsum n (fun q => P k j * (V q j * v q)))) by (intros; rewrite rsum_scal; reflexivity).
      rewrite rsum_swap, <- rsum_div. apply rsum_ext. intros q Hq. unfold Rdiv. rewrite <- !rsum_scal_r. apply rsum_ext. intros; ring.
    - intros k i Hk Hi. rewrite cT. rewrite (c_ext (T (V k)) (fun j => lam k * V k j)) by auto. apply c_scal.
  Qed.
  Lemma T'_bad y : (0 < n)%nat -> nz n y -> dot n y (mv n Q y) <= 0 -> exists lam x, lam <= 0 /\ nz n x /\ forall i, (i < n)%nat -> T' x i = lam * x i.
  Proof.
    intros Hn Hy H0. destruct (T_bad y Hn Hy H0) as (lam & x & Hl & Hx & E). exists lam, (c x). split; [exact Hl|]. split; [apply c_nz; exact Hx|].
    intros i Hi. rewrite cT. rewrite (c_ext (T x) (fun j => lam * x j)) by auto. apply c_scal.
  Qed.
End Product.

(** A matrix with a full set of eigenvectors has no other eigenvalues. *)
Lemma eig_only n (A E : mat) (k : vec) lam x : inj n E -> (forall i j, (i < n)%nat -> (j < n)%nat -> rsum n (fun p => A i p * E p j) = E i j * k j) ->
  nz n x -> (forall i, (i < n)%nat -> rsum n (fun p => A i p * x p) = lam * x i) -> exists j, (j < n)%nat /\ k j = lam.
Proof.
  intros HE HA (i0 & Hi0 & Hx) Hl. destruct (inj_surj n E HE x) as (v & Hv).
  assert (Z : forall j, (j < n)%nat -> v j * (k j - lam) = 0).
  { apply HE. intros i Hi.
    rewrite (rsum_ext n _ (fun j => E i j * k j * v j - lam * (E i j * v j))) by (intros; ring). rewrite rsum_minus, rsum_scal, Hv by auto.
    rewrite <- (Hl i Hi). apply Rminus_diag_eq.
    rewrite (rsum_ext n (fun p => A i p * x p) (fun p => rsum n (fun j => A i p * E p j * v j))).
    - rewrite rsum_swap. apply rsum_ext. intros j Hj. rewrite rsum_scal_r, HA by auto. reflexivity.
    - intros q Hq. rewrite <- (Hv q Hq), <- rsum_scal. apply rsum_ext. intros; ring. }
  apply NNPP. intros Hno. apply Hx. rewrite <- Hv by auto. apply rsum_0. intros j Hj. specialize (Z j Hj).
  apply Rmult_integral in Z as [-> |Z]; [ring|]. exfalso. apply Hno. exists j. split; [exact Hj|lra].
Qed.

Section GP.
  Variable g : gp_in.
  Let N := gp_N g.
  Let mu := gp_mu g.
  Hypothesis HN : (0 < N)%nat.
  Hypothesis Hmu : forall i, (i < N)%nat -> 0 < mu i /\ gp_M_inv g i = 1 / mu i.
  Hypothesis HW : forall i, (i < N)%nat -> 0 < gp_W g i.
  Variable la : linalg.
  Hypothesis Hla : linalg_ok la.
  Hypothesis Hlt : linalg_total la.
  Variables (m l : nat).
  Let K (x y : R) := D_spec (gp_omega g l) (gp_wLeg g l) (gp_NLeg g) m x y.
  Let S (s : R) : mat := fun i j => gp_W g i * delta i j - gp_W g i * (K (mu i) (mu j) + s * K (mu i) (- mu j)) * gp_W g j.
  Let z : vec := fun i => mu i * gp_W g i.
  Let AA : mat := fun i j => rsum N (fun p => S (-1) i p / z i * (S 1 p j / z p)).

  Lemma S_sym s : sym N (S s).
  Proof.
    intros i j Hi Hj. unfold S. replace (K (mu j) (mu i)) with (K (mu i) (mu j)) by (apply D_sym).
    replace (K (mu j) (- mu i)) with (K (mu i) (- mu j)) by (unfold K; rewrite D_sym, D_spec_neg; reflexivity).
    destruct (Nat.eq_dec i j) as [->|]; [ring|]. rewrite !delta_ne by auto. ring.
  Qed.
  Lemma zp i : (i < N)%nat -> 0 < z i.
  Proof. intros Hi. apply Rmult_lt_0_compat; [apply Hmu|apply HW]; auto. Qed.
  Lemma AA_mv x i : rsum N (fun j => AA i j * x j) = mv N (S (-1)) (fun q => mv N (S 1) x q / z q) i / z i.
  Proof.
    unfold AA, mv. rewrite (rsum_ext N _ (fun j => rsum N (fun q => S (-1) i q / z i * (S 1 q j / z q) * x j))) by (intros; rewrite rsum_scal_r; reflexivity).
    rewrite rsum_swap, <- rsum_div. apply rsum_ext. intros q Hq. unfold Rdiv. rewrite <- !rsum_scal_r, <- !rsum_scal. 
    rewrite <- rsum_scal_r. apply rsum_ext. intros; ring.
  Qed.

  Theorem no_eig s y : (s = 1 \/ s = -1) -> pd N (S (- s)) -> nz N y -> dot N y (mv N (S s) y) <= 0 -> forall e, gp_eig g la (cA g m l) <> Ok e.
  Proof.
    intros Hs HP Hy H0 e He.
    assert (B : (exists (lam : vec) (V : nat -> vec), inj N (fun i k => V k i) /\ forall k i, (k < N)%nat -> (i < N)%nat -> rsum N (fun j => AA i j * V k j) = lam k * V k i) /\
      exists lam x, lam <= 0 /\ nz N x /\ forall i, (i < N)%nat -> rsum N (fun j => AA i j * x j) = lam * x i).
    { destruct Hs as [-> | ->].
      - replace (-(1)) with (-1) in HP by ring.
        destruct (T'_basis N z (S (-1)) (S 1) zp HP (S_sym 1)) as (la1 & V & HI & HV). destruct (T'_bad N z (S (-1)) (S 1) zp HP (S_sym 1) y HN Hy H0) as (la2 & x & H1 & H2 & H3).
        split; [exists la1, V; split; [exact HI|]; intros; rewrite AA_mv; apply HV; auto|]. exists la2, x. do 2 (split; auto). intros; rewrite AA_mv; apply H3; auto.
      - replace (-(-1)) with 1 in HP by ring.
        destruct (T_basis N z (S 1) (S (-1)) HP (S_sym (-1))) as (la1 & V & HI & HV). destruct (T_bad N z (S 1) (S (-1)) zp HP (S_sym (-1)) y HN Hy H0) as (la2 & x & H1 & H2 & H3).
        split; [exists la1, V; split; [exact HI|]; intros; rewrite AA_mv; apply HV; auto|]. exists la2, x. do 2 (split; auto). intros; rewrite AA_mv; apply H3; auto. }
    destruct B as ((lam & V & HI & HV) & la2 & x & Hneg & Hx & Ex).
    destruct (eig_total la Hlt N AA lam (fun i k => V k i) HI) as (k2 & E' & El & HE').
    { intros i j Hi Hj. rewrite HV by auto. ring. }
    pose proof (eig_ok la Hla N AA k2 E' El) as Heig.
    destruct (eig_only N AA (of_rows E') (of_list k2) la2 x HE' Heig Hx Ex) as (j & Hj & Ej).
    unfold gp_eig in He. fold N in He. pose proof (eig_arg g Hmu HW m l) as EA. fold N mu K in EA. cbv zeta in EA. 
    change (rows N N (mmul N _ _)) with (rows N N (mmul N (fun i j : nat => cA g m l (N + i)%nat (N + j)%nat - cA g m l (N + i)%nat j) (fun i j : nat => cA g m l (N + i)%nat (N + j)%nat + cA g m l (N + i)%nat j))) in He.
    rewrite EA in He. change (rows N N _) with (rows N N AA) in He. rewrite El in He. cbn [ofopt bind] in He.
    destruct (forallb _ _) eqn:EF; [|discriminate]. rewrite forallb_forall in EF. specialize (EF j ltac:(apply in_seq; lia)). apply Rltb_iff in EF. lra.
  Qed.
End GP.
