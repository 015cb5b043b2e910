(** The Nakajima-Tanaka corrections: single-scattering problem and double integral. *)
From Coq Require Import String Reals Lra Lia List Bool Arith ZArith.
From Coquelicot Require Import Coquelicot.
From Verif Require Import Base Tensor Spec M_LinAlg Spec_RTE Calc M_Subroutines M_GenPart M_MathscrV M_Coeffs M_Assemble M_Pydisort
  P_Sub P_GenPart3 P_Tensor P_Coeffs2 P_Coeffs3 P_Assemble P_Solve Spec_Sol Spec_Valid P_Valid P_Pydisort P_Pydisort2 P_Pydisort3 P_Pydisort4 Spec_NT.
Import ListNotations.
Local Open Scope R_scope.

Section TMS.
  Variable p : py_in.
  Hypothesis V : valid p.
  Variable lg : leggauss_t.
  Hypothesis Hlg : leggauss_ok (half p) (lg (half p)).
  Hypothesis HI : 0 < p_I0 p.
  Hypothesis Hne : forall i, (i < half p)%nat -> quad_mu p lg i <> p_mu0 p.
  Local Notation N := (half p).
  Local Notation NL := (nlayers p).
  Local Notation mu0 := (p_mu0 p).
  Local Notation s := (scaled_tau0 p).
  Local Notation mu := (quad_mu p lg).
  Local Notation nu q := (nth q (mu_arr p lg) 0).

  Lemma mu0_pos : 0 < mu0. Proof. apply (v_mu0 p V HI). Qed.
  Lemma mu_pos i : (i < N)%nat -> 0 < mu i.
  Proof. intros Hi. apply (quad_in p lg Hlg i Hi). Qed.
  Lemma s_0 : s 0 = 0. Proof. rewrite (scaled_tau0_eq p V) by lia. reflexivity. Qed.
  Lemma s_S l : (l < NL)%nat -> s (S l) = s l + scaled_thickness p l.
  Proof. intros Hl. rewrite !(scaled_tau0_eq p V) by lia. cbn [rsum]. unfold scaled_thickness, scl. change (thickness p l) with (bot_of p l - top_of p l). change (omega_at p l) with (albedo p l). change (f_at p l) with (fwd p l). reflexivity. Qed.
  Lemma th_pos l : (l < NL)%nat -> 0 < scaled_thickness p l.
  Proof.
    intros Hl. pose proof (scl_pos p V l Hl). pose proof (v_inc p V l Hl). unfold scaled_thickness. change (omega_at p l) with (albedo p l). change (f_at p l) with (fwd p l).
    change (thickness p l) with (bot_of p l - top_of p l). unfold scl in *. apply Rmult_lt_0_compat; lra.
  Qed.
  Lemma stau_eq t l : (l < NL)%nat -> tms_stau p t l = depth_s p l t.
  Proof. intros Hl. unfold tms_stau. rewrite (depth_s_bot p V l Hl), (scale_tau_eq p V). unfold depth_s. change (tau_at p l) with (bot_of p l). ring. Qed.

  Lemma front l : exp_taufront p l = exp (- s l / mu0).
  Proof.
    unfold exp_taufront. destruct l; [|f_equal; unfold Rdiv; ring]. rewrite s_0. unfold Rdiv. rewrite Ropp_0, Rmult_0_l, exp_0. reflexivity.
  Qed.
  Lemma dprod n k : decay_prod p lg n k = exp (rsum k (log_decay p lg n)).
  Proof. unfold decay_prod. destruct k; [cbn; rewrite exp_0|]; reflexivity. Qed.
  Lemma dprod_S n k : decay_prod p lg n (S k) = decay_prod p lg n k * exp (- scaled_thickness p k / mu n).
  Proof. rewrite !dprod. cbn [rsum]. rewrite exp_plus. do 2 f_equal. unfold log_decay, Rdiv. ring. Qed.
  Lemma dprod_ne n k : decay_prod p lg n k <> 0.
  Proof. rewrite dprod. apply Rgt_not_eq, exp_pos. Qed.
  Lemma dprod_pos n k : 0 < decay_prod p lg n k.
  Proof. rewrite dprod. apply exp_pos. Qed.

  Lemma ltp_eq n r : (n < N)%nat -> (r < NL)%nat ->
    layer_term_pos p lg false n r = exp (- s r / mu0) - exp (- scaled_thickness p r / mu n - s (S r) / mu0).
  Proof.
    intros Hn Hr. pose proof (mu_pos n Hn). pose proof mu0_pos. unfold layer_term_pos. rewrite front, (s_S r Hr).
    replace (- (exp (- (scaled_thickness p r * (1 / mu n + 1 / mu0))) - 1) * exp (- s r / mu0)) with
      (exp (- s r / mu0) - exp (- (scaled_thickness p r * (1 / mu n + 1 / mu0))) * exp (- s r / mu0)) by ring.
    rewrite <- exp_plus. do 2 f_equal. field. lra.
  Qed.
  Lemma ltn_eq n r : (n < N)%nat -> (r < NL)%nat ->
    layer_term_neg p lg false n r = exp (- s (S r) / mu0) - exp (- scaled_thickness p r / mu n - s r / mu0).
  Proof.
    intros Hn Hr. pose proof (mu_pos n Hn). pose proof mu0_pos. unfold layer_term_neg. cbv zeta. rewrite front, (s_S r Hr).
    set (th := scaled_thickness p r). destruct (Rleb 0 (th * (1 / mu n - 1 / mu0))) eqn:E.
    - apply Rleb_iff in E. rewrite Rabs_pos_eq by exact E.
      replace (- (s r + th) * (1 / mu0)) with (- (s r + th) / mu0) by (field; lra).
      transitivity (exp (- (s r + th) / mu0) - exp (- (th * (1 / mu n - 1 / mu0))) * exp (- (s r + th) / mu0)); [ring|].
      rewrite <- exp_plus. do 2 f_equal. field. lra.
    - assert (E' : th * (1 / mu n - 1 / mu0) < 0). { apply Rnot_le_lt. intros H1. apply Rleb_iff in H1. congruence. }
      rewrite Rabs_left by exact E'. rewrite Ropp_involutive. unfold log_decay. fold th. rewrite <- exp_plus.
      replace (- th * (1 / mu n) + - s r / mu0) with (- th / mu n - s r / mu0) by (field; lra).
      transitivity (exp (th * (1 / mu n - 1 / mu0)) * exp (- th / mu n - s r / mu0) - exp (- th / mu n - s r / mu0)); [ring|].
      rewrite <- exp_plus. do 2 f_equal. field. lra.
  Qed.
  Lemma ltp_anti n r : layer_term_pos p lg true n r = mu n / scl p r * layer_term_pos p lg false n r.
  Proof. unfold layer_term_pos, integration_factor. rewrite (scale_tau_eq p V). ring. Qed.
  Lemma ltn_anti n r : layer_term_neg p lg true n r = - (mu n / scl p r) * layer_term_neg p lg false n r.
  Proof. unfold layer_term_neg, integration_factor. rewrite (scale_tau_eq p V). reflexivity. Qed.

  (** Recursions from layer to layer. *)
  Lemma R_pos_last anti n l : (NL <= S l)%nat -> R_pos p lg anti n l = 0.
  Proof. intros H. unfold R_pos. change (pNL p) with NL. rewrite (proj2 (Nat.ltb_ge _ _)) by lia. reflexivity. Qed.
  Lemma R_pos_sum anti n l : (S l <= NL)%nat ->
    R_pos p lg anti n l = rsum (NL - S l) (fun i => layer_term_pos p lg anti n (S l + i) * decay_prod p lg n (S l + i)) / decay_prod p lg n (S l).
  Proof.
    intros H. unfold R_pos. change (pNL p) with NL. destruct (Nat.ltb_spec l (NL - 1)); [reflexivity|].
    replace (NL - S l)%nat with 0%nat by lia. cbn [rsum]. unfold Rdiv. ring.
  Qed.
  Lemma R_pos_rec anti n l : (S l < NL)%nat ->
    R_pos p lg anti n l = layer_term_pos p lg anti n (S l) + exp (- scaled_thickness p (S l) / mu n) * R_pos p lg anti n (S l).
  Proof.
    intros H. rewrite !R_pos_sum by lia. rewrite (rsum_first (NL - S l)) by lia.
    replace (S l + 0)%nat with (S l) by lia. replace (NL - S l - 1)%nat with (NL - S (S l))%nat by lia.
    rewrite (rsum_ext (NL - S (S l)) (fun i => layer_term_pos p lg anti n (S l + S i) * decay_prod p lg n (S l + S i)) (fun i => layer_term_pos p lg anti n (S (S l) + i) * decay_prod p lg n (S (S l) + i))).
    2:{ intros i Hi. replace (S l + S i)%nat with (S (S l) + i)%nat by lia. reflexivity. }
    rewrite (dprod_S n (S l)). field. split; [apply Rgt_not_eq, exp_pos|]. apply dprod_ne.
  Qed.
  Lemma R_neg_0 anti n : R_neg p lg anti n 0 = 0. Proof. reflexivity. Qed.
  Lemma R_neg_sum anti n l : R_neg p lg anti n l = decay_prod p lg n l * rsum l (fun r => layer_term_neg p lg anti n r / decay_prod p lg n (S r)).
  Proof. destruct l; [cbn [rsum R_neg]; ring|reflexivity]. Qed.
  Lemma R_neg_rec anti n l : R_neg p lg anti n (S l) = layer_term_neg p lg anti n l + exp (- scaled_thickness p l / mu n) * R_neg p lg anti n l.
  Proof.
    rewrite !R_neg_sum. cbn [rsum]. set (A := rsum l _).
    rewrite Rmult_plus_distr_l. replace (decay_prod p lg n (S l) * (layer_term_neg p lg anti n l / decay_prod p lg n (S l))) with (layer_term_neg p lg anti n l) by (field; apply dprod_ne).
    rewrite dprod_S. ring.
  Qed.
  Lemma R_pos_anti n l c : c <> 0 -> (forall r, (l < r < NL)%nat -> scl p r = c) -> (S l <= NL)%nat -> R_pos p lg true n l = mu n / c * R_pos p lg false n l.
  Proof.
    intros Hc H Hl. rewrite !R_pos_sum by auto. unfold Rdiv at 1 3. rewrite <- Rmult_assoc. f_equal. rewrite <- rsum_scal. apply rsum_ext.
    intros i Hi. rewrite ltp_anti, (H (S l + i)%nat) by lia. ring.
  Qed.
  Lemma R_neg_anti n l c : (forall r, (r < l)%nat -> scl p r = c) -> R_neg p lg true n l = - (mu n / c) * R_neg p lg false n l.
  Proof.
    intros H. rewrite !R_neg_sum. rewrite <- Rmult_assoc, (Rmult_comm (- _)), Rmult_assoc. f_equal. rewrite <- rsum_scal. apply rsum_ext.
    intros i Hi. rewrite ltn_anti, (H i) by lia. unfold Rdiv. ring.
  Qed.

  (** Signs. *)
  Lemma ltp_pos n r : (n < N)%nat -> (r < NL)%nat -> 0 < layer_term_pos p lg false n r.
  Proof.
    intros Hn Hr. rewrite ltp_eq by auto. pose proof (mu_pos n Hn). pose proof mu0_pos. pose proof (th_pos r Hr).
    assert (exp (- scaled_thickness p r / mu n - s (S r) / mu0) < exp (- s r / mu0)); [|lra]. apply exp_increasing. rewrite (s_S r Hr).
    assert (0 < scaled_thickness p r / mu n) by (apply Rdiv_lt_0_compat; auto). assert (0 < scaled_thickness p r / mu0) by (apply Rdiv_lt_0_compat; auto).
    unfold Rdiv in *. nra.
  Qed.
  Lemma R_pos_nonneg n l : (n < N)%nat -> (S l <= NL)%nat -> 0 <= R_pos p lg false n l.
  Proof.
    intros Hn Hl. rewrite R_pos_sum by auto. apply Rmult_le_pos; [|left; apply Rinv_0_lt_compat, dprod_pos]. apply rsum_nonneg. intros i Hi.
    apply Rmult_le_pos; [left; apply ltp_pos; auto; lia|left; apply dprod_pos].
  Qed.
  Lemma R_pos_pos n l : (n < N)%nat -> (S l < NL)%nat -> 0 < R_pos p lg false n l.
  Proof.
    intros Hn Hl. rewrite R_pos_rec by auto. pose proof (ltp_pos n (S l) Hn Hl). pose proof (R_pos_nonneg n (S l) Hn ltac:(lia)).
    pose proof (exp_pos (- scaled_thickness p (S l) / mu n)). nra.
  Qed.
  Lemma ltn_sign n r : (n < N)%nat -> (r < NL)%nat -> 0 < (mu0 - mu n) * layer_term_neg p lg false n r.
  Proof.
    intros Hn Hr. rewrite ltn_eq by auto. pose proof (mu_pos n Hn). pose proof mu0_pos. pose proof (th_pos r Hr). rewrite (s_S r Hr). set (th := scaled_thickness p r) in *.
    assert (E : - (s r + th) / mu0 - (- th / mu n - s r / mu0) = th * (mu0 - mu n) / (mu n * mu0)) by (field; lra).
    assert (P : 0 < th / (mu n * mu0)) by (apply Rdiv_lt_0_compat; nra).
    destruct (Rtotal_order (mu n) mu0) as [L|[L|L]]; [|destruct (Hne n Hn L)|].
    - apply Rmult_lt_0_compat; [lra|]. apply Rlt_Rminus, exp_increasing. unfold Rdiv in *. nra.
    - assert (exp (- (s r + th) / mu0) < exp (- th / mu n - s r / mu0)) by (apply exp_increasing; unfold Rdiv in *; nra). nra.
  Qed.
  Lemma R_neg_sign n l : (n < N)%nat -> (l <= NL)%nat -> 0 <= (mu0 - mu n) * R_neg p lg false n l /\ (l <> 0%nat -> 0 < (mu0 - mu n) * R_neg p lg false n l).
  Proof.
    intros Hn. induction l as [|l IH]; intros Hl; [rewrite R_neg_0; split; [lra|congruence]|]. destruct (IH ltac:(lia)) as [H0 _].
    rewrite R_neg_rec. pose proof (ltn_sign n l Hn ltac:(lia)). pose proof (exp_pos (- scaled_thickness p l / mu n)).
    assert (0 < (mu0 - mu n) * (layer_term_neg p lg false n l + exp (- scaled_thickness p l / mu n) * R_neg p lg false n l)); [|split; [lra|auto]].
    rewrite Rmult_plus_distr_l, <- Rmult_assoc, (Rmult_comm _ (exp _)), Rmult_assoc. nra.
  Qed.

  (** The factor that multiplies the layer's own coefficient. *)
  Definition oth (anti : bool) (q : nat) (t : R) (l : nat) : R :=
    if Nat.ltb q N then R_pos p lg anti q l * exp (1 / mu q * (depth_s p l t - s (S l)))
    else R_neg p lg anti (q - N) l * exp (1 / mu (q - N)%nat * (s l - depth_s p l t)).
  Definition psi (anti : bool) (q : nat) (t : R) (l : nat) : R := tms_own p lg anti q t l + oth anti q t l.
  Lemma other_eq anti ls q t l : In l ls -> (l < NL)%nat -> tms_other p lg anti ls q t l = oth anti q t l.
  Proof.
    intros Hin Hl. unfold tms_other, oth. cbv zeta. rewrite (stau_eq t l Hl). change (pNL p) with NL. change (pN p) with N.
    assert (Z : forall (ls : list nat) f, existsb f ls = false -> In l ls -> f l = false).
    { intros ls' f H Hi. apply not_true_is_false. intros E. assert (existsb f ls' = true) by (apply existsb_exists; eauto). congruence. }
    destruct (Nat.ltb_spec 1 NL) as [H1|H1].
    - destruct (Nat.ltb q N).
      + destruct (existsb _ ls) eqn:E; [reflexivity|]. pose proof (Z _ _ E Hin) as F. apply Nat.ltb_ge in F. rewrite R_pos_last by lia. ring.
      + destruct (existsb _ ls) eqn:E; [reflexivity|]. pose proof (Z _ _ E Hin) as F. apply Nat.ltb_ge in F. replace l with 0%nat by lia. rewrite R_neg_0. ring.
    - destruct (Nat.ltb q N); [rewrite R_pos_last by lia|replace l with 0%nat by lia; rewrite R_neg_0]; ring.
  Qed.

  Lemma sum_ne q : (q < 2 * N)%nat -> mu0 + nu q <> 0.
  Proof.
    intros Hq. rewrite (mu_arr_node p lg q Hq). unfold node. pose proof mu0_pos. destruct (Nat.ltb_spec q N) as [H1|H1].
    - pose proof (mu_pos q H1). lra.
    - specialize (Hne (q - N)%nat ltac:(lia)). lra.
  Qed.
  Lemma nu_ne q : (q < 2 * N)%nat -> nu q <> 0.
  Proof.
    intros Hq. rewrite (mu_arr_node p lg q Hq). unfold node. destruct (Nat.ltb_spec q N) as [H1|H1].
    - pose proof (mu_pos q H1). lra.
    - pose proof (mu_pos (q - N)%nat ltac:(lia)). lra.
  Qed.
  Lemma depth_der l t : is_derive (depth_s p l) t (scl p l).
  Proof.
    unfold depth_s. apply (der_eq _ _ (0 + scl p l * (1 - 0))); [ring|]. apply der_plus; [apply der_const|]. apply der_scal, der_minus; [apply der_id|apply der_const].
  Qed.

  Lemma psi_der q l t : (q < 2 * N)%nat -> (l < NL)%nat ->
    is_derive (fun x => psi false q x l) t (scl p l / nu q * (psi false q t l - (mu0 + nu q) / mu0 * exp (- depth_s p l t / mu0))).
  Proof.
    intros Hq Hl. pose proof mu0_pos as H0. pose proof (nu_ne q Hq) as Hn. pose proof (depth_der l) as HD. pose proof (scl_pos p V l Hl) as Hs.
    apply (der_ext (fun x => if Nat.ltb q N
       then exp (- depth_s p l x / mu0) - exp ((depth_s p l x - s (S l)) / mu q - s (S l) / mu0) + R_pos p lg false q l * exp (1 / mu q * (depth_s p l x - s (S l)))
       else exp (- depth_s p l x / mu0) - exp ((s l - depth_s p l x) / mu (q - N)%nat - s l / mu0) + R_neg p lg false (q - N) l * exp (1 / mu (q - N)%nat * (s l - depth_s p l x)))).
    { intros y. unfold psi, tms_own, oth. cbv zeta. rewrite (stau_eq y l Hl). change (pN p) with N. destruct (Nat.ltb q N); reflexivity. }
    assert (E : nu q = if Nat.ltb q N then mu q else - mu (q - N)%nat) by (rewrite (mu_arr_node p lg q Hq); reflexivity).
    unfold psi, tms_own, oth. cbv zeta. rewrite (stau_eq t l Hl). change (pN p) with N. rewrite E. rewrite E in Hn. destruct (Nat.ltb_spec q N) as [H1|H1].
    - pose proof (mu_pos q H1). eapply der_eq; [|apply der_plus; [apply der_minus|apply der_scal]; apply der_exp].
      2:{ apply der_div, der_opp, HD. }
      2:{ apply der_minus; [apply der_div, der_minus; [apply HD|apply der_const]|apply der_const]. }
      2:{ apply der_scal, der_minus; [apply HD|apply der_const]. }
      cbn beta. field. lra.
    - pose proof (mu_pos (q - N)%nat ltac:(lia)). eapply der_eq; [|apply der_plus; [apply der_minus|apply der_scal]; apply der_exp].
      2:{ apply der_div, der_opp, HD. }
      2:{ apply der_minus; [apply der_div, der_minus; [apply der_const|apply HD]|apply der_const]. }
      2:{ apply der_scal, der_minus; [apply der_const|apply HD]. }
      cbn beta. field. lra.
  Qed.

  (** Values at the boundaries of a layer. *)
  Lemma psi_bot_pos q l : (q < N)%nat -> (l < NL)%nat -> psi false q (bot_of p l) l = R_pos p lg false q l.
  Proof.
    intros Hq Hl. unfold psi, tms_own, oth. cbv zeta. rewrite (stau_eq _ l Hl). change (pN p) with N. rewrite (proj2 (Nat.ltb_lt _ _)) by auto.
    rewrite <- (depth_s_bot p V l Hl). pose proof (mu_pos q Hq). pose proof mu0_pos.
    replace ((s (S l) - s (S l)) / mu q - s (S l) / mu0) with (- s (S l) / mu0) by (field; lra).
    replace (1 / mu q * (s (S l) - s (S l))) with 0 by ring. rewrite exp_0. ring.
  Qed.
  Lemma psi_top_pos q l : (q < N)%nat -> (l < NL)%nat ->
    psi false q (top_of p l) l = layer_term_pos p lg false q l + exp (- scaled_thickness p l / mu q) * R_pos p lg false q l.
  Proof.
    intros Hq Hl. pose proof (mu_pos q Hq). unfold psi, tms_own, oth. cbv zeta. rewrite (stau_eq _ l Hl). change (pN p) with N. rewrite (proj2 (Nat.ltb_lt _ _)) by auto.
    rewrite <- (depth_s_top p V l ltac:(lia)), (ltp_eq q l Hq Hl), (s_S l Hl).
    replace ((s l - (s l + scaled_thickness p l)) / mu q) with (- scaled_thickness p l / mu q) by (field; lra).
    replace (1 / mu q * (s l - (s l + scaled_thickness p l))) with (- scaled_thickness p l / mu q) by (field; lra). ring.
  Qed.
  Lemma psi_top_neg q l : (q < N)%nat -> (l < NL)%nat -> psi false (N + q) (top_of p l) l = R_neg p lg false q l.
  Proof.
    intros Hq Hl. unfold psi, tms_own, oth. cbv zeta. rewrite (stau_eq _ l Hl). change (pN p) with N. rewrite (proj2 (Nat.ltb_ge _ _)) by lia.
    replace (N + q - N)%nat with q by lia.
    rewrite <- (depth_s_top p V l ltac:(lia)). pose proof (mu_pos q Hq). pose proof mu0_pos.
    replace ((s l - s l) / mu q - s l / mu0) with (- s l / mu0) by (field; lra).
    replace (1 / mu q * (s l - s l)) with 0 by ring. rewrite exp_0. ring.
  Qed.
  Lemma psi_bot_neg q l : (q < N)%nat -> (l < NL)%nat ->
    psi false (N + q) (bot_of p l) l = layer_term_neg p lg false q l + exp (- scaled_thickness p l / mu q) * R_neg p lg false q l.
  Proof.
    intros Hq Hl. pose proof (mu_pos q Hq). unfold psi, tms_own, oth. cbv zeta. rewrite (stau_eq _ l Hl). change (pN p) with N. rewrite (proj2 (Nat.ltb_ge _ _)) by lia.
    replace (N + q - N)%nat with q by lia.
    rewrite <- (depth_s_bot p V l Hl), (ltn_eq q l Hq Hl), (s_S l Hl).
    replace ((s l - (s l + scaled_thickness p l)) / mu q) with (- scaled_thickness p l / mu q) by (field; lra).
    replace (1 / mu q * (s l - (s l + scaled_thickness p l))) with (- scaled_thickness p l / mu q) by (field; lra). ring.
  Qed.
  Lemma psi_interface q l : (q < 2 * N)%nat -> (S l < NL)%nat -> psi false q (bot_of p l) l = psi false q (bot_of p l) (S l).
  Proof.
    intros Hq Hl. change (bot_of p l) with (top_of p (S l)) at 2. destruct (Nat.lt_ge_cases q N) as [H|H].
    - rewrite psi_bot_pos, psi_top_pos by (auto; lia). apply R_pos_rec; auto.
    - replace q with (N + (q - N))%nat by lia. rewrite psi_bot_neg, psi_top_neg by lia. symmetry. apply R_neg_rec.
  Qed.
  Lemma psi_interface_ne q l : (q < 2 * N)%nat -> (S l < NL)%nat -> psi false q (bot_of p l) l <> 0.
  Proof.
    intros Hq Hl. destruct (Nat.lt_ge_cases q N) as [H|H].
    - rewrite psi_bot_pos by (auto; lia). pose proof (R_pos_pos q l H Hl). lra.
    - rewrite psi_interface by auto. change (bot_of p l) with (top_of p (S l)). replace q with (N + (q - N))%nat by lia. rewrite psi_top_neg by lia.
      destruct (R_neg_sign (q - N)%nat (S l) ltac:(lia) ltac:(lia)) as [_ H1]. specialize (H1 ltac:(lia)). intros E. rewrite E in H1. lra.
  Qed.
  Lemma psi_in_top q : (q < N)%nat -> psi false (N + q) 0 0 = 0.
  Proof. intros Hq. change 0 with (top_of p 0) at 1. rewrite psi_top_neg; auto. apply (v_ne p V). Qed.
  Lemma psi_in_bottom q : (q < N)%nat -> psi false q (bot_of p (NL - 1)) (NL - 1) = 0.
  Proof. intros Hq. pose proof (v_ne p V). rewrite psi_bot_pos by (auto; lia). apply R_pos_last. lia. Qed.

  (** Flagged factor. *)
  Lemma psi_anti_der q l t c : (q < 2 * N)%nat -> (l < NL)%nat -> c <> 0 -> (forall r, (r < NL)%nat -> r <> l -> if Nat.ltb q N then (l < r)%nat -> scl p r = c else (r < l)%nat -> scl p r = c) ->
    is_derive (fun x => psi true q x l) t (tms_own p lg false q t l + scl p l / c * oth false q t l).
  Proof.
    intros Hq Hl Hc HA. pose proof mu0_pos as H0. pose proof (depth_der l) as HD. pose proof (scl_pos p V l Hl) as Hs.
    apply (der_ext (fun x => if Nat.ltb q N
       then exp (- depth_s p l x / mu0) / (- scl p l / mu0) - exp ((depth_s p l x - s (S l)) / mu q - s (S l) / mu0) / (scl p l / mu q) + R_pos p lg true q l * exp (1 / mu q * (depth_s p l x - s (S l)))
       else exp (- depth_s p l x / mu0) / (- scl p l / mu0) + exp ((s l - depth_s p l x) / mu (q - N)%nat - s l / mu0) / (scl p l / mu (q - N)%nat) + R_neg p lg true (q - N) l * exp (1 / mu (q - N)%nat * (s l - depth_s p l x)))).
    { intros y. unfold psi, tms_own, oth. cbv zeta. rewrite (stau_eq y l Hl), (scale_tau_eq p V). change (pN p) with N. destruct (Nat.ltb q N); reflexivity. }
    unfold psi, tms_own, oth. cbv zeta. rewrite (stau_eq t l Hl). change (pN p) with N. destruct (Nat.ltb_spec q N) as [H1|H1].
    - pose proof (mu_pos q H1). rewrite (R_pos_anti q l c Hc); [|intros r Hr; apply HA; lia|lia].
      eapply der_eq; [|apply der_plus; [apply der_minus; apply der_div|apply der_scal]; apply der_exp].
      2:{ apply der_div, der_opp, HD. }
      2:{ apply der_minus; [apply der_div, der_minus; [apply HD|apply der_const]|apply der_const]. }
      2:{ apply der_scal, der_minus; [apply HD|apply der_const]. }
      cbn beta. field. lra.
    - pose proof (mu_pos (q - N)%nat ltac:(lia)). rewrite (R_neg_anti (q - N)%nat l c); [|intros r Hr; apply HA; lia].
      eapply der_eq; [|apply der_plus; [apply der_plus; apply der_div|apply der_scal]; apply der_exp].
      2:{ apply der_div, der_opp, HD. }
      2:{ apply der_minus; [apply der_div, der_minus; [apply der_const|apply HD]|apply der_const]. }
      2:{ apply der_scal, der_minus; [apply der_const|apply HD]. }
      cbn beta. field. lra.
  Qed.
  Lemma oth_pos_ne q l t : (q < N)%nat -> (S l < NL)%nat -> oth false q t l <> 0.
  Proof.
    intros Hq Hl. unfold oth. rewrite (proj2 (Nat.ltb_lt _ _)) by auto. pose proof (R_pos_pos q l Hq Hl). pose proof (exp_pos (1 / mu q * (depth_s p l t - s (S l)))). nra.
  Qed.
End TMS.

(** The function chi. *)
Section Chi.
  Variables (mu mp : R).
  Hypothesis Hmu : 0 < mu.
  Hypothesis Hmp : 0 < mp.
  Hypothesis Hne : mu <> mp.
  Let x := 1 / mu - 1 / mp.
  Definition chi_c (t : R) : R := ((t - 1 / x) * exp (- t / mp) + exp (- t / mu) / x) / (mu * mp * x).
  Lemma x_ne : x <> 0.
  Proof.
    unfold x. intros H. apply Hne. assert (mp - mu = 0); [|lra]. replace (mp - mu) with ((1 / mu - 1 / mp) * (mu * mp)) by (field; lra). rewrite H. ring.
  Qed.
  Lemma inner s : RInt (fun s' => exp (s' / mp - s' / mp)) 0 s = s.
  Proof.
    rewrite (RInt_ext (V:=R_CompleteNormedModule) _ (fun _ => 1)). { rewrite RInt_const. unfold scal; cbn; unfold mult; cbn. ring. }
    intros y _. unfold Rminus. rewrite Rplus_opp_r. apply exp_0.
  Qed.
  Lemma chi_doc_eq t : chi_doc mu mp mp t = chi_c t.
  Proof.
    unfold chi_doc. pose proof x_ne as Hx.
    rewrite (RInt_ext (V:=R_CompleteNormedModule) _ (fun s => s * exp (x * s))).
    2:{ intros y _. rewrite inner, Rmult_comm. do 2 f_equal. unfold x. field. lra. }
    assert (H : is_RInt (V:=R_NormedModule) (fun s => s * exp (x * s)) 0 t ((t / x - 1 / x ^ 2) * exp (x * t) - (0 / x - 1 / x ^ 2) * exp (x * 0))).
    { apply (is_RInt_derive (V:=R_CompleteNormedModule) (fun s => (s / x - 1 / x ^ 2) * exp (x * s)) (fun s => s * exp (x * s))).
      - intros y _. eapply der_eq; [|apply der_mult; [apply der_minus; [apply der_div, der_id|apply der_const]|apply der_exp; apply der_scal, der_id]].
        cbn beta. field. exact Hx.
      - intros y _. apply (continuous_mult (K:=R_AbsRing)); [apply continuous_id|]. apply continuous_comp; [|apply continuous_exp].
        apply (continuous_mult (K:=R_AbsRing)); [apply continuous_const|apply continuous_id]. }
    rewrite (is_RInt_unique (V:=R_CompleteNormedModule) _ _ _ _ H). unfold chi_c.
    replace (exp (- t / mp)) with (exp (- t / mu) * exp (x * t)).
    2:{ rewrite <- exp_plus. f_equal. unfold x. field. lra. }
    rewrite Rmult_0_r, exp_0. field. split; [exact Hx|lra].
  Qed.
  Lemma chi_0 : chi_c 0 = 0.
  Proof. pose proof x_ne. unfold chi_c. replace (- 0 / mp) with 0 by (field; lra). replace (- 0 / mu) with 0 by (field; lra). rewrite exp_0. field. split; [exact H|lra]. Qed.
  Lemma chi_anti_der t : is_derive (fun t => ((mp - x * mp * (mp + t)) * exp (- t / mp) - mu * exp (- t / mu)) / (mu * mp * x ^ 2)) t (chi_c t).
  Proof.
    pose proof x_ne as Hx. eapply der_eq; [|apply der_div, der_minus; [apply der_mult; [apply der_minus; [apply der_const|apply der_scal, der_plus; [apply der_const|apply der_id]]|apply der_exp, der_div, der_opp, der_id]|apply der_scal, der_exp, der_div, der_opp, der_id]].
    cbn beta. unfold chi_c. field. split; [exact Hx|lra].
  Qed.
  Lemma chi_der_ex t : exists l, is_derive chi_c t l.
  Proof.
    eexists. unfold chi_c. apply der_div, der_plus; [apply der_mult; [apply der_minus; [apply der_id|apply der_const]|apply der_exp, der_div, der_opp, der_id]|apply der_div, der_exp, der_div, der_opp, der_id].
  Qed.
End Chi.
