(** The corrected intensity: values of the returned arrays. *)
From Coq Require Import String Reals Lra Lia List Bool Arith ZArith.
From Coquelicot Require Import Coquelicot.
From Verif Require Import Base Tensor Spec M_LinAlg Spec_RTE Calc M_Subroutines M_GenPart M_MathscrV M_Coeffs M_Assemble M_Pydisort
  P_Sub P_Sub3 P_GenPart3 P_Tensor P_Teq P_Coeffs2 P_Coeffs3 P_Assemble P_Solve Spec_Sol Spec_Valid P_Valid P_Pydisort P_Pydisort2 P_Pydisort3 P_Pydisort4 P_Pydisort5
  P_Same P_Whole Spec_NT P_NT.
Import ListNotations.
Local Open Scope R_scope.

Lemma bshape_refl s : bshape s s = Some s.
Proof. induction s as [|n s IH]; [reflexivity|]. cbn. rewrite bdim_refl, IH. reflexivity. Qed.
Lemma bidx_self s : forall idx, inb s idx -> bidx s idx = idx.
Proof.
  induction s as [|n s IH]; intros [|i idx] H; cbn in H; try (destruct H; fail); [reflexivity|]. destruct H as [H1 H2]. cbn [bidx]. rewrite (IH idx H2). f_equal.
  unfold bi. destruct (Nat.eqb_spec n 1) as [->|]; lia.
Qed.
Lemma bcast2_same f A B : shp A = shp B -> exists C, bcast2 f A B = Ok C /\ shp C = shp A /\ forall idx, inb (shp A) idx -> elt C idx = f (elt A idx) (elt B idx).
Proof.
  intros E. unfold bcast2. rewrite <- E, Nat.max_id, padl_same by reflexivity. rewrite bshape_refl. eexists. split; [reflexivity|]. split; [reflexivity|].
  intros idx Hi. cbn [elt]. rewrite Nat.sub_diag. cbn [skipn]. rewrite bidx_self by auto. reflexivity.
Qed.
Lemma squeezed_add A B s f g : squeezed A s f -> squeezed B s g -> exists C, tadd A B = Ok C /\ squeezed C s (fun idx => f idx + g idx).
Proof.
  intros [S1 E1] [S2 E2]. destruct (bcast2_same Rplus A B) as (C & HC & SC & EC); [exact (eq_trans S1 (eq_sym S2))|]. exists C. split; [exact HC|]. split; [rewrite SC; exact S1|].
  intros idx Hi. rewrite SC in Hi. rewrite EC by auto. rewrite E1 by auto. rewrite E2 by (rewrite S2; rewrite S1 in Hi; exact Hi). reflexivity.
Qed.

(** Scattering angles. *)
Lemma nu_elt mus phi x y q h : (2 <= length mus)%nat \/ length phi = 1%nat -> (q < length mus)%nat -> (h < length phi)%nat ->
  shp (atleast_2d_append (calculate_nu mus phi [x] [y])) = [length mus; length phi] /\
  elt (atleast_2d_append (calculate_nu mus phi [x] [y])) [q; h] = dot3 (unit_vec (nth q mus 0) (nth h phi 0)) (unit_vec x y).
Proof.
  intros Hn Hq Hh. destruct (nu_all mus phi [x] [y] q h 0 0 Hq Hh ltac:(cbn; lia) ltac:(cbn; lia)) as [HS HE].
  cbn [length combine filter fst Nat.eqb negb] in HS, HE. set (C := calculate_nu mus phi [x] [y]) in *. unfold atleast_2d_append.
  cbn [nth] in HE. rewrite <- HE.
  destruct (Nat.eqb_spec (length mus) 1) as [E1|E1], (Nat.eqb_spec (length phi) 1) as [E2|E2]; cbn [negb] in *; rewrite HS; cbn [map snd].
  - rewrite E1, E2. split; reflexivity.
  - exfalso. lia.
  - rewrite E2. unfold tnew. rewrite HS. split; [reflexivity|]. cbn [elt firstn skipn app]. reflexivity.
  - split; [exact HS|reflexivity].
Qed.

Section Values.
  Variable p : py_in.
  Hypothesis V : valid p.
  Variable lg : leggauss_t.
  Hypothesis Hlg : leggauss_ok (half p) (lg (half p)).
  Variables (ss : nat -> vec) (r : R).
  Hypothesis Hr : rescale p ss = Ok r.
  Hypothesis HF : nt_finite p (mu_arr p lg).
  Hypothesis Hang : NT_angle_ok p lg = true.
  Let a := assemble_args p lg r ss.
  Local Notation N := (half p).
  Local Notation NL := (nlayers p).
  Local Notation mu0 := (p_mu0 p).
  Local Notation nu q := (nth q (mu_arr p lg) 0).

  Lemma nt_I0 : 0 < p_I0 p. Proof. apply HF. Qed.
  Lemma nt_ne i : (i < N)%nat -> quad_mu p lg i <> mu0.
  Proof.
    intros Hi E. unfold NT_angle_ok in Hang. assert (ENT : p_NT p = true) by apply HF. rewrite ENT in Hang. cbn [andb] in Hang. apply negb_true_iff in Hang.
    assert (H : existsb (fun i => Rltb (Rabs (quad_mu p lg i - mu0)) (1 / 100000000)) (seq 0 (pN p)) = true); [|congruence].
    apply existsb_exists. exists i. split; [apply in_seq; change (pN p) with N; lia|]. apply Rltb_iff. rewrite E. unfold Rminus. rewrite Rplus_opp_r, Rabs_R0. lra.
  Qed.
  Lemma nu_low i : (i < N)%nat -> nu i = quad_mu p lg i.
  Proof. intros Hi. rewrite (mu_arr_node p lg i ltac:(lia)). unfold node. rewrite (proj2 (Nat.ltb_lt _ _)) by auto. reflexivity. Qed.
  Lemma nu_high i : (i < N)%nat -> nu (N + i)%nat = - quad_mu p lg i.
  Proof. intros Hi. rewrite (mu_arr_node p lg (N + i) ltac:(lia)). unfold node. rewrite (proj2 (Nat.ltb_ge _ _)) by lia. f_equal. f_equal. lia. Qed.
  Lemma r_I0_4pi x : r * (a_I0_div_4pi a * x) = p_I0 p / (4 * PI) * x.
  Proof.
    cbn [a a_I0_div_4pi assemble_args]. pose proof PI_RGT_0. rewrite <- Rmult_assoc. f_equal.
    replace (r * (p_I0 p / divisor r / (4 * PI))) with (r * (p_I0 p / divisor r) / (4 * PI)) by (unfold Rdiv; ring).
    rewrite (unscale r (p_I0 p)); [reflexivity|]. apply (r_I0 p V ss r Hr).
  Qed.

  (** The averages. *)
  Lemma bot_pos l : (l < NL)%nat -> 0 < bot_of p l. Proof. apply (v_tau p V). Qed.
  Lemma sum2_pos : 0 < rsum NL (fun l => fwd p l * albedo p l * bot_of p l).
  Proof.
    destruct HF as (_ & (l & Hl & H) & _).
    assert (A : forall i, (i < NL)%nat -> 0 <= fwd p i * albedo p i * bot_of p i).
    { intros i Hi. pose proof (fwd_range p V i). pose proof (albedo_range p V i Hi). pose proof (bot_pos i Hi). apply Rmult_le_pos; [apply Rmult_le_pos|]; lra. }
    destruct (rsum_nonneg _ _ A) as [H0|H0]; [exact H0|]. exfalso.
    pose proof (rsum_zero_nonneg _ _ A (eq_sym H0) l Hl) as E. pose proof (bot_pos l Hl). nra.
  Qed.
  Lemma sum1_pos : 0 < rsum NL (fun l => albedo p l * bot_of p l).
  Proof.
    eapply Rlt_le_trans; [exact sum2_pos|]. apply rsum_le. intros i Hi. pose proof (fwd_range p V i). pose proof (albedo_range p V i Hi). pose proof (bot_pos i Hi).
    assert (fwd p i * albedo p i <= albedo p i) by nra. apply Rmult_le_compat_r; lra.
  Qed.
  Lemma sum0_pos : 0 < rsum NL (fun l => bot_of p l).
  Proof. apply rsum_pos; [apply (v_ne p V)|apply bot_pos]. Qed.
  Lemma avg_range : 0 < wavg p * favg p < 1.
  Proof.
    pose proof sum2_pos as H2. pose proof sum1_pos as H1. pose proof sum0_pos as H0.
    assert (E : wavg p * favg p = rsum NL (fun l => fwd p l * albedo p l * bot_of p l) / rsum NL (fun l => bot_of p l)) by (unfold wavg, favg; field; lra).
    rewrite E. split; [apply Rdiv_lt_0_compat; auto|]. apply Rmult_lt_reg_r with (rsum NL (fun l => bot_of p l)); [auto|]. unfold Rdiv. rewrite Rmult_assoc, Rinv_l, Rmult_1_r, Rmult_1_l by lra.
    assert (0 < rsum NL (fun l => bot_of p l - fwd p l * albedo p l * bot_of p l)); [|rewrite (rsum_minus NL (fun l => bot_of p l) (fun l => fwd p l * albedo p l * bot_of p l)) in H; lra].
    apply rsum_pos; [apply (v_ne p V)|]. intros i Hi. pose proof (fwd_range p V i). pose proof (albedo_range p V i Hi). pose proof (bot_pos i Hi).
    assert (fwd p i * albedo p i <= 1 * albedo p i) by (apply Rmult_le_compat_r; lra). replace (bot_of p i - fwd p i * albedo p i * bot_of p i) with (bot_of p i * (1 - fwd p i * albedo p i)) by ring. apply Rmult_lt_0_compat; lra.
  Qed.
  Lemma mu0_s_pos : 0 < mu0_s p.
  Proof. pose proof avg_range. pose proof (mu0_pos p V nt_I0). unfold mu0_s. apply Rdiv_lt_0_compat; lra. Qed.
  Lemma gavg_eq k : Leg_residue_avg p k = gavg p k.
  Proof.
    unfold Leg_residue_avg, gavg. f_equal. apply rsum_ext. intros l Hl. unfold Leg_residue. change (pNLeg p) with (ncoeffs p).
    change (omega_at p l) with (albedo p l). change (tau_at p l) with (bot_of p l). destruct (Nat.ltb k (ncoeffs p)); [reflexivity|].
    f_equal. rewrite !(Rmult_comm _ (albedo p l)). apply (leg0 p l k Hl).
  Qed.
  Lemma x_nonzero i : (i < N)%nat -> 1 / quad_mu p lg i - 1 / mu0_s p <> 0.
  Proof.
    intros Hi. apply (x_ne (quad_mu p lg i) (mu0_s p)); [apply (mu_pos p lg Hlg i Hi)|apply mu0_s_pos|].
    rewrite <- (nu_low i Hi). apply HF; auto.
  Qed.

  (** The coefficient of a layer after multiplication by the rescaling factor. *)
  Definition Bc (l q : nat) (phi : R) : R := missing p l (nu q) phi * (mu0 / (mu0 + nu q)).
  Lemma B_eq nut l q h c phi : (l < NL)%nat -> elt nut [q; h] = scat_cos p c phi -> c = nu q -> r * mathscr_B p lg a nut l q h = Bc l q phi.
  Proof.
    intros Hl E ->. unfold mathscr_B, Bc, missing, p_exact, p_trunc. rewrite E. change (all_mu p lg q) with (nu q). set (c := scat_cos p (nu q) phi).
    rewrite (scaled_omega_eq p V l Hl). unfold legendre_series. change (NLeg_all p) with (ncol (p_Leg p)). change (pNLeg p) with (ncoeffs p). change (f_at p l) with (fwd p l).
    set (k := mu0 / (mu0 + nu q)).
    assert (E1 : albedo_s p l * rsum (ncol (p_Leg p)) (fun k => weighted_Leg_all p l k * legendre k c) = albedo_s p l * rsum (ncol (p_Leg p)) (fun k => (2 * INR k + 1) * phase p l k * legendre k c)).
    { rewrite <- !rsum_scal. apply rsum_ext. intros j Hj. unfold weighted_Leg_all, albedo_s. pose proof (leg0 p l j Hl) as H. unfold Rdiv. 
      transitivity ((1 - fwd p l) * / scl p l * (2 * INR j + 1) * legendre j c * (albedo p l * Leg_all p l j)); [ring|]. rewrite H. ring. }
    assert (E2 : albedo_s p l * rsum (ncoeffs p) (fun k => weighted_scaled_Leg p l k * legendre k c) = albedo_s p l * rsum (ncoeffs p) (fun k => wphase_s p l k * legendre k c)).
    { rewrite <- !rsum_scal. apply rsum_ext. intros j Hj. rewrite <- !Rmult_assoc. rewrite (wleg_eq p V l j Hl). reflexivity. }
    set (X := rsum (ncol (p_Leg p)) (fun k => weighted_Leg_all p l k * legendre k c)) in *. set (X' := rsum (ncol (p_Leg p)) _) in E1 |- *.
    set (Y := rsum (ncoeffs p) (fun k => weighted_scaled_Leg p l k * legendre k c)) in *. set (Y' := rsum (ncoeffs p) _) in E2 |- *.
    transitivity (r * (a_I0_div_4pi a * (k * (albedo_s p l * X / (1 - fwd p l) - albedo_s p l * Y)))); [unfold Rdiv; ring|].
    rewrite r_I0_4pi, E1, E2. unfold Rdiv. ring.
  Qed.

  Lemma layers_lt' tau t : depths_ok p tau -> In t tau -> (lay p t < NL)%nat.
  Proof. intros Ht Hin. apply (lay_at p V t), Ht, Hin. Qed.

  (** TMS. *)
  Lemma layers_lay tau : depths_ok p tau -> layers a tau = map (lay p) tau.
  Proof. intros Ht. unfold layers. apply map_ext_in. intros t Hin. apply (layer_of_lay p V lg r ss Hlg). apply Ht; auto. Qed.
  Lemma TMS_val0 tau phi anti : tau <> [] -> depths_ok p tau -> (forall t, In t tau -> fwd p (lay p t) <> 1) -> exists f, TMS_correction p lg a tau phi anti (layers a tau) = Ok (mkT [(2 * N)%nat; length tau; length phi] f) /\
    forall q j h, (q < 2 * N)%nat -> (j < length tau)%nat -> (h < length phi)%nat ->
      r * f [q; j; h] = Bc (lay p (nth j tau 0)) q (nth h phi 0) * psi p lg anti q (nth j tau 0) (lay p (nth j tau 0)).
  Proof.
    intros Hne Ht Hf. rewrite (layers_lay tau Ht). unfold TMS_correction. set (ls := map (lay p) tau).
    destruct ls as [|l0 ls'] eqn:El; [unfold ls in El; destruct tau; [congruence|discriminate]|]. rewrite <- El.
    assert (EX : existsb (fun l => Reqb (1 - f_at p l) 0) ls = false).
    { apply not_true_is_false. intros H. apply existsb_exists in H as (l & Hl & H). apply Reqb_iff in H. apply in_map_iff in Hl as (t & <- & Hin).
      apply (Hf t Hin). change (f_at p (lay p t)) with (fwd p (lay p t)) in H. lra. }
    rewrite EX. set (nut := atleast_2d_append _).
    assert (Lm : length (mu_arr p lg) = (2 * N)%nat) by apply (mu_arr_len p lg).
    assert (HN1 : (1 <= N)%nat) by apply (half_pos p V).
    assert (HS : shp nut = [(2 * N)%nat; length phi]).
    { unfold nut. rewrite nu_shape by lia. rewrite Lm. reflexivity. }
    rewrite HS. change (pN p) with N. rewrite Nat.eqb_refl. eexists. split; [reflexivity|]. intros q j h Hq Hj Hh. cbn [nth].
    assert (Hin : In (nth j tau 0) tau) by (apply nth_In; auto). set (t := nth j tau 0) in *.
    assert (En : nth j ls 0%nat = lay p t) by (unfold ls; apply (nth_map_d (lay p) tau j 0 0%nat); auto).
    rewrite En. pose proof (layers_lt' tau t Ht Hin) as Hl.
    rewrite (other_eq p V lg anti ls q t (lay p t)); [|unfold ls; apply in_map; auto|auto].
    fold (psi p lg anti q t (lay p t)). rewrite <- Rmult_assoc. f_equal.
    apply (B_eq nut (lay p t) q h (nu q)); auto.
    destruct (nu_elt (mu_arr p lg) phi (- mu0) (p_phi0 p) q h) as [_ E]; [left; lia|lia|auto|]. exact E.
  Qed.
  Lemma TMS_val tau phi anti : nt_args p tau phi -> exists f, TMS_correction p lg a tau phi anti (layers a tau) = Ok (mkT [(2 * N)%nat; length tau; length phi] f) /\
    forall q j h, (q < 2 * N)%nat -> (j < length tau)%nat -> (h < length phi)%nat ->
      r * f [q; j; h] = Bc (lay p (nth j tau 0)) q (nth h phi 0) * psi p lg anti q (nth j tau 0) (lay p (nth j tau 0)).
  Proof. intros (Hne & Ht & Hf & HN). apply TMS_val0; auto. Qed.

  (** IMS. *)
  Lemma IMS_ok1 tau phi anti : N = 1%nat -> exists W, IMS_correction p lg a tau phi anti = Ok W.
  Proof.
    intros HN. unfold IMS_correction. set (nut := atleast_2d_append _).
    assert (E1 : Reqb (sum2 p) 0 = false). { apply not_true_is_false. intros H. apply Reqb_iff in H. pose proof sum2_pos as H1. unfold sum2 in H. change (pNL p) with NL in H. unfold omega_at, f_at, tau_at in H. unfold fwd, albedo, bot_of in H1. lra. }
    assert (E2 : existsb (fun i => Reqb (1 / quad_mu p lg i - 1 / scaled_mu0 p) 0) (seq 0 (pN p)) = false).
    { apply not_true_is_false. intros H. apply existsb_exists in H as (i & Hi & H). apply in_seq in Hi. apply Reqb_iff in H. apply (x_nonzero i); [exact (proj2 Hi)|exact H]. }
    rewrite E1, E2. cbn [orb]. unfold nut. change (pN p) with N. rewrite HN. cbn [seq map]. rewrite nu_shape1.
    unfold tmul, bcast2. cbn. unfold padl. cbn. rewrite bdim_1_l, bdim_1_r. eauto.
  Qed.
  Lemma IMS_val tau phi anti : (2 <= N)%nat \/ length phi = 1%nat -> exists W, IMS_correction p lg a tau phi anti = Ok W /\
    shp W = [N; length tau; length phi] /\
    forall n j h, (n < N)%nat -> (j < length tau)%nat -> (h < length phi)%nat ->
      r * elt W [n; j; h] = ims_factor p (nu (N + n)%nat) (nth h phi 0) * chi p lg anti n (nth j tau 0).
  Proof.
    intros HN. unfold IMS_correction. set (nut := atleast_2d_append _).
    assert (E1 : Reqb (sum2 p) 0 = false). { apply not_true_is_false. intros H. apply Reqb_iff in H. pose proof sum2_pos as H1. unfold sum2 in H. change (pNL p) with NL in H. unfold omega_at, f_at, tau_at in H. unfold fwd, albedo, bot_of in H1. lra. }
    assert (E2 : existsb (fun i => Reqb (1 / quad_mu p lg i - 1 / scaled_mu0 p) 0) (seq 0 (pN p)) = false).
    { apply not_true_is_false. intros H. apply existsb_exists in H as (i & Hi & H). apply in_seq in Hi. apply Reqb_iff in H. apply (x_nonzero i); [exact (proj2 Hi)|exact H]. }
    rewrite E1, E2. cbn [orb]. set (mus := map (fun i => - quad_mu p lg i) (seq 0 (pN p))) in nut.
    assert (Lm : length mus = N) by (unfold mus; rewrite map_length, seq_length; reflexivity).
    assert (HN1 : (1 <= N)%nat) by apply (half_pos p V).
    assert (HS : shp nut = [N; length phi]).
    { unfold nut. destruct (Nat.eq_dec N 1) as [E|E].
      - assert (E0 : length phi = 1%nat) by lia. destruct mus as [|x [|]] eqn:Em; cbn in Lm; try lia. rewrite nu_shape1, E0, E. reflexivity.
      - rewrite nu_shape by lia. rewrite Lm. reflexivity. }
    rewrite HS.
    set (L := mkT [N; 1%nat; length phi] _). set (C := mkT [pN p; length tau; 1%nat] _).
    destruct (bcast2_3 Rmult L C N 1 (length phi) N (length tau) 1 N (length tau) (length phi)) as (W & HW & SW & EW); try reflexivity; [apply bc_same|apply bc_1l|apply bc_1r|].
    exists W. split; [exact HW|]. split; [exact SW|]. intros n j h Hn Hj Hh. rewrite EW by auto.
    replace (bi N n) with n by (unfold bi; destruct (Nat.eqb_spec N 1); lia).
    replace (bi (length phi) h) with h by (unfold bi; destruct (Nat.eqb_spec (length phi) 1); lia).
    replace (bi (length tau) j) with j by (unfold bi; destruct (Nat.eqb_spec (length tau) 1); lia).
    unfold L, C. cbn [elt nth]. rewrite <- Rmult_assoc. f_equal.
    assert (Enu : elt nut [n; h] = scat_cos p (nu (N + n)%nat) (nth h phi 0)).
    { unfold nut. destruct (nu_elt mus phi (- mu0) (p_phi0 p) n h) as [_ ->]; [rewrite Lm; exact HN|lia|auto|].
      unfold scat_cos. rewrite (nu_high n Hn). unfold mus. rewrite (nth_seq0_map (fun i => - quad_mu p lg i)) by auto. reflexivity. }
    rewrite Enu. unfold ims_factor. unfold legendre_series.
    change (omega_avg p * f_avg p) with (wavg p * favg p). unfold Rdiv at 1 2.
    transitivity (r * (a_I0_div_4pi a * ((wavg p * favg p) ^ 2 * / (1 - wavg p * favg p) * rsum (NLeg_all p) (fun k => (2 * INR k + 1) * (2 * Leg_residue_avg p k - Leg_residue_avg p k ^ 2) * legendre k (scat_cos p (nu (N + n)%nat) (nth h phi 0)))))); [ring|].
    rewrite r_I0_4pi. change (NLeg_all p) with (ncol (p_Leg p)). unfold Rdiv. rewrite !Rmult_assoc. do 4 f_equal.
    apply rsum_ext. intros k Hk. rewrite gavg_eq. ring.
  Qed.

  (** Both together. *)
  Definition corr (anti : bool) (i : nat) (t phi : R) : R :=
    Bc (lay p t) i phi * psi p lg anti i t (lay p t)
    + (if Nat.ltb i N then 0 else ims_factor p (nu i) phi * chi p lg anti (i - N) t).
  Lemma NT_val tau phi anti : nt_args p tau phi -> exists C, NT_corrections p lg a tau phi anti (layers a tau) = Ok C /\
    shp C = [(2 * N)%nat; length tau; length phi] /\
    forall q j h, (q < 2 * N)%nat -> (j < length tau)%nat -> (h < length phi)%nat -> r * elt C [q; j; h] = corr anti q (nth j tau 0) (nth h phi 0).
  Proof.
    intros HA. destruct (TMS_val tau phi anti HA) as (f & HT & Ef). destruct HA as (Hne & Ht & Hf & HN).
    destruct (IMS_val tau phi anti HN) as (W & HW & SW & EW). unfold NT_corrections. rewrite HT, HW. cbn [bind]. change (pN p) with N.
    assert (HN1 : (1 <= N)%nat) by apply (half_pos p V).
    pose proof (add_rows N (length tau) (length phi) f W HN1 SW) as HR.
    assert (X : exists C, (let! s := iop Rplus (tslice 0 N N (mkT [(2 * N)%nat; length tau; length phi] f)) W in
        Ok (mkT [(2 * N)%nat; length tau; length phi] (fun idx => match idx with
              | q :: idx' => if Nat.ltb q N then f idx else elt s ((q - N)%nat :: idx')
              | [] => f idx
              end))) = Ok C /\ shp C = [(2 * N)%nat; length tau; length phi] /\
        forall q j h, (q < 2 * N)%nat -> (j < length tau)%nat -> (h < length phi)%nat -> r * elt C [q; j; h] = corr anti q (nth j tau 0) (nth h phi 0)).
    { unfold iop. destruct (bcast2_same Rplus (tslice 0 N N (mkT [(2 * N)%nat; length tau; length phi] f)) W) as (D & HD & SD & ED); [rewrite SW; reflexivity|].
      rewrite HD. cbn [bind]. rewrite SD, list_eqb_refl. cbn [bind]. eexists. split; [reflexivity|]. split; [reflexivity|]. intros q j h Hq Hj Hh. cbn [elt].
      unfold corr. destruct (Nat.ltb_spec q N) as [H|H].
      - rewrite Rplus_0_r. apply Ef; auto.
      - rewrite ED by (cbn; repeat split; auto; lia). cbn [elt tslice nth firstn skipn app]. rewrite Rmult_plus_distr_l. replace (N + (q - N))%nat with q by lia. 
        rewrite Ef by auto. f_equal. rewrite EW by (auto; lia). replace (N + (q - N))%nat with q by lia. reflexivity. }
    destruct X as (C & HC & SC & EC). destruct (p_autograd p).
    - rewrite HC in HR. destruct (let! s := tadd _ W in _) as [D|e] eqn:ED; cbn [rteq] in HR; [|tauto]. exists D. destruct HR as [S1 E1]. 
      assert (SD : shp D = [(2 * N)%nat; length tau; length phi]) by congruence.
      split; [reflexivity|]. split; [exact SD|]. intros q j h Hq Hj Hh. rewrite E1; [apply EC; auto|]. rewrite SD. cbn [inb]. repeat split; auto.
    - exists C. split; [exact HC|]. auto.
  Qed.

  Lemma uc_val sv W tau phi anti C : nt_args p tau phi -> um_all a sv anti tau = Ok C -> shp C = [a_NFourier a; (2 * a_N a)%nat; length tau] ->
    (forall m q j, (m < a_NFourier a)%nat -> (q < 2 * a_N a)%nat -> (j < length tau)%nat -> elt C [m; q; j] = W m q (nth j tau 0)) ->
    exists A, u_corrected p lg a (cl_u a sv) tau phi anti false false = Ok (PVal (PT A)) /\
      squeezed A [streams p; length tau; length phi] (fun idx =>
        let i := nth 0 idx 0%nat in let t := nth (nth 1 idx 0%nat) tau 0 in let ph := nth (nth 2 idx 0%nat) phi 0 in
        rsum (nmodes p) (fun m => r * W m i t * cos (INR m * (p_phi0 p - ph))) + corr anti i t ph).
  Proof.
    intros HA HC SC EC. pose proof HA as (_ & Ht & _). unfold u_corrected, cl_u, tau_check. rewrite (range_ok p lg ss r) by auto. cbn [check bind]. rewrite HC. cbn [bind orb].
    cbn [ret app]. change (a_iso a) with (has_iso p).
    assert (Hk : forall x y : list pv, (length (PI_ (layers a tau) :: (if has_iso p then [PI_ (uniq (a_NLayers a) (layers a tau)); PI_ (uniq_inv (a_NLayers a) (layers a tau))] else [])) - (if has_iso p then 3 else 1))%nat = 0%nat) by (intros; destruct (has_iso p); reflexivity).
    rewrite (Hk [] []). cbn [nth]. destruct (NT_val tau phi anti HA) as (D & HD & SD & ED). rewrite HD. cbn [bind firstn].
    assert (SU : squeezed (tscal (a_rescale a) (tsqueeze (u_full a C phi))) [streams p; length tau; length phi] (fun idx => r * elt (u_full a C phi) idx)).
    { apply squeezed_scal; [unfold u_full; cbn [shp]; rewrite SC, (streams_eq p V); reflexivity|]. reflexivity. }
    assert (SV : squeezed (tscal (a_rescale a) (tsqueeze D)) [streams p; length tau; length phi] (fun idx => r * elt D idx)).
    { apply squeezed_scal; [rewrite SD, (streams_eq p V); reflexivity|]. reflexivity. }
    destruct (squeezed_add _ _ _ _ _ SU SV) as (A & EA & SA). rewrite EA. cbn [bind orb ret]. exists A. split; [reflexivity|].
    apply (squeezed_ext _ _ _ _ SA). intros idx Hi. apply inb_3 in Hi as (i & j & h & -> & Hi & Hj & Hh). rewrite (streams_eq p V) in Hi. cbn [nth]. cbv zeta.
    rewrite ED by auto. f_equal. unfold u_full. cbn [elt nth]. rewrite <- rsum_scal. rewrite nmodes_eq. apply rsum_ext. intros m Hm. rewrite EC by auto. unfold azimuth. change (a_phi0 a) with (p_phi0 p). ring.
  Qed.
End Values.
