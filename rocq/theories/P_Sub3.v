(** Lemmas closing the properties of subroutines.py. *)
From Coq Require Import String Reals Lra Lia List Bool Arith ZArith.
From Coquelicot Require Import Coquelicot.
From Verif Require Import Base Tensor Spec Calc M_Subroutines P_Quad P_Sub P_Sub2.
Import ListNotations.
Local Open Scope R_scope.

Lemma prepend_all arr n v :
  (length arr = n -> prepend arr n v = Ok (v :: arr)) /\
  (length arr <> n -> length arr = 1%nat -> prepend arr n v = Ok (v :: repeat (nth 0 arr 0) n)) /\
  (length arr <> n -> length arr <> 1%nat -> prepend arr n v = Err EShape).
Proof.
  unfold prepend. repeat split; intros.
  - subst. rewrite Nat.eqb_refl. auto.
  - rewrite (proj2 (Nat.eqb_neq _ _)), (proj2 (Nat.eqb_eq _ _)); auto.
  - rewrite !(proj2 (Nat.eqb_neq _ _)); auto.
Qed.

Lemma transform_all xs ws a b c d k :
  a < b -> c < d ->
  transform_interval [a; b] c d a b = [c; d] /\
  (increasing xs -> increasing (transform_interval xs c d a b)) /\
  (exact_rule xs ws a b k -> exact_rule (transform_interval xs c d a b) (transform_weights ws c d a b) c d k).
Proof.
  intros Hab Hcd. split; [|split].
  - simpl. repeat f_equal; field; lra.
  - intros H i j Hij. rewrite transform_interval_length in Hij.
    rewrite !transform_interval_nth by lia.
    specialize (H i j Hij).
    assert (P : 0 < (d - c) / (b - a)) by (apply Rdiv_lt_0_compat; lra).
    replace ((nth i xs 0 - a) * (d - c) / (b - a)) with ((nth i xs 0 - a) * ((d - c) / (b - a))) by (field; lra).
    replace ((nth j xs 0 - a) * (d - c) / (b - a)) with ((nth j xs 0 - a) * ((d - c) / (b - a))) by (field; lra).
    nra.
  - apply transform_exact. lra.
Qed.

Lemma GL_all lg N c d : (0 < N)%nat -> c < d -> leggauss_ok N (lg N) ->
  let xs := fst (Gauss_Legendre_quad lg N c d) in
  let ws := snd (Gauss_Legendre_quad lg N c d) in
  length xs = N /\ length ws = N /\
  (forall i, (i < N)%nat -> c < nth i xs 0 < d /\ 0 < nth i ws 0) /\
  distinct xs /\ lsum ws = d - c /\ exact_rule xs ws c d (2 * N).
Proof.
  intros HN Hcd H xs ws. pose proof (GL_lengths lg N c d H) as [L1 L2].
  repeat split; auto.
  - apply (GL_inside lg N c d i); auto.
  - apply (GL_inside lg N c d i); auto.
  - apply (GL_inside lg N c d i); auto.
  - intros i j Hi Hj Hne. unfold xs in *. rewrite L1 in Hi, Hj. apply GL_distinct; auto.
  - apply GL_weights_sum; auto.
  - apply GL_exact; auto.
  - apply GL_exact; auto.
Qed.

Lemma CC_all Nphi c d : c < d ->
  (~ (2 < Nphi /\ Nphi mod 2 = 1)%Z -> exists msg, Clenshaw_Curtis_quad Nphi c d = Err (EValue msg)) /\
  ((2 < Nphi /\ Nphi mod 2 = 1)%Z ->
   exists xs ws, Clenshaw_Curtis_quad Nphi c d = Ok (xs, ws) /\
     Z.of_nat (length xs) = Nphi /\ length ws = length xs /\
     nth 0 xs 0 = c /\ nth (length xs - 1) xs 0 = d /\ increasing xs /\
     (forall k, (k < length ws)%nat -> nth k ws 0 = nth (length ws - 1 - k) ws 0) /\
     exact_rule xs ws c d (length xs)).
Proof.
  intros Hcd. split; [apply Clenshaw_Curtis_err|].
  intros [H1 H2].
  set (M := Z.to_nat ((Nphi - 1) / 2)).
  pose proof (Z.div_mod Nphi 2 ltac:(lia)) as Hd.
  assert (Hdiv : ((Nphi - 1) / 2 = Nphi / 2)%Z).
  { replace (Nphi - 1)%Z with (Nphi / 2 * 2)%Z by lia. apply Z.div_mul. lia. }
  assert (HM : (0 < M)%nat) by (unfold M; lia).
  assert (HE : Nphi = (2 * Z.of_nat M + 1)%Z) by (unfold M; lia).
  rewrite (Clenshaw_Curtis_ok Nphi c d M HM HE).
  assert (Ln : length (transform_interval (cc_nodes M) c d (-1) 1) = S (2 * M))
    by (rewrite transform_interval_length, cc_nodes_length; auto).
  assert (EX : exact_rule (transform_interval (cc_nodes M) c d (-1) 1) (transform_weights (cc_weights M) c d (-1) 1) c d (S (2 * M))).
  { apply transform_exact; [lra|]. split.
    - rewrite cc_nodes_length, cc_weights_length; auto.
    - intros p Hp. apply cc_exact; auto. }
  eexists. eexists. split; [reflexivity|].
  rewrite Ln. split; [lia|].
  assert (Lw : length (transform_weights (cc_weights M) c d (-1) 1) = S (2 * M)) by (destruct EX as [E _]; congruence).
  pose proof (cc_nodes_ends M c d HM) as [E0 E1].
  repeat split; auto.
  - replace (S (2 * M) - 1)%nat with (2 * M)%nat by lia. auto.
  - apply cc_nodes_increasing; auto.
  - intros k Hk. rewrite Lw in *. rewrite transform_weights_length in Lw.
    rewrite !transform_weights_nth by lia. do 2 f_equal.
    rewrite cc_weights_sym by (auto; lia). f_equal. lia.
  - destruct EX; auto.
  - destruct EX; auto.
Qed.

(** ** Scattering angle *)
Lemma unsq_filter (s idx : list nat) : inb s idx ->
  unsq s (map snd (filter (fun p => negb (Nat.eqb (fst p) 1)) (combine s idx))) = idx.
Proof.
  revert idx; induction s as [|n s IH]; intros [|i idx] H; simpl in *; try tauto.
  destruct H as [H1 H2]. destruct (Nat.eqb_spec n 1) as [->|Hn]; simpl.
  - f_equal; [lia|]. apply IH; auto.
  - f_equal. apply IH; auto.
Qed.

Lemma nu_all mu phi mu_p phi_p i j k l :
  (i < length mu)%nat -> (j < length phi)%nat -> (k < length mu_p)%nat -> (l < length phi_p)%nat ->
  let s := [length mu; length phi; length mu_p; length phi_p] in
  let nu := calculate_nu mu phi mu_p phi_p in
  shp nu = filter (fun n => negb (Nat.eqb n 1)) s /\
  elt nu (map snd (filter (fun p => negb (Nat.eqb (fst p) 1)) (combine s [i; j; k; l])))
   = dot3 (unit_vec (nth i mu 0) (nth j phi 0)) (unit_vec (nth k mu_p 0) (nth l phi_p 0)).
Proof.
  intros Hi Hj Hk Hl s nu. split; [reflexivity|].
  unfold nu, calculate_nu. cbn [tsqueeze elt].
  change (shp (calculate_nu_4d mu phi mu_p phi_p)) with s.
  rewrite unsq_filter by (simpl; auto).
  cbn [calculate_nu_4d elt nth]. apply nu_is_dot.
Qed.

Lemma nu_range m f mp fp : -1 <= m <= 1 -> -1 <= mp <= 1 ->
  -1 <= dot3 (unit_vec m f) (unit_vec mp fp) <= 1 /\
  dot3 (unit_vec m f) (unit_vec m f) = 1 /\
  dot3 (unit_vec m f) (unit_vec (- m) (f + PI)) = -1 /\
  dot3 (unit_vec m f) (unit_vec mp fp) = dot3 (unit_vec mp fp) (unit_vec m f).
Proof.
  intros Hm Hp. repeat split.
  - apply dot3_cs; apply unit_vec_norm; auto.
  - apply dot3_cs; apply unit_vec_norm; auto.
  - apply unit_vec_norm; auto.
  - pose proof (unit_vec_norm m f Hm) as E. unfold dot3, unit_vec in *.
    rewrite neg_cos, neg_sin. replace ((- m) ^ 2) with (m ^ 2) by ring. lra.
  - unfold dot3, unit_vec. ring.
Qed.

(** ** Planck, thermal source *)
Lemma planck_spec_eq T w : 0 <= T -> 0 < w -> planck1 T w = planck_spec T w.
Proof.
  intros HT Hw. unfold planck_spec. destruct (Req_EM_T T 0) as [->|Hn].
  - apply planck1_zero.
  - rewrite planck1_law by lra. reflexivity.
Qed.

Lemma Planck_all T w : 0 < w -> (forall t, In t T -> 0 <= t) ->
  Planck T w = Ok (map (fun t => planck_spec t w) T).
Proof.
  intros Hw HT. rewrite Planck_ok by auto. f_equal. apply map_ext_in. intros t Ht. apply planck_spec_eq; auto.
Qed.
Lemma planck_spec_props w : 0 < w -> planck_spec 0 w = 0 /\
  (forall T, 0 < T -> 0 < planck_spec T w) /\
  (forall T1 T2, 0 <= T1 < T2 -> planck_spec T1 w < planck_spec T2 w).
Proof.
  intros Hw. repeat split.
  - rewrite <- planck_spec_eq by lra. apply planck1_zero.
  - intros. rewrite <- planck_spec_eq by lra. apply planck1_pos; auto.
  - intros. rewrite <- !planck_spec_eq by lra. apply planck1_increasing; auto.
Qed.

Lemma planck_spec_bound T w : 0 < T -> 0 < w ->
  0 <= planck_spec T w <= 2000000 * SI_c * SI_k * T * w ^ 2.
Proof.
  intros HT Hw. split.
  - left. apply planck_spec_props; auto.
  - unfold planck_spec. destruct (Req_EM_T T 0); [lra|].
    destruct const_pos as (h & c & k). change const_h with SI_h in h. change const_c with SI_c in c. change const_k with SI_k in k.
    set (a := 100 * SI_h * SI_c * w / (SI_k * T)).
    assert (Ha : 0 < a) by (unfold a; apply Rdiv_lt_0_compat; repeat apply Rmult_lt_0_compat; lra).
    assert (He : a <= exp a - 1) by (pose proof (exp_ineq1 a ltac:(lra)); lra).
    apply Rle_trans with (200000000 * SI_h * SI_c ^ 2 * w ^ 3 / a).
    + apply Rmult_le_compat_l.
      * repeat apply Rmult_le_pos; try apply pow_le; lra.
      * apply Rinv_le_contravar; lra.
    + right. unfold a. field. repeat split; lra.
Qed.

Lemma planck_continuous T w : 0 < T -> 0 < w -> continuous (planck_spec T) w.
Proof.
  intros HT Hw. unfold planck_spec. destruct (Req_EM_T T 0); [lra|].
  destruct const_pos as (h & c & k). change const_h with SI_h in h. change const_c with SI_c in c. change const_k with SI_k in k.
  apply (ex_derive_continuous (K:=R_AbsRing) (V:=R_NormedModule)).
  auto_derive. repeat split; auto.
  - assert (E : 1 < exp (100 * SI_h * SI_c * w / (SI_k * T))).
    { rewrite <- exp_0. apply exp_increasing. apply Rdiv_lt_0_compat; repeat apply Rmult_lt_0_compat; lra. }
    replace (100 * SI_h * SI_c * w * / (SI_k * T)) with (100 * SI_h * SI_c * w / (SI_k * T)) by reflexivity. lra.
Qed.

Lemma planck_integrable T lo hi : 0 <= T -> 0 <= lo <= hi -> ex_RInt (planck1 T) lo hi.
Proof.
  intros HT Hl. 
  destruct (Req_dec T 0) as [->|Hn].
  { apply (ex_RInt_ext (V:=R_NormedModule) (fun _ => 0)); [intros; rewrite planck1_zero; auto|].
    apply (ex_RInt_const (V:=R_NormedModule)). }
  set (g := fun w => if Rle_dec w 0 then 0 else planck_spec T w).
  apply (ex_RInt_ext (V:=R_NormedModule) g).
  { intros x Hx. rewrite Rmin_left, Rmax_right in Hx by lra. unfold g.
    destruct (Rle_dec x 0); [lra|]. rewrite planck_spec_eq by lra. auto. }
  apply (ex_RInt_continuous (V:=R_CompleteNormedModule)).
  intros z Hz. rewrite Rmin_left, Rmax_right in Hz by lra.
  destruct (Req_dec z 0) as [->|Hz0].
  - apply continuity_pt_filterlim. intros eps He.
    set (C := 2000000 * SI_c * SI_k * T).
    assert (HC : 0 < C).
    { unfold C. destruct const_pos as (h & c & k). change const_c with SI_c in c. change const_k with SI_k in k.
      repeat apply Rmult_lt_0_compat; lra. }
    exists (Rmin 1 (eps / C)). split; [apply Rmin_pos; [lra|apply Rdiv_lt_0_compat; lra]|].
    intros x [[_ _] Hx]. simpl in *. unfold R_dist in *. unfold g at 2. destruct (Rle_dec 0 0); [|lra].
    rewrite Rminus_0_r in *. unfold g. destruct (Rle_dec x 0).
    + rewrite Rabs_R0; lra.
    + pose proof (planck_spec_bound T x ltac:(lra) ltac:(lra)) as [B1 B2]. fold C in B2.
      rewrite Rabs_pos_eq by auto. rewrite Rabs_pos_eq in Hx by lra.
      pose proof (Rmin_l 1 (eps / C)); pose proof (Rmin_r 1 (eps / C)).
      assert (x < eps / C) by lra.
      assert (C * x < eps).
      { apply (Rmult_lt_reg_r (/ C)); [apply Rinv_0_lt_compat; auto|].
        replace (C * x * / C) with x by (field; lra). auto. }
      assert (C * x ^ 2 <= C * x). { apply Rmult_le_compat_l; [lra|]. simpl. nra. }
      lra.
  - apply (continuous_ext_loc (U:=R_UniformSpace) g (planck_spec T) z).
    + assert (Hp : 0 < z) by lra. exists (mkposreal z Hp). intros y Hy.
      unfold ball in Hy; simpl in Hy; unfold AbsRing_ball, abs, minus, plus, opp in Hy; simpl in Hy.
      apply Rabs_lt_between in Hy. unfold g. destruct (Rle_dec y 0); [lra|auto].
    + apply planck_continuous; lra.
Qed.

Lemma quad_planck quad T lo hi : quad_ok quad -> 0 <= T -> 0 <= lo <= hi ->
  quad (fun w => planck1 T w) lo hi = RInt (planck_spec T) lo hi /\ 0 <= RInt (planck_spec T) lo hi.
Proof.
  intros Hq HT Hl.
  assert (E : RInt (planck1 T) lo hi = RInt (planck_spec T) lo hi).
  { apply (RInt_ext (V:=R_CompleteNormedModule)). intros x Hx. rewrite Rmin_left, Rmax_right in Hx by lra.
    req. apply planck_spec_eq; lra. }
  split.
  - rewrite Hq by (apply (planck_integrable T lo hi); auto). exact E.
  - rewrite <- E. apply RInt_ge_0; [lra|apply planck_integrable; auto|].
    intros x Hx. destruct (Req_dec T 0) as [->|Hn]; [rewrite planck1_zero; lra|].
    left; apply planck1_pos; lra.
Qed.

Lemma affine_nonneg r x0 x1 x : length r = 2%nat -> x0 < x1 -> 0 <= peval r x0 -> 0 <= peval r x1 ->
  x0 <= x <= x1 -> 0 <= peval r x.
Proof.
  intros L H01 H0 H1 Hx. destruct r as [|a [|b [|]]]; try discriminate. simpl in *.
  assert (0 <= (x1 - x0) * (a + x * (b + x * 0))); [|nra].
  replace ((x1 - x0) * (a + x * (b + x * 0)))
    with ((x1 - x) * (a + x0 * (b + x0 * 0)) + (x - x0) * (a + x1 * (b + x1 * 0))) by ring.
  assert (0 <= x1 - x) by lra. assert (0 <= x - x0) by lra. nra.
Qed.

Lemma increasing_cons0 l : increasing l -> (forall x, In x l -> 0 < x) -> increasing (0 :: l).
Proof.
  intros H H0 [|i] [|j] Hij; simpl in *; try lia.
  - apply H0. apply nth_In. lia.
  - apply H; lia.
Qed.

Lemma spoly_all quad tau_arr TEMPER lo hi :
  quad_ok quad -> 0 <= lo <= hi -> (0 < length tau_arr)%nat ->
  increasing tau_arr -> (forall x, In x tau_arr -> 0 < x) -> (forall t, In t TEMPER -> 0 <= t) ->
  (length TEMPER <> length tau_arr + 1)%nat /\
    (exists msg, generate_s_poly_coeffs quad tau_arr TEMPER lo hi = Err (EValue msg)) \/
  (length TEMPER = length tau_arr + 1)%nat /\
  exists rows, generate_s_poly_coeffs quad tau_arr TEMPER lo hi = Ok rows /\
    length rows = length tau_arr /\
    forall l, (l < length tau_arr)%nat ->
      let top := nth l (0 :: tau_arr) 0 in let bot := nth l tau_arr 0 in
      length (nth l rows []) = 2%nat /\
      peval (nth l rows []) top = RInt (planck_spec (nth l TEMPER 0)) lo hi /\
      peval (nth l rows []) bot = RInt (planck_spec (nth (S l) TEMPER 0)) lo hi /\
      (forall x, top <= x <= bot -> 0 <= peval (nth l rows []) x).
Proof.
  intros Hq Hlh Hlen Hinc Hpos HT. unfold generate_s_poly_coeffs, check.
  destruct (Nat.eqb_spec (length TEMPER) (length tau_arr + 1)) as [E|E]; [right|left; split; [exact E|cbn; eauto]].
  - split; auto. cbn [bind]. rewrite prepend_cons. cbn [bind].
    unfold linear_spline_coefficients. cbn [bind].
    set (y := map (fun t => quad (fun w => planck1 t w) lo hi) TEMPER).
    pose proof (increasing_cons0 tau_arr Hinc Hpos) as Hinc0.
    destruct (spline_rows_spec (0 :: tau_arr) y) as (rows & E1 & E2 & E3); auto.
    { unfold y. rewrite map_length. simpl. lia. }
    exists rows. split; auto. simpl length in E2. split; [lia|].
    intros l Hl. set (top := nth l (0 :: tau_arr) 0). set (bot := nth l tau_arr 0). destruct (E3 l) as (A1 & A2 & A3); [simpl; lia|].
    assert (Hy : forall k, (k < length TEMPER)%nat -> nth k y 0 = RInt (planck_spec (nth k TEMPER 0)) lo hi
                 /\ 0 <= RInt (planck_spec (nth k TEMPER 0)) lo hi).
    { intros k Hk. unfold y. rewrite (nth_map_d _ _ _ 0) by auto.
      apply quad_planck; auto. apply HT. apply nth_In; auto. }
    destruct (Hy l) as [B1 B2]; [lia|]. destruct (Hy (S l)) as [C1 C2]; [lia|].
    cbn [nth] in A3. fold bot in A3. fold top in A2. rewrite B1 in A2. rewrite C1 in A3.
    repeat split; auto. intros x Hx. apply (affine_nonneg _ top bot); auto; try lra.
    unfold top, bot. apply (Hinc0 l (S l)). simpl; lia.
Qed.

(** ** Emissivity *)
Lemma emissivity_all lg N (rho : R -> R -> R) :
  (0 < N)%nat -> leggauss_ok N (lg N) ->
  let mu := fst (Gauss_Legendre_quad lg N 0 1) in
  let W := snd (Gauss_Legendre_quad lg N 0 1) in
  exists e, generate_emissivity_from_BDRF lg N (pointwise_mode rho) = Ok e /\ shp e = [N] /\
    forall i, (i < N)%nat ->
      elt e [i] = 1 - 2 * rsum N (fun j => rho (nth i mu 0) (nth j mu 0) * nth j mu 0 * nth j W 0) /\
      ((forall j, (j < N)%nat -> 0 <= rho (nth i mu 0) (nth j mu 0)) ->
       2 * rsum N (fun j => rho (nth i mu 0) (nth j mu 0) * nth j mu 0 * nth j W 0) <= 1 ->
       0 <= elt e [i] <= 1).
Proof.
  intros HN H mu W. pose proof (GL_lengths lg N 0 1 H) as [L1 L2]. fold mu in L1. fold W in L2.
  destruct (emissivity_fun lg N (fun mu mup => VArr (tmat (length mu) (length mup)
                              (fun i j => rho (nth i mu 0) (nth j mup 0))))
             (fun i j => rho (nth i mu 0) (nth j mu 0)) H) as (e & E1 & E2 & E3).
  { fold mu. rewrite L1. reflexivity. }
  exists e. split; [exact E1|]. split; auto. intros i Hi. rewrite (E3 i Hi). split; [reflexivity|].
  intros Hr Hle. fold mu W.
  assert (0 <= rsum N (fun j => rho (nth i mu 0) (nth j mu 0) * nth j mu 0 * nth j W 0)).
  { apply rsum_nonneg. intros j Hj. destruct (GL_inside lg N 0 1 j H ltac:(lra) Hj) as [A B]. fold mu in A. fold W in B.
    repeat apply Rmult_le_pos; auto; lra. }
  lra.
Qed.

Lemma emissivity_const lg N r : (0 < N)%nat -> leggauss_ok N (lg N) ->
  (exists e, generate_emissivity_from_BDRF lg N (MScal r) = Ok e /\ shp e = [] /\ elt e [] = 1 - r) /\
  (exists e, generate_emissivity_from_BDRF lg N (pointwise_mode (fun _ _ => r)) = Ok e /\ shp e = [N] /\
    forall i, (i < N)%nat -> elt e [i] = 1 - r).
Proof.
  intros HN H. split; [eexists; repeat split|].
  destruct (emissivity_all lg N (fun _ _ => r) HN H) as (e & E1 & E2 & E3).
  exists e. repeat split; auto. intros i Hi. destruct (E3 i Hi) as [-> _].
  pose proof (GL_first_moment lg N HN H) as E.
  rewrite (rsum_ext _ _ (fun j => r * (nth j (snd (Gauss_Legendre_quad lg N 0 1)) 0 * nth j (fst (Gauss_Legendre_quad lg N 0 1)) 0)))
    by (intros; ring).
  rewrite rsum_scal, E. lra.
Qed.

(** ** Caching of BDRF modes *)
Lemma cache_ok lg N modes rhos mu0 :
  leggauss_ok N (lg N) -> (2 <= N)%nat -> modes = map pointwise_mode rhos -> 
  let nodes := fst (Gauss_Legendre_quad lg N 0 1) in
  forall m, (m < length modes)%nat ->
  exists f g, nth m modes (MScal 0) = MFun f /\
    nth m (cache_BDRF_Fourier_modes lg N modes mu0) (MScal 0) = MFun g /\
    (exists A B, f nodes nodes = VArr A /\ g nodes nodes = VArr B /\ teq A B) /\
    (0 < mu0 <= 1 -> exists A B, f nodes [mu0] = VArr A /\ g nodes [mu0] = VArr B /\ teq A B) /\
    (~ (0 < mu0 <= 1) -> forall x, exists A B, f nodes [x] = VArr A /\ g nodes [x] = VArr B /\ teq A B).
Proof.
  intros H HN -> nodes m Hm. rewrite map_length in Hm.
  pose proof (GL_lengths lg N 0 1 H) as [L1 _]. fold nodes in L1.
  unfold cache_BDRF_Fourier_modes. fold nodes. rewrite !map_length.
  rewrite (nth_map_d _ _ _ (fun _ _ => 0)) by auto.
  set (rho := nth m rhos (fun _ _ => 0)).
  destruct (Rltb 0 mu0 && Rleb mu0 1)%bool eqn:Ec.
  - apply andb_prop in Ec as [E1 E2]. apply Rltb_iff in E1. apply Rleb_iff in E2.
    eexists. eexists. split; [reflexivity|]. split.
    { rewrite nth_seq0_map by auto. reflexivity. }
    rewrite (nth_map_d _ _ _ (MScal 0)) by (rewrite map_length; auto).
    rewrite (nth_map_d _ _ _ (fun _ _ => 0)) by auto. fold rho. cbn [pointwise_mode].
    repeat split.
    + eexists. eexists. split; [reflexivity|]. split.
      { rewrite L1. replace (Nat.eqb N 1) with false by (symmetry; apply Nat.eqb_neq; lia). reflexivity. }
      split.
      * cbn [but_last_col tmat shp]. rewrite app_length, L1. simpl. do 2 f_equal. lia.
      * intros [|i [|j [|]]] Hb; simpl in Hb; try tauto. cbn [but_last_col tmat shp elt nth].
        rewrite app_nth1 by lia. reflexivity.
    + intros _. eexists. eexists. split; [reflexivity|]. cbn [length]. rewrite Nat.eqb_refl. split; [reflexivity|].
      split; [reflexivity|].
      intros [|i [|j [|]]] Hb; simpl in Hb; try tauto. cbn [last_col tmat shp elt nth hd].
      rewrite app_length, L1. simpl length. replace (N + 1 - 1)%nat with N by lia.
      rewrite app_nth2 by lia. rewrite L1, Nat.sub_diag. assert (j = 0)%nat by lia. subst j. reflexivity.
    + intros Hc. lra.
  - eexists. eexists. split; [reflexivity|]. split.
    { rewrite nth_seq0_map by auto. reflexivity. }
    rewrite (nth_map_d _ _ _ (MScal 0)) by (rewrite map_length; auto).
    rewrite (nth_map_d _ _ _ (fun _ _ => 0)) by auto. fold rho. cbn [pointwise_mode].
    repeat split.
    + eexists. eexists. split; [reflexivity|]. split.
      { replace (Nat.eqb (length nodes) 1) with false by (symmetry; apply Nat.eqb_neq; lia). reflexivity. }
      split; reflexivity.
    + intros [A B]. exfalso. rewrite (proj2 (Rltb_iff _ _) A), (proj2 (Rleb_iff _ _) B) in Ec. discriminate.
    + intros _ x. eexists. eexists. split; [reflexivity|]. cbn [length]. rewrite Nat.eqb_refl. split; [reflexivity|].
      split; reflexivity.
Qed.

Definition lg1 : leggauss_t := fun _ => ([0], [2]).

(** With a single node per hemisphere the node query and the [mu0] query cannot be
    told apart: the cached mode answers the node query with the value at [mu0]. *)
Lemma cache_N1_refuted :
  exists (rho : R -> R -> R) mu0, 0 < mu0 <= 1 /\
    let nodes := fst (Gauss_Legendre_quad lg1 1 0 1) in
    exists f g A B, pointwise_mode rho = MFun f /\
      nth 0 (cache_BDRF_Fourier_modes lg1 1 [pointwise_mode rho] mu0) (MScal 0) = MFun g /\
      f nodes nodes = VArr A /\ g nodes nodes = VArr B /\ elt A [0; 0]%nat <> elt B [0; 0]%nat.
Proof.
  exists (fun _ y => y), 1. split; [lra|]. intros nodes.
  unfold cache_BDRF_Fourier_modes. rewrite (proj2 (Rltb_iff 0 1)), (proj2 (Rleb_iff 1 1)) by lra.
  cbn [andb length seq map nth].
  do 4 eexists. repeat split; try reflexivity.
  simpl. lra.
Qed.

(** ** Scale factors *)
Lemma affine_guard_refuted :
  exists n rows a_arr b_arr, length rows = length a_arr /\ length b_arr = length a_arr /\ In 0 a_arr /\
    forall msg, affine_transform_poly_coeffs n rows a_arr b_arr <> Err (EValue msg).
Proof.
  exists 1%nat, [[1]; [1]], [1; 0], [0; 0]. repeat split; [simpl; auto|].
  intros msg. unfold affine_transform_poly_coeffs. cbn [forallb]. rewrite Reqb_f by lra. cbn [andb].
  cbn [affine_rows]. unfold cdiv. destruct (Req_EM_T 1 0); [lra|]. cbn [bind].
  destruct (Req_EM_T 0 0); [|lra]. cbn [bind]. discriminate.
Qed.
Lemma affine_guard_all n rows a_arr b_arr : (forall a, In a a_arr -> a = 0) ->
  exists msg, affine_transform_poly_coeffs n rows a_arr b_arr = Err (EValue msg).
Proof.
  intros H. unfold affine_transform_poly_coeffs.
  replace (forallb (fun a => Reqb a 0) a_arr) with true; eauto.
  symmetry. apply forallb_forall. intros a Ha. rewrite (H a Ha). apply Reqb_iff. auto.
Qed.
(** A zero scale factor always ends in a non-finite result or a ValueError, never in coefficients. *)
Lemma affine_zero_never_ok n rows a_arr b_arr r : In 0 a_arr ->
  affine_transform_poly_coeffs n rows a_arr b_arr = Ok r -> False.
Proof.
  unfold affine_transform_poly_coeffs. intros H0. destruct (forallb _ _); [discriminate|].
  revert rows b_arr r. induction a_arr as [|a aa IH]; intros rows b_arr r; [destruct H0|].
  destruct rows; [discriminate|]. destruct b_arr; [discriminate|]. cbn [affine_rows].
  intros E. apply bind_Ok in E as (inva & E1 & E). apply bind_Ok in E as (rest & E2 & E).
  destruct H0 as [->|H0].
  - apply cdiv_Ok in E1. lra.
  - exact (IH H0 _ _ _ E2).
Qed.

Lemma affine_all n rows a_arr b_arr :
  (0 < length rows)%nat -> length a_arr = length rows -> length b_arr = length rows ->
  (forall r, In r rows -> length r = n) -> (forall a, In a a_arr -> a <> 0) ->
  exists out, affine_transform_poly_coeffs n rows a_arr b_arr = Ok out /\ length out = length rows /\
    forall l, (l < length rows)%nat -> length (nth l out []) = n /\
      forall x, peval (nth l out []) (nth l a_arr 0 * x + nth l b_arr 0) = peval (nth l rows []) x.
Proof.
  intros H0 Ha Hb Hr Hn. eexists. split.
  - apply affine_ok; auto. intros l Hl. apply Hn, nth_In. lia.
  - rewrite map_length, seq_length. split; auto. intros l Hl. rewrite nth_seq0_map by auto.
    split; [apply affine_row_length|]. intros x. apply affine_row_correct.
    + apply Hn, nth_In. lia.
    + apply Hr, nth_In. auto.
Qed.

Lemma spline_all x y :
  (~ ((1 < length x)%nat /\ length x = length y /\ increasing x) ->
     exists msg, linear_spline_coefficients x y true = Err (EValue msg)) /\
  ((1 < length x)%nat /\ length x = length y /\ increasing x ->
   exists rows, linear_spline_coefficients x y true = Ok rows /\ length rows = (length x - 1)%nat /\
    forall i, (S i < length x)%nat ->
     length (nth i rows []) = 2%nat /\
     peval (nth i rows []) (nth i x 0) = nth i y 0 /\
     peval (nth i rows []) (nth (S i) x 0) = nth (S i) y 0).
Proof.
  unfold linear_spline_coefficients, check. split.
  - intros H.
    destruct (Nat.ltb_spec 1 (length x)); [|cbn; eauto].
    destruct (Nat.eqb_spec (length x) (length y)); [|cbn; eauto].
    destruct (increasingb x) eqn:E; [|cbn; eauto]. apply increasingb_iff in E. tauto.
  - intros (H1 & H2 & H3). rewrite (proj2 (Nat.ltb_lt _ _)) by auto.
    rewrite (proj2 (Nat.eqb_eq _ _)) by auto. rewrite (proj2 (increasingb_iff x)) by auto.
    cbn [bind]. apply spline_rows_spec; auto.
Qed.

(** ** leggauss(1) and leggauss(2) *)
Lemma int_poly2 p : (length p <= 2)%nat -> RInt (peval p) (-1) 1 = 2 * nth 0 p 0.
Proof.
  intros Hp. apply is_RInt_unique.
  assert (E : forall x, peval p x = nth 0 p 0 + nth 1 p 0 * x).
  { intros x. destruct p as [|a [|b [|]]]; simpl in *; try lia; lra. }
  apply (is_RInt_ext (V:=R_NormedModule) (fun x => nth 0 p 0 + nth 1 p 0 * x)); [intros; req; symmetry; apply E|].
  assert (HI : is_RInt (fun x => nth 0 p 0 + nth 1 p 0 * x) (-1) 1
     (minus ((fun x => nth 0 p 0 * x + nth 1 p 0 * x ^ 2 / 2) 1) ((fun x => nth 0 p 0 * x + nth 1 p 0 * x ^ 2 / 2) (-1)))).
  { apply (is_RInt_derive (V:=R_CompleteNormedModule) (fun x => nth 0 p 0 * x + nth 1 p 0 * x ^ 2 / 2)).
    - intros x _. auto_derive; auto. field.
    - intros x _. apply (ex_derive_continuous (K:=R_AbsRing) (V:=R_NormedModule)). auto_derive; auto. }
  eapply (eq_ind _ (fun z : R => is_RInt _ _ _ z) HI). unfold minus, plus, opp; simpl. field.
Qed.

Lemma leggauss1_ok : leggauss_ok 1 ([0], [2]).
Proof.
  unfold leggauss_ok. cbn [fst snd length].
  split; [auto|]. split; [auto|]. split; [intros i Hi; replace i with 0%nat by lia; simpl; lra|].
  split; [intros i j Hi Hj Hn; lia|]. split; [intros i Hi; replace i with 0%nat by lia; simpl; lra|].
  split; [auto|].
  intros p Hp. rewrite int_poly2 by (simpl in Hp; lia). unfold quadsum. simpl.
  destruct p as [|a q]; simpl; lra.
Qed.

Lemma int_poly4 p : (length p <= 4)%nat -> RInt (peval p) (-1) 1 = 2 * nth 0 p 0 + 2 / 3 * nth 2 p 0.
Proof.
  intros Hp. apply is_RInt_unique.
  assert (E : forall x, peval p x = nth 0 p 0 + nth 1 p 0 * x + nth 2 p 0 * x ^ 2 + nth 3 p 0 * x ^ 3).
  { intros x. destruct p as [|a [|b [|c [|d [|]]]]]; simpl in *; try lia; ring. }
  set (a := nth 0 p 0) in *. set (b := nth 1 p 0) in *. set (c := nth 2 p 0) in *. set (d := nth 3 p 0) in *.
  apply (is_RInt_ext (V:=R_NormedModule) (fun x => a + b * x + c * x ^ 2 + d * x ^ 3)); [intros; req; symmetry; apply E|].
  assert (HI : is_RInt (fun x => a + b * x + c * x ^ 2 + d * x ^ 3) (-1) 1
     (minus ((fun x => a * x + b * x ^ 2 / 2 + c * x ^ 3 / 3 + d * x ^ 4 / 4) 1)
            ((fun x => a * x + b * x ^ 2 / 2 + c * x ^ 3 / 3 + d * x ^ 4 / 4) (-1)))).
  { apply (is_RInt_derive (V:=R_CompleteNormedModule) (fun x => a * x + b * x ^ 2 / 2 + c * x ^ 3 / 3 + d * x ^ 4 / 4)).
    - intros x _. auto_derive; auto. field.
    - intros x _. apply (ex_derive_continuous (K:=R_AbsRing) (V:=R_NormedModule)). auto_derive; auto. }
  eapply (eq_ind _ (fun z : R => is_RInt _ _ _ z) HI). unfold minus, plus, opp; simpl. field.
Qed.

Lemma leggauss2_ok : leggauss_ok 2 ([- / sqrt 3; / sqrt 3], [1; 1]).
Proof.
  assert (S0 : 0 < sqrt 3) by (apply sqrt_lt_R0; lra).
  assert (S1 : sqrt 3 * sqrt 3 = 3) by (apply sqrt_sqrt; lra).
  assert (S2 : 1 < sqrt 3) by (rewrite <- sqrt_1 at 1; apply sqrt_lt_1; lra).
  assert (I0 : 0 < / sqrt 3) by (apply Rinv_0_lt_compat; auto).
  assert (I1 : / sqrt 3 < 1) by (rewrite <- Rinv_1; apply Rinv_lt_contravar; lra).
  assert (I2 : / sqrt 3 * / sqrt 3 = / 3) by (rewrite <- Rinv_mult; f_equal; auto).
  unfold leggauss_ok. cbn [fst snd length].
  split; [auto|]. split; [auto|].
  split; [intros [|[|i]] Hi; simpl; try lia; lra|].
  split; [intros [|[|i]] [|[|j]] Hi Hj Hn; simpl; try lia; lra|].
  split; [intros [|[|i]] Hi; simpl; try lia; lra|].
  split; [auto|].
  intros p Hp. rewrite int_poly4 by (simpl in Hp; lia). unfold quadsum. simpl.
  set (s := / sqrt 3) in *.
  destruct p as [|a [|b [|c [|d [|]]]]]; simpl in *; try lia; try lra.
  - transitivity (2 * a + 2 * c * (s * s)); [ring|]. rewrite I2. lra.
  - transitivity (2 * a + 2 * c * (s * s)); [ring|]. rewrite I2. lra.
Qed.
Definition lg_12 : leggauss_t := fun N => match N with 2%nat => ([- / sqrt 3; / sqrt 3], [1; 1]) | _ => ([0], [2]) end.
