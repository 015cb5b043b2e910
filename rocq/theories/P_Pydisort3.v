(** Boundary conditions and reported values of the returned functions. *)
From Coq Require Import String Reals Lra Lia List Bool Arith ZArith.
From Coquelicot Require Import Coquelicot.
From Verif Require Import Base Tensor Spec M_LinAlg Spec_RTE Calc M_Subroutines M_GenPart M_MathscrV M_Coeffs M_Assemble M_Pydisort
  P_Sub P_GenPart3 P_Tensor P_Coeffs2 P_Coeffs3 P_Assemble P_Solve Spec_Sol P_Valid P_Pydisort P_Pydisort2.
Import ListNotations.
Local Open Scope R_scope.

(** np.squeeze. *)
Lemma inb_unsq s : forall idx, inb (sq_shape s) idx -> inb s (unsq s idx).
Proof.
  induction s as [|n s IH]; intros idx H; cbn in *; [exact I|]. destruct (Nat.eqb_spec n 1) as [E|E]; cbn in *.
  - split; [lia|]. apply IH; auto.
  - destruct idx as [|i idx]; [destruct H|]. destruct H as [H1 H2]. cbn [hd tl]. split; auto.
Qed.
Lemma squeezed_intro s f A B : shp B = s -> (forall idx, inb s idx -> elt B idx = f idx) ->
  A = tsqueeze B -> squeezed A s f.
Proof.
  intros HS HE ->. unfold squeezed, teq, tsqueeze. cbn [shp elt]. rewrite HS. split; [reflexivity|].
  intros idx Hi. apply HE. apply inb_unsq; auto.
Qed.
Lemma squeezed_scal s f c A : shp A = s -> (forall idx, inb s idx -> c * elt A idx = f idx) ->
  squeezed (tscal c (tsqueeze A)) s f.
Proof. intros HS HE. apply (squeezed_intro s f _ (tscal c A)); auto. Qed.
Lemma inb_1 n idx : inb [n] idx -> exists i, idx = [i] /\ (i < n)%nat.
Proof. destruct idx as [|i [|]]; cbn; intros H; try tauto. exists i. tauto. Qed.
Lemma inb_2 n m idx : inb [n; m] idx -> exists i j, idx = [i; j] /\ (i < n)%nat /\ (j < m)%nat.
Proof. destruct idx as [|i [|j [|]]]; cbn; intros H; try tauto. exists i, j. tauto. Qed.
Lemma inb_3 n m k idx : inb [n; m; k] idx -> exists i j h, idx = [i; j; h] /\ (i < n)%nat /\ (j < m)%nat /\ (h < k)%nat.
Proof. destruct idx as [|i [|j [|h [|]]]]; cbn; intros H; try tauto. exists i, j, h. tauto. Qed.

(** Boundary sources. *)
Lemma norm_b_or b : (norm_b b = t0 0 /\ forall idx, inb (shp b) idx -> elt b idx = 0) \/ norm_b b = b.
Proof. unfold norm_b. destruct (all0 b) eqn:E; [left; split; auto; apply all0_iff; auto|right; auto]. Qed.

Lemma bc_zero_val b n v : (1 <= n)%nat -> (forall idx, inb (shp b) idx -> elt b idx = 0) -> bc_values b n v -> forall i, (i < n)%nat -> v i = 0.
Proof.
  intros Hn H0 Hv i Hi. destruct Hv as [_ H|S H|S H|S H|k S Hk H]; auto.
  - rewrite H. apply H0. rewrite S. exact I.
  - rewrite H. apply H0. rewrite S. cbn. lia.
  - rewrite H by auto. apply H0. rewrite S. cbn. auto.
  - rewrite H by auto. apply H0. rewrite S. cbn. split; [lia|]. split; auto. unfold bi. destruct (Nat.eqb_spec k 1); lia.
Qed.

(** What the solver makes of a boundary source. *)
Lemma as_vec_values n b d w : (1 <= n)%nat -> as_vec n (tmap (fun x => x / d) b) = Ok w -> exists v, bc_values b n v /\ forall i, (i < n)%nat -> w i = v i / d.
Proof.
  intros Hn. unfold as_vec. cbn [tmap shp elt].
  destruct (shp b) as [|k [|k2 [|? ?]]] eqn:S; intros H; try discriminate.
  - injection H as <-. exists (fun _ => elt b []). split; [apply bc_scal; auto|auto].
  - destruct (Nat.eqb_spec k n) as [->|E]; cbn [orb] in H.
    + injection H as <-. exists (fun i => elt b [i]). split; [apply bc_vec; auto|]. intros i Hi. rewrite bi_lt; auto.
    + destruct (Nat.eqb_spec k 1) as [->|E1]; [|discriminate]. injection H as <-. exists (fun i => elt b [0%nat]). split; [apply bc_one; auto|]. intros; reflexivity.
  - destruct (Nat.eqb_spec k 1) as [->|E]; [|discriminate]. destruct (Nat.eqb_spec k2 n) as [->|E]; cbn in H.
    + injection H as <-. exists (fun i => elt b [0%nat; bi n i]). split; [apply (bc_row _ _ _ n); auto|]. intros; reflexivity.
    + destruct (Nat.eqb_spec k2 1) as [->|E1]; [|discriminate]. injection H as <-. exists (fun i => elt b [0%nat; bi 1 i]). split; [apply (bc_row _ _ _ 1); auto|]. intros; reflexivity.
Qed.
Lemma bc_unique b n v v' : (1 <= n)%nat -> bc_values b n v -> bc_values b n v' -> forall i, (i < n)%nat -> v i = v' i.
Proof.
  intros Hn Hv Hv' i Hi.
  destruct Hv as [Z H|S H|S H|S H|k S Hk H].
  - rewrite H. symmetry. apply (bc_zero_val b n); auto.
  - destruct Hv' as [Z' H'|S' H'|S' H'|S' H'|k' S' Hk' H'].
    + rewrite H'. apply (bc_zero_val b n); auto. apply bc_scal; auto.
    + congruence.
    + rewrite S in S'. discriminate.
    + rewrite S in S'. discriminate.
    + rewrite S in S'. discriminate.
  - destruct Hv' as [Z' H'|S' H'|S' H'|S' H'|k' S' Hk' H'].
    + rewrite H'. apply (bc_zero_val b n); auto. apply bc_one; auto.
    + rewrite S in S'. discriminate.
    + congruence.
    + rewrite S in S'. injection S' as <-. rewrite H, H' by auto. f_equal. f_equal. lia.
    + rewrite S in S'. discriminate.
  - destruct Hv' as [Z' H'|S' H'|S' H'|S' H'|k' S' Hk' H'].
    + rewrite H'. apply (bc_zero_val b n); auto. apply bc_vec; auto.
    + rewrite S in S'. discriminate.
    + rewrite S in S'. injection S' as ->. rewrite H, H' by auto. f_equal. f_equal. lia.
    + rewrite H, H' by auto. reflexivity.
    + rewrite S in S'. discriminate.
  - destruct Hv' as [Z' H'|S' H'|S' H'|S' H'|k' S' Hk' H'].
    + rewrite H'. apply (bc_zero_val b n); auto. apply (bc_row _ _ _ k); auto.
    + rewrite S in S'. discriminate.
    + rewrite S in S'. discriminate.
    + rewrite S in S'. discriminate.
    + rewrite S in S'. injection S' as <-. rewrite H, H' by auto. reflexivity.
Qed.
Lemma bc_norm b n v : (1 <= n)%nat -> bc_values (norm_b b) n v -> exists v', bc_values b n v' /\ forall i, (i < n)%nat -> v' i = v i.
Proof.
  intros Hn H. destruct (norm_b_or b) as [[E Z]|E].
  - exists (fun _ => 0). split; [apply bc_zero; auto|]. rewrite E in H. intros i Hi. symmetry. apply (bc_zero_val (t0 0) n); auto.
  - exists v. rewrite E in H. split; auto.
Qed.

Section BMode.
  Variable p : py_in.
  Hypothesis V : valid p.
  Variable g : sc_in.
  Hypothesis HN : sc_N g = half p.
  Variable b : tensor.
  Hypothesis Hb : b_accepted p b.
  Variable d : R.

  Lemma half_1 : (1 <= half p)%nat.
  Proof. apply half_pos; auto. Qed.

  Lemma b_flags : is_scalar_b (norm_b b) = true \/ b_is_vector p (norm_b b) = true.
  Proof.
    destruct (norm_b_or b) as [[E Z]|E]; rewrite E; [left; reflexivity|].
    destruct Hb as [H|[H|(n & s & H & Hn)]].
    - left. assert (E0 : all0 b = true) by (apply all0_iff; auto). unfold norm_b in E. rewrite E0 in E. rewrite <- E. reflexivity.
    - left. unfold is_scalar_b, len1. rewrite H. reflexivity.
    - unfold b_is_vector, is_scalar_b, len1. rewrite H. destruct (Nat.eqb_spec n 1) as [->|E1]; [left; auto|]. right. cbn.
      apply Z.eqb_eq. unfold e_N. destruct Hn; [lia|auto].
  Qed.

  (** Success means that the source has one value per stream, and gives these values to mode 0. *)
  Lemma b_mode_values m w : b_mode g (is_scalar_b (norm_b b)) (b_is_vector p (norm_b b)) (tmap (fun x => x / d) (norm_b b)) m = Ok w ->
    if Nat.eqb m 0 then exists v, bc_values b (half p) v /\ forall i, (i < half p)%nat -> w i = v i / d else forall i, w i = 0.
  Proof.
    unfold b_mode. rewrite HN. pose proof half_1 as Hh. destruct (Nat.eqb_spec m 0) as [->|Hm].
    - rewrite !andb_true_r. intros H.
      assert (H' : as_vec (half p) (tmap (fun x => x / d) (norm_b b)) = Ok w).
      { destruct b_flags as [E|E]; rewrite E in H; [exact H|]. destruct (is_scalar_b (norm_b b)); exact H. }
      destruct (as_vec_values _ _ _ _ Hh H') as (v & Hv & Hw). destruct (bc_norm _ _ _ Hh Hv) as (v' & Hv' & E).
      exists v'. split; auto. intros i Hi. rewrite Hw, E by auto. reflexivity.
    - rewrite !andb_false_r, andb_true_r. intros H.
      replace (is_scalar_b (norm_b b) || b_is_vector p (norm_b b))%bool with true in H.
      + injection H as <-. reflexivity.
      + symmetry. apply orb_true_iff. apply b_flags.
  Qed.
End BMode.

(** Reflection terms. *)
Lemma nth_vlist n v i : (i < n)%nat -> nth i (vlist n v) 0 = v i.
Proof. intros H. unfold vlist. apply nth_seq0_map; auto. Qed.
Lemma len_vlist n v : length (vlist n v) = n.
Proof. unfold vlist. rewrite map_length, seq_length; auto. Qed.

Lemma bd_R_val g m md rho : (1 <= sc_N g)%nat -> mode_is md rho -> exists R, bd_R g m md = Ok R /\
  forall i j, (i < sc_N g)%nat -> (j < sc_N g)%nat -> R i j = (if Nat.eqb m 0 then 2 else 1) * rho (sc_mu g i) (sc_mu g j) * sc_muW g j.
Proof.
  intros Hn Hmd. unfold bd_R. set (N := sc_N g) in *. set (W := tnew 0 (tvec N (sc_muW g))).
  assert (SW : shp W = [1%nat; N]) by reflexivity.
  set (D0 := tscal (if Nat.eqb m 0 then 2 else 1) (bd_D g md)).
  destruct Hmd as [(x & -> & Hx)| ->].
  - assert (exists C, tmul D0 W = Ok C /\ shp C = [1%nat; N] /\ forall j, elt C [0%nat; j] = (if Nat.eqb m 0 then 2 else 1) * x * elt W [0%nat; bi N j]) as (C & HC & SC & EC).
    { unfold tmul, bcast2. cbn [D0 tscal tmap shp bd_D t0]. rewrite SW. unfold padl. cbn [length Nat.max Nat.sub repeat app]. cbn [bshape]. rewrite !bdim_1_l. cbn [bind].
      eexists. split; [reflexivity|]. split; [reflexivity|]. intros j. cbn [elt skipn bidx bi Nat.eqb]. reflexivity. }
    rewrite HC. cbn [bind]. rewrite SC, Nat.eqb_refl. cbn [andb orb]. rewrite orb_true_r.
    eexists. split; [reflexivity|]. intros i j Hi Hj. cbn beta. rewrite bi_1, EC, bi_lt, Hx by auto. reflexivity.
  - assert (SD : shp D0 = [N; N]).
    { unfold D0. cbn [bd_D tscal tmap shp pointwise_mode tmat]. fold N. rewrite !len_vlist. reflexivity. }
    destruct (bcast2_2 Rmult D0 W N N 1 N N N SD SW (bc_1r N) (bc_same N)) as (C & HC & SC & EC).
    unfold tmul. rewrite HC. cbn [bind]. rewrite SC, !Nat.eqb_refl. cbn [andb orb].
    eexists. split; [reflexivity|]. intros i j Hi Hj. cbn beta. rewrite EC, bi_1, !(bi_lt N i), !(bi_lt N j) by auto.
    unfold D0, W. cbn -[Rmult INR vlist]. fold N. rewrite !nth_vlist by auto. reflexivity.
Qed.

Lemma bd_X_val g md rho : (1 <= sc_N g)%nat -> mode_is md rho -> exists X, bd_X g md = Ok X /\
  forall i, (i < sc_N g)%nat -> X i = sc_mu0 g * sc_I0_div_4pi g * 4 * rho (sc_mu g i) (sc_mu0 g).
Proof.
  intros Hn Hmd. unfold bd_X. set (N := sc_N g) in *. destruct Hmd as [(x & -> & Hx)| ->].
  - eexists. split; [reflexivity|]. intros i Hi. cbn beta. rewrite Hx. reflexivity.
  - cbn [pointwise_mode tmat shp length Nat.eqb]. unfold as_vec. cbn [shp]. rewrite len_vlist, Nat.eqb_refl. cbn [orb].
    eexists. split; [reflexivity|]. intros i Hi. cbn -[Rmult]. rewrite bi_lt by auto. rewrite nth_vlist by auto. reflexivity.
Qed.

Lemma bd_terms_val g m : (1 <= sc_N g)%nat -> forall bd, bd_terms g m = Ok bd ->
  forall rho, ((m < length (sc_BDRF g))%nat -> mode_is (nth m (sc_BDRF g) (MScal 0)) rho) ->
  forall i, (i < sc_N g)%nat ->
    (forall j, (j < sc_N g)%nat -> bdR bd i j = if Nat.ltb m (length (sc_BDRF g)) then (if Nat.eqb m 0 then 2 else 1) * rho (sc_mu g i) (sc_mu g j) * sc_muW g j else 0) /\
    (sc_beam g = true -> bdX bd i = if Nat.ltb m (length (sc_BDRF g)) then sc_mu0 g * sc_I0_div_4pi g * 4 * rho (sc_mu g i) (sc_mu0 g) else 0).
Proof.
  intros Hn bd H rho Hrho i Hi. unfold bd_terms in H. destruct (Nat.ltb_spec m (length (sc_BDRF g))) as [Hlt|Hge].
  - specialize (Hrho Hlt). destruct (bd_R_val g m _ rho Hn Hrho) as (R & HR & ER). rewrite HR in H. cbn [bind] in H.
    destruct (bd_X_val g _ rho Hn Hrho) as (X & HX & EX). rewrite HX in H.
    destruct (sc_beam g); cbn [bind] in H; injection H as <-; cbn [bdR bdX]; split; auto; discriminate.
  - injection H as <-. split; auto.
Qed.

Section Sol.
  Variable p : py_in.
  Hypothesis V : valid p.
  Variable lg : leggauss_t.
  Hypothesis Hlg : leggauss_ok (half p) (lg (half p)).
  Variables (ss : nat -> vec) (r : R).
  Hypothesis Hss : scaled_s p = Ok ss.
  Hypothesis Hr : rescale p ss = Ok r.
  Let a := assemble_args p lg r ss.
  Let N := half p.
  Let NL := nlayers p.
  Variable la : linalg.
  Hypothesis Hla : linalg_ok la.
  Variable jk : junk.
  Variable sv : solved.
  Hypothesis Hsv : solve_all a la jk = Ok sv.
  Let U := Umode p lg ss r sv.
  Let F := Flay p lg ss r sv.
  Let Ha : as_good a := a_good p V lg Hlg ss r.

  Lemma NL_pos : (1 <= NL)%nat. Proof. exact (v_ne p V). Qed.
  Lemma N_pos : (1 <= N)%nat. Proof. apply half_pos; auto. Qed.
  Lemma bottom_eq : bottom p = bot_of p (NL - 1).
  Proof. unfold bottom, bot_of. rewrite last_nth. reflexivity. Qed.
  Lemma layer_ord l : (l < NL)%nat -> top_of p l < bot_of p l.
  Proof. exact (v_inc p V l). Qed.

  Lemma r_zero_bc b : (b = p_bpos p \/ b = p_bneg p) -> nonneg b \/ some_source p -> r = 0 -> forall v, bc_values b N v -> forall i, (i < N)%nat -> v i = 0.
  Proof.
    intros Hb Hn E v Hv i Hi. destruct (r_le p ss r Hr) as (mp & mn & Hp & Hm & H). specialize (H E) as (_ & H1 & H2).
    apply (bc_zero_val b N); auto using N_pos. intros idx Hidx.
    destruct (norm_b_or b) as [[_ Z]|En]; [apply Z; auto|].
    assert (exists mx, tmax (norm_b b) = Ok mx /\ mx <= 0) as (mx & Hmx & Hle) by (destruct Hb as [-> | ->]; eauto).
    rewrite En in Hmx. pose proof (tmax_ge _ _ Hmx idx Hidx). destruct Hn as [Hn|Hs]; [specialize (Hn idx Hidx); lra|].
    exfalso. destruct Hs as [HI|[(b' & idx' & Hb' & Hi' & Hpos)|Hs]].
    - pose proof (r_I0 p V ss r Hr E). lra.
    - destruct (norm_b_or b') as [[_ Z]|En']; [rewrite Z in Hpos by auto; lra|].
      assert (exists mx, tmax (norm_b b') = Ok mx /\ mx <= 0) as (mx' & Hmx' & Hle') by (destruct Hb' as [-> | ->]; eauto).
      rewrite En' in Hmx'. pose proof (tmax_ge _ _ Hmx' idx' Hi'). lra.
    - apply (r_iso p ss r Hr); [|exact E]. apply has_iso_iff. exact Hs.
  Qed.

  Lemma m_lt m : (m < nmodes p)%nat -> (m < a_NFourier a)%nat.
  Proof. cbn. rewrite <- nmodes_eq. auto. Qed.

  Lemma scaled_b b m w g v : (b = p_bpos p \/ b = p_bneg p) -> nonneg b \/ some_source p -> sc_N g = half p ->
    b_mode g (is_scalar_b (norm_b b)) (b_is_vector p (norm_b b)) (tmap (fun x => x / divisor r) (norm_b b)) m = Ok w ->
    bc_values b N v -> forall i, (i < N)%nat -> r * w i = if Nat.eqb m 0 then v i else 0.
  Proof.
    intros Hb Hn Hg Hw Hv i Hi.
    assert (Hacc : b_accepted p b) by (destruct Hb as [-> | ->]; [apply (v_bpos p V)|apply (v_bneg p V)]).
    apply (b_mode_values p V g Hg b Hacc) in Hw. destruct (Nat.eqb m 0).
    - destruct Hw as (v' & Hv' & E). rewrite E by auto. rewrite (bc_unique b N v v' N_pos Hv Hv' i Hi).
      apply unscale. intros E0. apply (r_zero_bc b Hb Hn E0 v' Hv' i Hi).
    - rewrite Hw. ring.
  Qed.

  (** The source has one value per stream. *)
  Lemma bc_exists : (exists v, bc_values (p_bneg p) N v) /\ exists v, bc_values (p_bpos p) N v.
  Proof.
    destruct (fld_bc a Ha la Hla jk sv Hsv 0 ltac:(apply m_lt; apply nmodes_pos; auto)) as (bd & bneg & bpos & o & _ & Hn & Hp & _).
    split.
    - apply (b_mode_values p V (sc_of a o) eq_refl _ (v_bneg p V)) in Hn. destruct Hn as (v & Hv & _). eauto.
    - apply (b_mode_values p V (sc_of a o) eq_refl _ (v_bpos p V)) in Hp. destruct Hp as (v & Hv & _). eauto.
  Qed.

  Theorem top_bc v : bc_values (p_bneg p) N v -> (nonneg (p_bneg p) \/ some_source p) ->
    forall m i, (m < nmodes p)%nat -> (i < N)%nat -> U m (N + i)%nat 0 = if Nat.eqb m 0 then v i else 0.
  Proof.
    intros Hv Hn m i Hm Hi.
    destruct (fld_bc a Ha la Hla jk sv Hsv m (m_lt m Hm)) as (bd & bneg & bpos & o & _ & Hb & _ & HT & _).
    unfold U. rewrite (Umode_Flay p V lg Hlg ss r la Hla jk sv Hsv m 0 (N + i) 0 Hm NL_pos).
    - unfold Flay. rewrite <- (scaled_b (p_bneg p) m bneg (sc_of a o) v (or_intror eq_refl) Hn eq_refl Hb Hv i Hi). f_equal.
      etransitivity; [|exact (HT i Hi)]. f_equal. unfold depth_s. cbn [top_of rsum]. ring.
    - rewrite (streams_eq p V). fold N. lia.
    - cbn [top_of]. pose proof (layer_ord 0 NL_pos) as H. cbn [top_of] in H. lra.
  Qed.

  Theorem bottom_bc v (rho : nat -> R -> R -> R) : bc_values (p_bpos p) N v -> (nonneg (p_bpos p) \/ some_source p) ->
    (forall m, (m < length (p_BDRF p))%nat -> mode_is (nth m (p_BDRF p) (MScal 0)) (rho m)) ->
    forall m i, (m < nmodes p)%nat -> (i < N)%nat ->
    U m i (bottom p) = (if Nat.eqb m 0 then v i else 0) +
      (if Nat.ltb m (length (p_BDRF p)) then
         (if Nat.eqb m 0 then 2 else 1) * rsum N (fun j => rho m (nth i (mu_arr p lg) 0) (nth j (mu_arr p lg) 0) * nth j (mu_arr p lg) 0 * quad_W p lg j * U m (N + j)%nat (bottom p))
         + p_mu0 p * p_I0 p / PI * rho m (nth i (mu_arr p lg) 0) (p_mu0 p) * exp (- depth_s p (NL - 1) (bottom p) / p_mu0 p)
       else 0).
  Proof.
    intros Hv Hn Hrho m i Hm Hi. pose proof NL_pos as HL. pose proof N_pos as HN1.
    destruct (fld_bc a Ha la Hla jk sv Hsv m (m_lt m Hm)) as (bd & bneg & bpos & o & Hbd & _ & Hb & _ & _ & HB).
    assert (HU : forall q, (q < 2 * N)%nat -> U m q (bottom p) = r * fld a sv m (NL - 1) q (a_stau0 a NL)).
    { intros q Hq. unfold U. rewrite (Umode_Flay p V lg Hlg ss r la Hla jk sv Hsv m (NL - 1) q (bottom p) Hm).
      - unfold Flay. f_equal. f_equal. rewrite bottom_eq. rewrite <- depth_s_bot by (auto; fold NL; lia). cbn [a assemble_args a_stau0]. f_equal. lia.
      - fold NL. lia.
      - rewrite (streams_eq p V). auto.
      - rewrite bottom_eq. pose proof (layer_ord (NL - 1) ltac:(lia)). lra. }
    rewrite HU by lia. change (a_NLayers a) with NL in HB. change (a_N a) with N in HB. rewrite HB by auto.
    rewrite !Rmult_plus_distr_l. rewrite (scaled_b (p_bpos p) m bpos (sc_of a o) v (or_introl eq_refl) Hn eq_refl Hb Hv i Hi).
    rewrite Rplus_assoc. f_equal.
    destruct (bd_terms_val (sc_of a o) m HN1 bd Hbd (rho m) (Hrho m) i Hi) as [ER EX].
    cbn [sc_of sc_BDRF sc_mu sc_muW sc_beam sc_mu0 sc_I0_div_4pi] in ER, EX. change (a_BDRF a) with (p_BDRF p) in ER, EX.
    assert (Hmu : forall j, (j < N)%nat -> nth j (mu_arr p lg) 0 = quad_mu p lg j).
    { intros j Hj. rewrite mu_arr_node by (fold N; lia). unfold node. rewrite (proj2 (Nat.ltb_lt j (half p))); auto. }
    rewrite <- rsum_scal.
    rewrite (rsum_ext N _ (fun j => bdR bd i j * U m (N + j)%nat (bottom p))) by (intros j Hj; rewrite HU by lia; ring).
    destruct (Nat.ltb m (length (p_BDRF p))).
    - f_equal.
      + rewrite <- rsum_scal. apply rsum_ext. intros j Hj. rewrite ER by auto. rewrite !Hmu by auto. cbn [a assemble_args a_mu a_W]. ring.
      + rewrite Hmu by auto. replace (depth_s p (NL - 1) (bottom p)) with (a_stau0 a NL).
        2:{ rewrite bottom_eq. rewrite <- depth_s_bot by (auto; fold NL; lia). cbn [a assemble_args a_stau0]. f_equal. lia. }
        cbn [a assemble_args a_beam a_mu0] in *. unfold has_beam in *. destruct (Rltb 0 (p_I0 p)) eqn:Eb.
        * rewrite EX by auto. cbn [a_I0_div_4pi a_mu].
          rewrite <- (unscale r (p_I0 p)) at 1 by (apply (r_I0 p V ss r Hr)).
          cbn [a assemble_args a_I0_div_4pi a_mu a_stau0].
          pose proof PI_RGT_0. set (x := exp _). set (y := rho _ _ _). set (z := p_I0 p / divisor r). field. lra.
        * apply Rltb_false in Eb. pose proof (v_I0 p V). replace (p_I0 p) with 0 by lra. unfold Rdiv. ring.
    - rewrite rsum_0 by (intros j Hj; rewrite ER by auto; ring).
      cbn [a assemble_args a_beam] in *. destruct (has_beam p); [rewrite EX by auto|]; ring.
  Qed.

  (** Reported values. *)
  Lemma HKne : a_iso a = true -> forall l k, (l < a_NLayers a)%nat -> (k < 2 * a_N a)%nat -> sv_K sv 0 l k <> 0.
  Proof. intros _ l k Hl Hk. apply (sv_K_ne a Ha la Hla jk sv Hsv); auto. apply (g_NF a Ha). Qed.
  Lemma range_ok tau : depths_ok p tau -> in_range a tau = true.
  Proof. intros H. apply in_range_iff. exact H. Qed.
  Lemma NT_iff : NT_active p = true <-> nt_applies p.
  Proof.
    unfold NT_active, nt_applies, has_beam, delta_M, NLeg_all. rewrite !andb_true_iff, negb_true_iff, Rltb_iff, Nat.ltb_lt, !existsb_exists.
    change (pNLeg p) with (ncoeffs p).
    split.
    - intros (((((H1 & H2) & H3) & (f & H4 & H4')) & H5) & (w & H6 & H6')). rewrite Rltb_iff in H4', H6'. repeat split; eauto.
    - intros (H1 & H2 & H3 & (f & H4 & H4') & H5 & (w & H6 & H6')). repeat split; auto; [exists f|exists w]; rewrite Rltb_iff; auto.
  Qed.

  Theorem u0_reports tau b1 : depths_ok p tau -> exists A, cl_u0 a sv tau false b1 false = Ok (if b1 then PTup [PT A; PA (p_tau p)] else PVal (PT A)) /\
    squeezed A [streams p; length tau] (fun idx => U 0%nat (nth 0 idx 0%nat) (nth (nth 1 idx 0%nat) tau 0)).
  Proof.
    intros Ht. unfold cl_u0, tau_check. rewrite range_ok by auto. cbn [check bind].
    destruct (u0_all_val a sv (g_NL a Ha) (g_len a Ha) HKne tau Ht) as (C & HC & SC & EC). rewrite HC. cbn [bind].
    exists (tscal r (tsqueeze C)). split; [destruct b1; reflexivity|].
    apply squeezed_scal; [rewrite SC, (streams_eq p V); reflexivity|]. intros idx Hi.
    apply inb_2 in Hi as (i & j & -> & Hi & Hj). cbn [nth]. rewrite EC; auto. rewrite (streams_eq p V) in Hi. exact Hi.
  Qed.

  Theorem u_reports tau phi b1 : depths_ok p tau -> exists A, cl_u a sv tau phi false false b1 false = Ok (if b1 then PTup [PT A; PA (p_tau p)] else PVal (PT A)) /\
    squeezed A [streams p; length tau; length phi] (fun idx =>
         rsum (nmodes p) (fun m => U m (nth 0 idx 0%nat) (nth (nth 1 idx 0%nat) tau 0)
                               * cos (INR m * (p_phi0 p - nth (nth 2 idx 0%nat) phi 0)))).
  Proof.
    intros Ht. unfold cl_u, tau_check. rewrite range_ok by auto. cbn [check bind].
    destruct (um_all_val a sv (g_NL a Ha) (g_len a Ha) HKne tau Ht (g_NF a Ha)) as (C & HC & SC & EC). rewrite HC. cbn [bind].
    exists (tscal r (tsqueeze (u_full a C phi))). split; [destruct b1; reflexivity|].
    apply squeezed_scal; [unfold u_full; cbn [shp]; rewrite SC, (streams_eq p V); reflexivity|]. intros idx Hi.
    apply inb_3 in Hi as (i & j & h & -> & Hi & Hj & Hh). unfold u_full. cbn [elt nth]. rewrite <- rsum_scal.
    change (a_NFourier a) with (pNF p) in *. rewrite nmodes_eq. apply rsum_ext. intros m Hm.
    rewrite EC; auto.
    - unfold U, Umode, azimuth. fold a. cbn [a assemble_args a_phi0]. ring.
    - rewrite (streams_eq p V) in Hi. exact Hi.
  Qed.

  Theorem flux_up_reports tau b1 : depths_ok p tau -> exists A, cl_flux_up a sv tau false b1 = Ok (if b1 then PTup [PT A; PA (p_tau p)] else PVal (PT A)) /\
    squeezed A [length tau] (fun idx => 2 * PI * rsum N (fun i => quad_W p lg i * nth i (mu_arr p lg) 0 * U 0%nat i (nth (nth 0 idx 0%nat) tau 0))).
  Proof.
    intros Ht. unfold cl_flux_up, tau_check. rewrite range_ok by auto. cbn [check bind].
    destruct (flux_up_val a sv (g_NL a Ha) (g_len a Ha) HKne tau Ht (g_NF a Ha)) as (C & HC & SC & EC). rewrite HC. cbn [bind].
    exists (tscal r (tsqueeze C)). split; [destruct b1; reflexivity|].
    apply squeezed_scal; [exact SC|]. intros idx Hi. apply inb_1 in Hi as (i & -> & Hi). cbn [nth]. rewrite EC by auto.
    rewrite <- !rsum_scal. apply rsum_ext. intros q Hq. rewrite mu_arr_node by (change (a_N a) with N in Hq; unfold N in Hq; lia). unfold node.
    rewrite (proj2 (Nat.ltb_lt q (half p))) by auto. unfold U, Umode, muW. fold a. cbn [a assemble_args a_mu a_W]. ring.
  Qed.

  (** Direct beam at optical depth [t]. *)
  Theorem flux_down_reports tau b1 : depths_ok p tau -> exists A B, cl_flux_down a sv tau false b1 = Ok (PTup (PT A :: PT B :: if b1 then [PA (p_tau p)] else [])) /\
    squeezed A [length tau] (fun idx => let t := nth (nth 0 idx 0%nat) tau 0 in
      2 * PI * rsum N (fun i => quad_W p lg i * nth i (mu_arr p lg) 0 * U 0%nat (N + i)%nat t)
      + p_mu0 p * p_I0 p * exp (- depth_s p (layer_of a t) t / p_mu0 p) - p_mu0 p * p_I0 p * exp (- t / p_mu0 p)) /\
    (0 < p_I0 p -> squeezed B [length tau] (fun idx => p_mu0 p * p_I0 p * exp (- nth (nth 0 idx 0%nat) tau 0 / p_mu0 p))) /\
    (p_I0 p = 0 -> squeezed B [] (fun _ => 0)).
  Proof.
    intros Ht. unfold cl_flux_down, tau_check. rewrite range_ok by auto. cbn [check bind].
    destruct (flux_down_val a sv (g_NL a Ha) (g_len a Ha) HKne tau Ht (g_NF a Ha)) as (C & HC & SC & EC). rewrite HC. cbn [bind].
    exists (tscal r (tsqueeze C)), (tscal r (tsqueeze (direct_beam a false tau))). split; [reflexivity|]. split; [|split].
    - apply squeezed_scal; [exact SC|]. intros idx Hi. apply inb_1 in Hi as (i & -> & Hi). cbn [nth]. rewrite EC by auto.
      assert (Hb : nth i tau 0 <= bottom p) by (apply Ht, nth_In; auto).
      unfold dirb_s. pose proof (scaled_of_depth p V lg Hlg ss r _ Hb) as Hsc. fold a in Hsc. rewrite Hsc.
      set (t := nth i tau 0) in *. change (a_N a) with N in *.
      rewrite Rmult_minus_distr_l, Rmult_plus_distr_l. f_equal; [f_equal|].
      + rewrite <- !rsum_scal. apply rsum_ext. intros q Hq. rewrite mu_arr_node by (fold N; lia). unfold node.
        rewrite (proj2 (Nat.ltb_lt q (half p))) by auto. unfold U, Umode, muW. fold a. cbn [a assemble_args a_mu a_W]. ring.
      + cbn [a assemble_args a_beam a_I0 a_mu0]. unfold has_beam. destruct (Rltb 0 (p_I0 p)) eqn:Eb.
        * rewrite <- (unscale r (p_I0 p)) at 2 by (apply (r_I0 p V ss r Hr)). ring.
        * apply Rltb_false in Eb. pose proof (v_I0 p V). replace (p_I0 p) with 0 by lra. ring.
      + unfold dirb. cbn [a assemble_args a_beam a_I0 a_mu0]. unfold has_beam. destruct (Rltb 0 (p_I0 p)) eqn:Eb.
        * rewrite <- (unscale r (p_I0 p)) at 2 by (apply (r_I0 p V ss r Hr)). ring.
        * apply Rltb_false in Eb. pose proof (v_I0 p V). replace (p_I0 p) with 0 by lra. ring.
    - intros HI. unfold direct_beam. cbn [a assemble_args a_beam]. unfold has_beam. rewrite (proj2 (Rltb_iff 0 (p_I0 p)) HI).
      apply squeezed_scal; [cbn; rewrite map_length; reflexivity|]. intros idx Hi. apply inb_1 in Hi as (i & -> & Hi). cbn [nth t1 elt hd].
      rewrite (nth_map_d _ tau i 0 0) by auto. cbn [a_I0 a_mu0]. rewrite <- (unscale r (p_I0 p)) at 1 by (apply (r_I0 p V ss r Hr)). cbn [a assemble_args a_I0 a_mu0]. ring.
    - intros HI. unfold direct_beam. cbn [a assemble_args a_beam]. unfold has_beam. replace (Rltb 0 (p_I0 p)) with false by (symmetry; apply Rltb_false; lra).
      apply squeezed_scal; [reflexivity|]. intros idx Hi. cbn [t0 elt]. ring.
  Qed.
End Sol.
