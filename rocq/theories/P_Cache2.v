(** Solving with cached surface modes. *)
From Coq Require Import String Reals Lra Lia List Bool Arith ZArith.
From Verif Require Import Base Tensor Spec M_LinAlg M_Subroutines M_GenPart M_MathscrV M_Coeffs M_Assemble M_Pydisort Spec_Sol Spec_Cache.
From Verif Require Import P_Tensor P_Sub P_Sub2 P_Sub3 P_MathscrV P_Coeffs3 P_Solve P_Pydisort2 P_Pydisort3 P_Cache.
Import ListNotations.
Local Open Scope R_scope.

Section Read.
  Variable g : sc_in.
  Let N := sc_N g.
  Let nodes := vlist (sc_N g) (sc_mu g).
  Hypothesis HN : (1 <= N)%nat.

  Lemma bd_R_fun m f A : f nodes nodes = VArr A -> shp A = [N; N] -> exists R, bd_R g m (MFun f) = Ok R /\
    forall i j, (i < N)%nat -> (j < N)%nat -> R i j = (if Nat.eqb m 0 then 2 else 1) * elt A [i; j] * sc_muW g j.
  Proof.
    intros Hf SA. unfold bd_R. fold N. set (W := tnew 0 (tvec N (sc_muW g))).
    assert (SW : shp W = [1%nat; N]) by reflexivity.
    set (D0 := tscal (if Nat.eqb m 0 then 2 else 1) (bd_D g (MFun f))).
    assert (EA : bd_D g (MFun f) = A). { unfold bd_D. fold nodes. rewrite Hf. reflexivity. }
    assert (SD : shp D0 = [N; N]). { unfold D0. rewrite EA. exact SA. }
    destruct (bcast2_2 Rmult D0 W N N 1 N N N SD SW (bc_1r N) (bc_same N)) as (C & HC & SC & EC).
    unfold tmul. rewrite HC. cbn [bind]. rewrite SC, !Nat.eqb_refl. cbn [andb orb].
    eexists. split; [reflexivity|]. intros i j Hi Hj. cbn beta. rewrite EC, bi_1, !(bi_lt N i), !(bi_lt N j) by auto.
    unfold D0, W. rewrite EA. cbn -[Rmult INR]. reflexivity.
  Qed.
  Lemma bd_R_scalar m f r : f nodes nodes = VScal r -> bd_R g m (MFun f) = bd_R g m (MScal r).
  Proof. intros H. unfold bd_R. replace (bd_D g (MFun f)) with (bd_D g (MScal r)); [reflexivity|]. unfold bd_D. fold nodes. rewrite H. reflexivity. Qed.
  Lemma bd_X_fun f A : f nodes [sc_mu0 g] = VArr A -> shp A = [N; 1%nat] -> exists X, bd_X g (MFun f) = Ok X /\
    forall i, (i < N)%nat -> X i = sc_mu0 g * sc_I0_div_4pi g * 4 * elt A [i; 0%nat].
  Proof.
    intros Hf SA. unfold bd_X. fold nodes. rewrite Hf, SA. cbn [Nat.eqb]. unfold as_vec. cbn [shp]. fold N. rewrite Nat.eqb_refl. cbn [orb].
    eexists. split; [reflexivity|]. intros i Hi. cbn -[Rmult]. rewrite bi_lt by auto. reflexivity.
  Qed.

  (** A mode whose values at the nodes and at the direction of the beam are [D] and [X]. *)
  Definition reads (md : bmode) (D : mat) (X : vec) : Prop :=
    (exists f A, md = MFun f /\ f nodes nodes = VArr A /\ shp A = [N; N] /\ (forall i j, (i < N)%nat -> (j < N)%nat -> elt A [i; j] = D i j) /\
       (sc_beam g = true -> exists B, f nodes [sc_mu0 g] = VArr B /\ shp B = [N; 1%nat] /\ forall i, (i < N)%nat -> elt B [i; 0%nat] = X i)) \/
    (exists r, md = MScal r /\ (forall i j, (i < N)%nat -> (j < N)%nat -> D i j = r) /\ (sc_beam g = true -> forall i, (i < N)%nat -> X i = r)) \/
    (exists f r, md = MFun f /\ f nodes nodes = VScal r /\ sc_beam g = false /\ forall i j, (i < N)%nat -> (j < N)%nat -> D i j = r).

  Lemma reads_terms md D X m : reads md D X ->
    exists R Y, bd_R g m md = Ok R /\ (if sc_beam g then bd_X g md else Ok (fun _ => 0)) = Ok Y /\
    (forall i j, (i < N)%nat -> (j < N)%nat -> R i j = (if Nat.eqb m 0 then 2 else 1) * D i j * sc_muW g j) /\
    forall i, (i < N)%nat -> Y i = if sc_beam g then sc_mu0 g * sc_I0_div_4pi g * 4 * X i else 0.
  Proof.
    assert (K : forall r, mode_is (MScal r) (fun _ _ => r)) by (intros r; left; exists r; auto).
    intros [(f & A & -> & Hf & SA & HA & HB)|[(r & -> & HD & HX)|(f & r & -> & Hf & Hb & HD)]].
    - destruct (bd_R_fun m f A Hf SA) as (R & HR & ER). exists R.
      destruct (sc_beam g) eqn:Eb.
      + destruct (HB eq_refl) as (B & HfB & SB & EB). destruct (bd_X_fun f B HfB SB) as (Y & HY & EY). exists Y.
        split; [exact HR|]. split; [exact HY|]. split; [intros; rewrite ER, HA by auto; reflexivity|]. intros; rewrite EY, EB by auto; reflexivity.
      + exists (fun _ => 0). split; [exact HR|]. split; [reflexivity|]. split; [intros; rewrite ER, HA by auto; reflexivity|]. auto.
    - destruct (bd_R_val g m _ _ HN (K r)) as (R & HR & ER). destruct (bd_X_val g _ _ HN (K r)) as (Y & HY & EY). exists R.
      exists (if sc_beam g then Y else fun _ => 0).
      split; [exact HR|]. split; [rewrite HY; destruct (sc_beam g); reflexivity|].
      split; [intros; rewrite ER, HD by auto; reflexivity|]. intros i Hi. destruct (sc_beam g); auto. rewrite EY by auto. rewrite (HX eq_refl i Hi). reflexivity.
    - destruct (bd_R_val g m _ _ HN (K r)) as (R & HR & ER). exists R, (fun _ => 0). rewrite (bd_R_scalar m f r Hf), Hb.
      split; [exact HR|]. split; [reflexivity|]. split; [intros; rewrite ER, HD by auto; reflexivity|]. auto.
  Qed.

  Lemma reads_same md md' D X m l : (m < length (sc_BDRF g))%nat -> (m < length l)%nat ->
    nth m (sc_BDRF g) (MScal 0) = md -> nth m l (MScal 0) = md' -> reads md D X -> reads md' D X ->
    bd_same N (bd_terms g m) (bd_terms (sc_with g l) m).
  Proof.
    intros H1 H2 E1 E2 R1 R2. unfold bd_terms. cbn [sc_with sc_BDRF sc_beam].
    apply Nat.ltb_lt in H1. apply Nat.ltb_lt in H2. rewrite H1, H2, E1, E2.
    change (bd_R (sc_with g l) m) with (bd_R g m). change (bd_X (sc_with g l)) with (bd_X g).
    destruct (reads_terms md D X m R1) as (Ra & Ya & HRa & HYa & ERa & EYa).
    destruct (reads_terms md' D X m R2) as (Rb & Yb & HRb & HYb & ERb & EYb).
    rewrite HRa, HRb. cbn [bind]. rewrite HYa, HYb. cbn [bind bd_same]. split.
    - intros i j Hi Hj. rewrite ERa, ERb by auto. reflexivity.
    - intros i Hi. rewrite EYa, EYb by auto. reflexivity.
  Qed.
End Read.

Lemma mode_reads g md rho : mode_is md rho ->
  reads g md (fun i j => rho (sc_mu g i) (sc_mu g j)) (fun i => rho (sc_mu g i) (sc_mu0 g)).
Proof.
  intros [(x & -> & Hx)| ->].
  - right. left. exists x. auto.
  - left. unfold pointwise_mode. eexists. eexists. split; [reflexivity|]. split; [reflexivity|]. cbn [tmat shp]. rewrite len_vlist.
    split; [reflexivity|]. split; [intros i j Hi Hj; cbn [elt nth tmat]; rewrite !nth_vlist by auto; reflexivity|].
    intros _. eexists. split; [reflexivity|]. split; [reflexivity|]. intros i Hi. cbn [elt nth tmat]. rewrite nth_vlist by auto. reflexivity.
Qed.
Lemma reads_ext g md D X D' X' : reads g md D X -> (forall i j, (i < sc_N g)%nat -> (j < sc_N g)%nat -> D i j = D' i j) ->
  (sc_beam g = true -> forall i, (i < sc_N g)%nat -> X i = X' i) -> reads g md D' X'.
Proof.
  intros [(f & A & E & Hf & SA & HA & HB)|[(r & E & HD & HX)|(f & r & E & Hf & Hb & HD)]] H1 H2.
  - left. exists f, A. repeat (split; [assumption|]). split; [intros; rewrite HA by auto; auto|].
    intros Hb. destruct (HB Hb) as (B & HfB & SB & EB). exists B. repeat (split; [assumption|]). intros; rewrite EB by auto; auto.
  - right. left. exists r. split; [exact E|]. split; [intros; rewrite <- H1 by auto; auto|]. intros Hb i Hi. rewrite <- (H2 Hb i Hi). auto.
  - right. right. exists f, r. repeat (split; [assumption|]). intros; rewrite <- H1 by auto; auto.
Qed.

(** Surfaces with the same values in the directions of the quadrature, and of the beam if there is one. *)
Lemma surface_nodes p lg la jk l l' rho rho' : leggauss_ok (half p) (lg (half p)) -> (1 <= half p)%nat -> length l = length l' ->
  (forall m, (m < length l)%nat -> mode_is (nth m l (MScal 0)) (rho m) /\ mode_is (nth m l' (MScal 0)) (rho' m)) ->
  (forall m x y, (m < length l)%nat -> In x (fst (Gauss_Legendre_quad lg (half p) 0 1)) -> In y (fst (Gauss_Legendre_quad lg (half p) 0 1)) -> rho m x y = rho' m x y) ->
  (0 < p_I0 p -> forall m x, (m < length l)%nat -> In x (fst (Gauss_Legendre_quad lg (half p) 0 1)) -> rho m x (p_mu0 p) = rho' m x (p_mu0 p)) ->
  pydisort (with_surface p l) lg la jk = pydisort (with_surface p l') lg la jk.
Proof.
  intros Hlg HN HL Hm Hn Hb. symmetry. change (with_surface p l') with (with_surface (with_surface p l) l'). apply pydisort_surface. intros r ss o m _.
  change (sc_of (assemble_args (with_surface (with_surface p l) l') lg r ss) o) with (sc_with (sc_of (assemble_args (with_surface p l) lg r ss) o) l').
  set (g := sc_of (assemble_args (with_surface p l) lg r ss) o). change (pN (with_surface p l)) with (sc_N g).
  assert (HI : forall i, (i < sc_N g)%nat -> In (sc_mu g i) (fst (Gauss_Legendre_quad lg (half p) 0 1))).
  { intros i Hi. change (sc_mu g i) with (nth i (fst (Gauss_Legendre_quad lg (half p) 0 1)) 0). apply nth_In.
    rewrite (proj1 (GL_lengths lg (half p) 0 1 Hlg)). exact Hi. }
  destruct (Nat.lt_ge_cases m (length l)) as [Hlt|Hge].
  - destruct (Hm m Hlt) as [M1 M2].
    refine (reads_same g HN _ _ _ _ m l' Hlt _ eq_refl eq_refl (mode_reads g _ _ M1) (reads_ext g _ _ _ _ _ (mode_reads g _ _ M2) _ _)).
    + lia.
    + intros i j Hi Hj. symmetry. apply Hn; auto.
    + intros Eb i Hi. symmetry. apply Hb; auto. change (has_beam p = true) in Eb. apply Rltb_iff in Eb. exact Eb.
  - unfold bd_terms. cbn [sc_with sc_BDRF g sc_of a_BDRF assemble_args with_surface p_BDRF]. rewrite <- HL. apply Nat.ltb_ge in Hge. rewrite Hge. cbn. auto.
Qed.

Lemma cache_length lg n modes mu0 : length (cache_BDRF_Fourier_modes lg n modes mu0) = length modes.
Proof. unfold cache_BDRF_Fourier_modes. destruct (_ && _)%bool; rewrite map_length, seq_length; reflexivity. Qed.

Lemma nodes_eq p lg : leggauss_ok (half p) (lg (half p)) -> vlist (pN p) (quad_mu p lg) = fst (Gauss_Legendre_quad lg (half p) 0 1).
Proof.
  intros H. destruct (GL_lengths lg (half p) 0 1 H) as [L _]. change (pN p) with (half p). unfold vlist, quad_mu. change (pN p) with (half p).
  apply (nth_ext _ _ 0 0).
  - rewrite map_length, seq_length, L. reflexivity.
  - intros i Hi. rewrite map_length, seq_length in Hi. rewrite nth_seq0_map by auto. reflexivity.
Qed.

Section Cached.
  Variable p : py_in.
  Variable lg : leggauss_t.
  Hypothesis Hlg : leggauss_ok (half p) (lg (half p)).
  Hypothesis HN : (1 <= half p)%nat.
  Variable rho : nat -> R -> R -> R.
  Variable mc : R.
  Let nodes := fst (Gauss_Legendre_quad lg (half p) 0 1).
  Let L : length nodes = half p := proj1 (GL_lengths lg (half p) 0 1 Hlg).
  Hypothesis Hrho : forall m, (m < length (p_BDRF p))%nat -> mode_is (nth m (p_BDRF p) (MScal 0)) (rho m).
  Hypothesis Hsc : forall m r, (m < length (p_BDRF p))%nat -> nth m (p_BDRF p) (MScal 0) = MScal r -> p_I0 p <= 0.

  Lemma no_beam g r ss o : g = sc_of (assemble_args p lg r ss) o -> p_I0 p <= 0 -> sc_beam g = false.
  Proof. intros -> H. change (has_beam p = false). unfold has_beam. apply Rltb_f. lra. Qed.

  Lemma cached_reads r ss o m : (m < length (p_BDRF p))%nat ->
    let g := sc_of (assemble_args p lg r ss) o in
    ((2 <= half p)%nat \/ ~ (0 < mc <= 1)) -> (0 < mc <= 1 -> p_I0 p <= 0 \/ mc = p_mu0 p) ->
    reads g (nth m (p_BDRF p) (MScal 0)) (fun i j => rho m (nth i nodes 0) (nth j nodes 0)) (fun i => rho m (nth i nodes 0) (p_mu0 p)) /\
    reads g (nth m (cache_BDRF_Fourier_modes lg (half p) (p_BDRF p) mc) (MScal 0))
      (fun i j => rho m (nth i nodes 0) (nth j nodes 0)) (fun i => rho m (nth i nodes 0) (p_mu0 p)).
  Proof.
    intros Hm g Hn Hmc.
    assert (EN : vlist (sc_N g) (sc_mu g) = nodes) by (apply nodes_eq; auto).
    assert (ENN : sc_N g = half p) by reflexivity. assert (Eb : sc_beam g = true -> ~ p_I0 p <= 0).
    { intros Hb HI. rewrite (no_beam g r ss o eq_refl HI) in Hb. discriminate. }
    assert (Em : sc_mu0 g = p_mu0 p) by reflexivity.
    unfold reads. rewrite EN, ENN, Em. clearbody g.
    unfold cache_BDRF_Fourier_modes. fold nodes.
    specialize (Hrho m Hm). specialize (Hsc m).
    destruct Hrho as [(x & Ex & Hx)|Ex]; rewrite Ex.
    - assert (HI : p_I0 p <= 0) by (apply (Hsc x); auto). assert (sc_beam g = false) by (destruct (sc_beam g) eqn:E; auto; exfalso; apply Eb; auto).
      split; [right; left; exists x; auto|].
      right. right. destruct (Rltb 0 mc && Rleb mc 1)%bool; rewrite nth_seq0_map by auto;
        eexists; exists x; (split; [reflexivity|]); rewrite (nth_map_d _ _ _ (MScal 0)) by auto; rewrite Ex; auto.
    - split.
      + left. unfold pointwise_mode. eexists. eexists. split; [reflexivity|]. split; [reflexivity|]. cbn [tmat shp]. rewrite L.
        split; [reflexivity|]. split; [reflexivity|]. intros _. eexists. split; [reflexivity|]. split; [reflexivity|]. reflexivity.
      + left. destruct (Rltb 0 mc && Rleb mc 1)%bool eqn:Ec.
        * apply andb_prop in Ec as [E1 E2]. apply Rltb_iff in E1. apply Rleb_iff in E2.
          assert (Hn2 : (2 <= half p)%nat) by (destruct Hn as [|Hn]; auto; exfalso; apply Hn; lra).
          rewrite nth_seq0_map by auto. eexists. eexists. split; [reflexivity|].
          rewrite (nth_map_d _ _ _ (MScal 0)) by auto. rewrite Ex. cbn [pointwise_mode].
          rewrite L. replace (Nat.eqb (half p) 1) with false by (symmetry; apply Nat.eqb_neq; lia).
          split; [reflexivity|]. cbn [but_last_col tmat shp elt nth]. rewrite app_length, L. cbn [length].
          split; [f_equal; f_equal; lia|]. split; [intros i j Hi Hj; rewrite app_nth1 by lia; reflexivity|].
          intros Hb. specialize (Eb Hb). eexists. split; [reflexivity|]. cbn [last_col tmat shp elt nth hd].
          split; [reflexivity|]. intros i Hi. rewrite ?app_length, ?L. cbn [length]. rewrite app_nth2 by lia.
          replace (half p + 1 - 1 - length nodes)%nat with 0%nat by lia. cbn [nth]. destruct (Hmc (conj E1 E2)) as [|E]; [tauto|]. rewrite E. reflexivity.
        * rewrite nth_seq0_map by auto. eexists. exists (tmat (half p) (half p) (fun i j => rho m (nth i nodes 0) (nth j nodes 0))). split; [reflexivity|].
          rewrite (nth_map_d _ _ _ (MScal 0)) by auto. rewrite Ex. cbn [pointwise_mode]. rewrite L.
          split; [destruct (Nat.eqb (half p) 1); reflexivity|]. split; [reflexivity|]. split; [reflexivity|].
          intros _. eexists. split; [reflexivity|]. cbn [tmat shp length]. split; reflexivity.
  Qed.

  Lemma cached_same la jk :
    ((2 <= half p)%nat \/ ~ (0 < mc <= 1)) -> (0 < mc <= 1 -> p_I0 p <= 0 \/ mc = p_mu0 p) ->
    pydisort (with_surface p (cache_BDRF_Fourier_modes lg (half p) (p_BDRF p) mc)) lg la jk = pydisort p lg la jk.
  Proof.
    intros Hn Hmc. apply pydisort_surface. intros r ss o m _.
    change (sc_of (assemble_args (with_surface p ?l) lg r ss) o) with (sc_with (sc_of (assemble_args p lg r ss) o) l).
    destruct (Nat.lt_ge_cases m (length (p_BDRF p))) as [Hm|Hm].
    - destruct (cached_reads r ss o m Hm Hn Hmc) as [R1 R2].
      refine (reads_same (sc_of (assemble_args p lg r ss) o) HN _ _ _ _ m _ Hm _ eq_refl eq_refl R1 R2).
      rewrite cache_length; exact Hm.
    - unfold bd_terms. cbn [sc_of sc_with sc_BDRF a_BDRF assemble_args]. rewrite cache_length. apply Nat.ltb_ge in Hm. rewrite Hm. cbn. auto.
  Qed.
End Cached.

(** With one node per hemisphere a cache built for a beam direction hands out the column of the beam
    whatever is asked for: the surface becomes another one. *)
Lemma cached_two_streams p lg la jk rhos mc : leggauss_ok 1 (lg 1%nat) -> half p = 1%nat -> 0 < mc <= 1 ->
  pydisort (with_surface p (cache_BDRF_Fourier_modes lg 1 (map pointwise_mode rhos) mc)) lg la jk =
  pydisort (with_surface p (map (fun f => pointwise_mode (fun x _ => f x mc)) rhos)) lg la jk.
Proof.
  intros Hlg H1 Hmc. set (l' := cache_BDRF_Fourier_modes lg 1 (map pointwise_mode rhos) mc).
  set (q := with_surface p (map (fun f => pointwise_mode (fun x _ => f x mc)) rhos)).
  change (with_surface p l') with (with_surface q l'). apply pydisort_surface. intros r ss o m _.
  change (sc_of (assemble_args (with_surface q l') lg r ss) o) with (sc_with (sc_of (assemble_args q lg r ss) o) l').
  set (g := sc_of (assemble_args q lg r ss) o).
  assert (HL : length (sc_BDRF g) = length rhos) by (cbn; rewrite map_length; reflexivity).
  assert (HL' : length l' = length rhos) by (unfold l'; rewrite cache_length, map_length; reflexivity).
  assert (ENN : sc_N g = 1%nat) by exact H1.
  change (pN q) with (sc_N g).
  destruct (Nat.lt_ge_cases m (length rhos)) as [Hm|Hm].
  - pose proof (proj1 (GL_lengths lg 1 0 1 Hlg)) as L. set (nodes := fst (Gauss_Legendre_quad lg 1 0 1)) in *.
    assert (EN : vlist (sc_N g) (sc_mu g) = nodes).
    { unfold nodes. rewrite <- H1. apply (nodes_eq q). change (half q) with (half p). rewrite H1. exact Hlg. }
    set (f := nth m rhos (fun _ _ => 0)).
    apply (reads_same g (eq_ind_r (fun n => (1 <= n)%nat) (le_n 1) ENN) (nth m (sc_BDRF g) (MScal 0)) (nth m l' (MScal 0))
             (fun i j => f (nth i nodes 0) mc) (fun i => f (nth i nodes 0) mc)); auto; try lia; unfold reads; rewrite EN, ENN; left.
    + cbn [sc_of g sc_BDRF a_BDRF assemble_args q with_surface p_BDRF]. rewrite (nth_map_d _ _ _ (fun _ _ => 0)) by auto. fold f.
      unfold pointwise_mode. eexists. eexists. split; [reflexivity|]. split; [reflexivity|]. cbn [tmat shp]. rewrite L.
      split; [reflexivity|]. split; [reflexivity|]. intros _. eexists. split; [reflexivity|]. split; reflexivity.
    + unfold l', cache_BDRF_Fourier_modes. fold nodes.
      replace (Rltb 0 mc && Rleb mc 1)%bool with true by (symmetry; apply andb_true_intro; split; [apply Rltb_iff|apply Rleb_iff]; lra).
      rewrite map_length, nth_seq0_map by auto. eexists. eexists. split; [reflexivity|].
      rewrite (nth_map_d _ _ _ (MScal 0)) by (rewrite map_length; auto). rewrite (nth_map_d _ _ _ (fun _ _ => 0)) by auto. fold f. cbn [pointwise_mode].
      rewrite L. cbn [Nat.eqb]. split; [reflexivity|]. cbn [last_col tmat shp elt nth hd]. rewrite app_length, L. cbn [length].
      assert (E0 : nth (1 + 1 - 1) (nodes ++ [mc]) 0 = mc) by (rewrite app_nth2 by lia; rewrite L; reflexivity).
      split; [reflexivity|]. split; [intros i j _ _; rewrite E0; reflexivity|].
      intros _. eexists. split; [reflexivity|]. cbn [last_col tmat shp elt nth hd]. split; [reflexivity|]. intros i _. rewrite ?app_length, ?L. cbn [length]. rewrite E0. reflexivity.
  - unfold bd_terms. cbn [sc_with sc_BDRF]. rewrite HL, HL'. apply Nat.ltb_ge in Hm. rewrite Hm. cbn. auto.
Qed.

(** A cached scalar mode is a function whose value is a number: the column of the beam cannot be taken. *)
Lemma cached_scalar_fails p lg la jk mc m x : leggauss_ok (half p) (lg (half p)) -> (m < length (p_BDRF p))%nat -> (m < nmodes p)%nat ->
  nth m (p_BDRF p) (MScal 0) = MScal x -> 0 < p_I0 p ->
  forall out, pydisort (with_surface p (cache_BDRF_Fourier_modes lg (half p) (p_BDRF p) mc)) lg la jk <> Ok out.
Proof.
  intros Hlg Hm Hnf Ex HI out Hok. set (l := cache_BDRF_Fourier_modes lg (half p) (p_BDRF p) mc) in *.
  destruct (pydisort_parts _ _ _ _ _ Hok) as (V & ss & r & sv & Hss & Hr & Hsv & _).
  pose proof (a_good (with_surface p l) V lg Hlg ss r) as Ha.
  destruct (solve_parts _ Ha la jk sv Hsv) as (o & _ & _ & _ & _ & _ & H).
  assert (Hnf' : (m < pNF (with_surface p l))%nat) by (rewrite <- nmodes_eq; exact Hnf).
  destruct (H m Hnf') as (C & HC & _). unfold mode_coeffs in HC. apply bind_Ok in HC as (bd & Hbd & _). unfold bd_terms in Hbd.
  set (g := sc_of (assemble_args (with_surface p l) lg r ss) o) in *.
  assert (HL : Nat.ltb m (length (sc_BDRF g)) = true).
  { apply Nat.ltb_lt. change (sc_BDRF g) with l. unfold l. rewrite cache_length. exact Hm. }
  rewrite HL in Hbd. apply bind_Ok in Hbd as (R & _ & Hbd). apply bind_Ok in Hbd as (X & HX & _).
  assert (Eb : sc_beam g = true) by (apply Rltb_iff; exact HI). rewrite Eb in HX. change (sc_BDRF g) with l in HX.
  unfold l, cache_BDRF_Fourier_modes in HX.
  destruct (Rltb 0 mc && Rleb mc 1)%bool; rewrite nth_seq0_map in HX by auto; unfold bd_X in HX;
    rewrite (nth_map_d _ _ _ (MScal 0)) in HX by auto; rewrite Ex in HX; discriminate HX.
Qed.

Lemma scalar_constant p lg la jk rs : leggauss_ok (half p) (lg (half p)) -> (1 <= half p)%nat ->
  pydisort (with_surface p (map MScal rs)) lg la jk = pydisort (with_surface p (map (fun r => pointwise_mode (fun _ _ => r)) rs)) lg la jk.
Proof.
  intros Hlg HN. apply (surface_nodes p lg la jk _ _ (fun m _ _ => nth m rs 0) (fun m _ _ => nth m rs 0)); auto; rewrite map_length.
  - rewrite map_length. reflexivity.
  - intros m Hm. rewrite !(nth_map_d _ _ _ 0) by auto. split; [left; eexists; split; [reflexivity|auto]|right; reflexivity].
Qed.
