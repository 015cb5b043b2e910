(** pydisort looks at a surface through the values its modes take at the quadrature nodes only. *)
From Coq Require Import String Reals Lra Lia List Bool Arith ZArith FunctionalExtensionality.
From Verif Require Import Base Tensor Spec M_LinAlg M_Subroutines M_GenPart M_MathscrV M_Coeffs M_Assemble M_Pydisort Spec_Cache.
Import ListNotations.
Local Open Scope R_scope.

(** The BDRF terms of a mode agree where they are used. *)
Definition bd_same (n : nat) (a b : res (option (mat * vec))) : Prop :=
  match a, b with
  | Ok None, Ok None => True
  | Ok (Some (A, X)), Ok (Some (B, Y)) =>
      (forall i j, (i < n)%nat -> (j < n)%nat -> A i j = B i j) /\ (forall i, (i < n)%nat -> X i = Y i)
  | Err e, Err e' => e = e'
  | _, _ => False
  end.
Lemma bd_same_refl n a : bd_same n a a.
Proof. destruct a as [[[]|]|]; cbn; auto. Qed.

Lemma setseg_ext v i0 k w w' : (forall i, (i < k)%nat -> w i = w' i) -> setseg v i0 k w = setseg v i0 k w'.
Proof.
  intros H. apply functional_extensionality. intros i. unfold setseg.
  destruct (Nat.leb i0 i && Nat.ltb i (i0 + k))%bool eqn:E; auto.
  apply andb_prop in E as [E1 E2]. apply Nat.leb_le in E1. apply Nat.ltb_lt in E2. apply H. lia.
Qed.
Lemma opseg_ext f v i0 k w w' : (forall i, (i < k)%nat -> w i = w' i) -> opseg f v i0 k w = opseg f v i0 k w'.
Proof. intros H. apply setseg_ext. intros i Hi. rewrite H; auto. Qed.
Lemma setrect_ext M r0 r1 c0 c1 A B : (forall i j, (i < r1 - r0)%nat -> (j < c1 - c0)%nat -> A i j = B i j) ->
  setrect M r0 r1 c0 c1 A = setrect M r0 r1 c0 c1 B.
Proof.
  intros H. apply functional_extensionality. intros i. apply functional_extensionality. intros j.
  unfold setrect, setblk. match goal with |- (if ?b then _ else _) = _ => destruct b eqn:E end; auto.
  repeat (apply andb_prop in E as [E ?]).
  repeat match goal with H : Nat.leb _ _ = true |- _ => apply Nat.leb_le in H | H : Nat.ltb _ _ = true |- _ => apply Nat.ltb_lt in H end.
  apply H; lia.
Qed.
Lemma rsum_ext_in n f g : (forall i, (i < n)%nat -> f i = g i) -> rsum n f = rsum n g.
Proof. intros H. induction n; auto. cbn [rsum]. rewrite IHn, H; auto. Qed.

Section Coef.
  Variable g : sc_in.
  Variables b1 b2 : option (mat * vec).
  Hypothesis Hb : bd_same (sc_N g) (Ok b1) (Ok b2).

  Lemma rhs_iso_same m r : rhs_iso g m b1 r = rhs_iso g m b2 r.
  Proof.
    unfold rhs_iso. destruct (Nat.eqb m 0 && sc_iso g)%bool; auto. cbv zeta.
    destruct (v_at g [0%nat] _ _ _ _) as [vt|]; auto. cbn [bind].
    match goal with |- bind ?a _ = bind ?a _ => destruct a as [r1|] end; auto. cbn [bind].
    destruct (v_at g _ 0 _ _ _) as [vb|]; auto. cbn [bind].
    destruct b1 as [[A X]|], b2 as [[B Y]|]; cbn [bd_same] in Hb; try tauto.
    destruct (v_at g _ (sc_N g) _ _ _) as [vn|]; auto. cbn [bind]. f_equal. apply opseg_ext.
    intros i Hi. unfold mvec. apply rsum_ext_in. intros j Hj. destruct Hb as [Hb1 _]. rewrite Hb1; auto.
  Qed.
  Lemma rhs_beam_same m r : rhs_beam g m b1 r = rhs_beam g m b2 r.
  Proof.
    unfold rhs_beam. destruct (sc_beam g); auto. cbv zeta.
    destruct b1 as [[A X]|], b2 as [[B Y]|]; cbn [bd_same] in Hb; try tauto. destruct Hb as [Hb1 Hb2].
    apply opseg_ext. intros i Hi. rewrite Hb2 by auto. do 3 f_equal. unfold mvec. apply rsum_ext_in. intros j Hj. rewrite Hb1; auto.
  Qed.
  Lemma minus_R_same A B i j : (i < sc_N g)%nat -> minus_R g b1 A B i j = minus_R g b2 A B i j.
  Proof.
    intros Hi. unfold minus_R. destruct b1 as [[A1 X]|], b2 as [[B1 Y]|]; cbn [bd_same] in Hb; try tauto. destruct Hb as [Hb1 _].
    f_equal. unfold mmul. apply rsum_ext_in. intros k Hk. rewrite Hb1; auto.
  Qed.
  Lemma dense_same m M : dense_lhs g m b1 M = dense_lhs g m b2 M.
  Proof.
    unfold dense_lhs. cbv zeta. f_equal.
    erewrite (setrect_ext _ _ _ _ _ (bot_left g m b1)); [erewrite (setrect_ext _ _ _ _ _ (bot_right g m b1)); [reflexivity|]|];
      intros i j Hi Hj; unfold bot_left, bot_right, scale_cols; rewrite ?minus_R_same by lia; reflexivity.
  Qed.
  Lemma view_set_ext i0 j0 nr A B F : (forall i j, (i < nr)%nat -> (j < sc_N g)%nat -> A i j = B i j) ->
    view_set g i0 j0 nr A F = view_set g i0 j0 nr B F.
  Proof.
    intros H. unfold view_set. destruct (forallb _ _); auto. f_equal.
    assert (HI : forall ab, In ab (view_cells g nr) -> (fst ab < nr)%nat /\ (snd ab < sc_N g)%nat).
    { intros [a b] HI. apply in_prod_iff in HI as [H1 H2]. apply in_seq in H1. apply in_seq in H2. cbn. lia. }
    revert F HI. generalize (view_cells g nr). intros l. induction l as [|ab l IH]; intros F HI; auto. cbn [fold_left].
    rewrite IH by (intros; apply HI; right; auto). destruct (HI ab (or_introl eq_refl)). rewrite H; auto.
  Qed.
  Lemma band_same m F : band_lhs g m b1 F = band_lhs g m b2 F.
  Proof.
    unfold band_lhs. cbv zeta.
    destruct (view_set g 0 0 _ _ _) as [F1|]; auto. cbn [bind].
    destruct (view_set g 0 _ _ _ F1) as [F2|]; auto. cbn [bind].
    rewrite (view_set_ext _ _ _ (bot_left g m b1) (bot_left g m b2)).
    2: { intros i j Hi Hj. unfold bot_left, scale_cols. rewrite minus_R_same by auto. reflexivity. }
    destruct (view_set g _ _ _ _ F2) as [F3|]; auto. cbn [bind].
    rewrite (view_set_ext _ _ _ (bot_right g m b1) (bot_right g m b2)); [reflexivity|].
    intros i j Hi Hj. unfold bot_right. apply minus_R_same; auto.
  Qed.
End Coef.

(** The inputs of the coefficient solver with other modes. *)
Definition sc_with (g : sc_in) (l : list bmode) : sc_in :=
  mkSC (sc_NFourier g) (sc_G g) (sc_K g) (sc_B g) (sc_gmi g) (sc_tau0 g) (sc_mu g) (sc_muW g) (sc_N g) (sc_NLayers g) (sc_multi g) l
    (sc_mu0 g) (sc_I0_div_4pi g) (sc_beam g) (sc_bpos g) (sc_bneg g) (sc_bpos_scalar g) (sc_bneg_scalar g) (sc_bpos_vector g) (sc_bneg_vector g)
    (sc_Ns g) (sc_s g) (sc_iso g) (sc_banded g).

Lemma step_same g l la clob s m : bd_same (sc_N g) (bd_terms g m) (bd_terms (sc_with g l) m) ->
  sc_step g la clob s m = sc_step (sc_with g l) la clob s m.
Proof.
  intros H. unfold sc_step.
  destruct (bd_terms g m) as [b1|e1], (bd_terms (sc_with g l) m) as [b2|e2]; cbn [bd_same] in H; try tauto;
    try (destruct b1 as [[]|]; tauto); [|subst; reflexivity].
  cbn [bind]. change (rhs_bc (sc_with g l) m) with (rhs_bc g m). destruct (rhs_bc g m (ss_rhs s)) as [r|]; auto. cbn [bind].
  change (rhs_iso (sc_with g l) m) with (rhs_iso g m). rewrite (rhs_iso_same g b1 b2 H). destruct (rhs_iso g m b2 r) as [r1|]; auto. cbn [bind].
  change (rhs_beam (sc_with g l) m) with (rhs_beam g m). rewrite (rhs_beam_same g b1 b2 H).
  change (band_lhs (sc_with g l) m) with (band_lhs g m). rewrite (band_same g b1 b2 H).
  change (dense_lhs (sc_with g l) m) with (dense_lhs g m). rewrite (dense_same g b1 b2 H). reflexivity.
Qed.

Lemma coeffs_same g l la clob jC jR :
  (forall m, (m < sc_NFourier g)%nat -> bd_same (sc_N g) (bd_terms g m) (bd_terms (sc_with g l) m)) ->
  solve_for_coeffs g la clob jC jR = solve_for_coeffs (sc_with g l) la clob jC jR.
Proof.
  intros H. unfold solve_for_coeffs. cbn [sc_with sc_NFourier sc_G sc_N].
  replace (fold_left (fun rs m => let! s := rs in sc_step (sc_with g l) la clob s m) (seq 0 (sc_NFourier g)) (Ok (mkSS (fun _ _ => 0) (fun _ => 0) jR jC)))
    with (fold_left (fun rs m => let! s := rs in sc_step g la clob s m) (seq 0 (sc_NFourier g)) (Ok (mkSS (fun _ _ => 0) (fun _ => 0) jR jC))); [reflexivity|].
  assert (HI : forall m, In m (seq 0 (sc_NFourier g)) -> (m < sc_NFourier g)%nat) by (intros m Hm; apply in_seq in Hm; lia).
  revert HI. generalize (Ok (mkSS (fun _ _ : nat => 0) (fun _ : nat => 0) jR jC)). generalize (seq 0 (sc_NFourier g)).
  intros q. induction q as [|m q IH]; intros s HI; auto. cbn [fold_left]. rewrite <- IH by (intros; apply HI; right; auto). f_equal.
  destruct s as [s|]; auto. cbn [bind]. apply step_same, H, HI. left; auto.
Qed.

(** ** The whole solver *)
(** Every input of the coefficient solver except the solutions and the sources is read from [p]. *)
Definition surf_eq (p : py_in) (lg : leggauss_t) (l : list bmode) : Prop :=
  forall r ss o m, (m < pNF p)%nat ->
  bd_same (pN p) (bd_terms (sc_of (assemble_args p lg r ss) o) m) (bd_terms (sc_of (assemble_args (with_surface p l) lg r ss) o) m).

Lemma pydisort_surface p lg la jk l : surf_eq p lg l -> pydisort (with_surface p l) lg la jk = pydisort p lg la jk.
Proof.
  intros H. unfold pydisort.
  change (validate (with_surface p l)) with (validate p). destruct (validate p); cbn [bind]; [|reflexivity].
  change (NT_angle_ok (with_surface p l)) with (NT_angle_ok p).
  match goal with |- bind ?a _ = bind ?a _ => destruct a end; cbn [bind]; [|reflexivity].
  change (scaled_s (with_surface p l)) with (scaled_s p). destruct (scaled_s p) as [ss|]; cbn [bind]; [|reflexivity].
  change (rescale (with_surface p l)) with (rescale p). destruct (rescale p ss) as [r|]; cbn [bind]; [|reflexivity].
  replace (solve_all (assemble_args (with_surface p l) lg r ss) la jk) with (solve_all (assemble_args p lg r ss) la jk).
  2: { unfold solve_all. change (gp_of (assemble_args (with_surface p l) lg r ss)) with (gp_of (assemble_args p lg r ss)).
       destruct (gen_and_part_sols _ _ _ _ _ _ _) as [o|]; cbn [bind]; [|reflexivity].
       change (sc_of (assemble_args (with_surface p l) lg r ss) o) with (sc_with (sc_of (assemble_args p lg r ss) o) l).
       rewrite (coeffs_same _ l); [reflexivity|]. intros m Hm. apply H; auto. }
  destruct (solve_all _ _ _) as [sv|]; cbn [bind]; [|reflexivity].
  set (A := assemble_args p lg r ss). set (A' := assemble_args (with_surface p l) lg r ss).
  change (cl_flux_up A' sv) with (cl_flux_up A sv).
  change (cl_flux_down A' sv) with (cl_flux_down A sv).
  change (cl_u0 A' sv) with (cl_u0 A sv).
  change (cl_u A' sv) with (cl_u A sv).
  change (u_corrected (with_surface p l) lg A') with (u_corrected p lg A).
  reflexivity.
Qed.
