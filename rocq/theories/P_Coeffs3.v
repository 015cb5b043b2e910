(** The loop over Fourier modes: buffers are reused without leaking, both solvers solve the
    same system. *)
From Coq Require Import String Reals Lra Lia List Bool Arith ZArith.
From Verif Require Import Base Tensor Spec M_LinAlg Spec_RTE M_Subroutines M_GenPart M_MathscrV M_Coeffs P_GenPart P_Tensor P_MathscrV P_Coeffs P_Coeffs2.
Import ListNotations.
Local Open Scope R_scope.

Definition veq (n : nat) (v w : vec) : Prop := forall i, (i < n)%nat -> v i = w i.
Lemma opseg_cong n f v w i0 k z : veq n v w -> veq n (opseg f v i0 k z) (opseg f w i0 k z).
Proof.
  intros H i Hi. unfold opseg, setseg. destruct (_ && _)%bool eqn:E; [|auto].
  apply andb_prop in E as [E1 E2]. apply Nat.leb_le in E1. replace (i0 + (i - i0))%nat with i by lia. rewrite H; auto.
Qed.
Lemma vlist_veq n v w : veq n v w -> vlist n v = vlist n w.
Proof. intros H. apply map_ext_in. intros i Hi. apply in_seq in Hi. apply H. lia. Qed.
Lemma rows_Meq n A B : (forall i j, (i < n)%nat -> (j < n)%nat -> A i j = B i j) -> rows n n A = rows n n B.
Proof.
  intros H. apply map_ext_in. intros i Hi. apply map_ext_in. intros j Hj. apply in_seq in Hi. apply in_seq in Hj. apply H; lia.
Qed.

Definition req_v (n : nat) (a b : res vec) : Prop :=
  match a, b with Ok x, Ok y => veq n x y | Err e, Err e' => e = e' | _, _ => False end.

Section Loop.
  Variable g : sc_in.
  Let N := sc_N g.
  Let NQ := (2 * sc_N g)%nat.
  Let NL := sc_NLayers g.
  Let dim := (sc_NLayers g * (2 * sc_N g))%nat.
  Hypothesis HN : (1 <= N)%nat.
  Hypothesis HNL : (1 <= NL)%nat.
  Variable la : linalg.

  Lemma rhs_bc_cong m j j' : req_v dim (rhs_bc g m j) (rhs_bc g m j').
  Proof.
    unfold rhs_bc. destruct (b_mode g (sc_bneg_scalar g) _ _ m); [|reflexivity]. cbn [bind].
    destruct (b_mode g (sc_bpos_scalar g) _ _ m); [|reflexivity]. cbn [bind req_v].
    change (2 * sc_N g)%nat with NQ. change (sc_N g) with N. change (sc_NLayers g) with NL.
    replace (NL * NQ)%nat with dim by reflexivity.
    assert (Hd : (2 * N <= dim)%nat) by (unfold dim; fold N NL; nia).
    intros i Hi. destruct (Nat.lt_ge_cases i N); [|destruct (Nat.lt_ge_cases i (dim - N))].
    - rewrite !(setseg_out _ N), !(setseg_out _ (dim - N)), !(setseg_in _ 0) by lia. reflexivity.
    - rewrite !(setseg_in _ N) by lia. reflexivity.
    - rewrite !(setseg_out _ N), !(setseg_in _ (dim - N)) by lia. reflexivity.
  Qed.
  Lemma rhs_iso_cong m bd r r' : veq dim r r' -> req_v dim (rhs_iso g m bd r) (rhs_iso g m bd r').
  Proof.
    intros H. unfold rhs_iso. destruct (Nat.eqb m 0 && sc_iso g)%bool; [|exact H].
    cbv zeta. destruct (v_at g [0%nat] _ _ _ _) as [vt|]; [|reflexivity]. cbn [bind].
    match goal with |- req_v _ (bind (if sc_multi g then bind ?a ?k else _) _) (bind (if sc_multi g then bind ?a ?k' else _) _) =>
      assert (X : req_v dim (if sc_multi g then bind a k else Ok (opseg Rminus r 0 (sc_N g) (ravel1 vt)))
                            (if sc_multi g then bind a k' else Ok (opseg Rminus r' 0 (sc_N g) (ravel1 vt)))) end.
    { destruct (sc_multi g); [|apply opseg_cong; auto].
      destruct (v_at g (map S _) _ _ _ _); [|reflexivity]. cbn [bind].
      destruct (v_at g (seq _ _) _ _ _ _); [|reflexivity]. cbn [bind].
      destruct (tsub _ _); [|reflexivity]. cbn [bind req_v]. do 2 apply opseg_cong. auto. }
    revert X. match goal with |- req_v _ ?a ?b -> req_v _ (bind ?a' _) (bind ?b' _) => change a' with a; change b' with b; destruct a as [r2|], b as [r2'|] end; cbn [req_v bind]; try tauto.
    intros X. destruct (v_at g _ 0 _ _ _) as [vb|]; [|reflexivity]. cbn [bind].
    destruct bd as [[R X0]|]; [|apply opseg_cong; auto].
    destruct (v_at g _ (sc_N g) _ _ _) as [vn|]; [|reflexivity]. cbn [bind req_v]. do 2 apply opseg_cong. auto.
  Qed.
  Lemma rhs_beam_cong m bd r r' : veq dim r r' -> veq dim (rhs_beam g m bd r) (rhs_beam g m bd r').
  Proof.
    intros H. unfold rhs_beam. destruct (sc_beam g); [|exact H]. cbv zeta.
    destruct (sc_multi g), bd as [[R X]|]; repeat apply opseg_cong; auto.
  Qed.

  (** The coefficients of mode [m] computed from zeroed buffers. *)
  Definition mode_rhs (m : nat) (bd : option (mat * vec)) (junk : vec) : res vec :=
    let! r := rhs_bc g m junk in
    let! r := rhs_iso g m bd r in
    Ok (rhs_beam g m bd r).
  Lemma mode_rhs_cong m bd j j' : req_v dim (mode_rhs m bd j) (mode_rhs m bd j').
  Proof.
    unfold mode_rhs. pose proof (rhs_bc_cong m j j') as H. destruct (rhs_bc g m j) as [r|], (rhs_bc g m j') as [r'|]; cbn [req_v bind] in *; try tauto.
    pose proof (rhs_iso_cong m bd r r' H) as H'. destruct (rhs_iso g m bd r), (rhs_iso g m bd r'); cbn [req_v bind] in *; try tauto.
    apply rhs_beam_cong; auto.
  Qed.
  Definition mode_solve (m : nat) (bd : option (mat * vec)) (r : vec) (F : vec) (M : mat) : res (list R) :=
    if Nat.leb (sc_banded g) NL then
      let! F := band_lhs g m bd F in
      ofopt (la_solve_banded la (3 * N - 1) (3 * N - 1) (rows (dof_rows g) dim (dof_mat g F)) (vlist dim r))
    else ofopt (la_solve la (rows dim dim (dense_lhs g m bd M)) (vlist dim r)).
  Definition mode_coeffs (m : nat) : res (list R) :=
    let! bd := bd_terms g m in
    let! r := mode_rhs m bd (fun _ => 0) in
    mode_solve m bd r (fun _ => 0) (fun _ _ => 0).

  Definition Inv (s : sc_st) : Prop :=
    zero_out g (ss_lhs s) /\ exists M, Rel g (ss_dof s) M /\ zero_out g M.

  Lemma Meq_sym A B : Meq g A B -> Meq g B A.
  Proof. intros H i j Hi Hj. symmetry. auto. Qed.
  Lemma Rel_Meq F A B : Rel g F A -> Meq g A B -> Rel g F B.
  Proof. intros [H1 H2] H. split; auto. intros i j Hi Hj. rewrite H1 by auto. auto. Qed.

  Lemma step_char clob s m : Inv s ->
    match mode_coeffs m with
    | Err e => sc_step g la clob s m = Err e
    | Ok C => exists s', sc_step g la clob s m = Ok s' /\ ss_C s' = upd (ss_C s) m (of_list C) /\ Inv s'
    end.
  Proof.
    intros [HD (M & HR & HM)]. unfold mode_coeffs, sc_step.
    destruct (bd_terms g m) as [bd|]; [|reflexivity]. cbn [bind].
    pose proof (mode_rhs_cong m bd (fun _ => 0) (ss_rhs s)) as Hr. unfold mode_rhs in *.
    destruct (rhs_bc g m (fun _ => 0)) as [r0|]; destruct (rhs_bc g m (ss_rhs s)) as [r0'|]; cbn [bind req_v] in *; try tauto.
    2:{ destruct (rhs_iso g m bd r0); cbn [bind req_v] in *; try contradiction. congruence. }
    2:{ destruct (rhs_iso g m bd r0'); cbn [bind req_v] in *; try contradiction. congruence. }
    2:{ congruence. }
    destruct (rhs_iso g m bd r0) as [r1|]; destruct (rhs_iso g m bd r0') as [r1'|]; cbn [bind req_v] in *; try tauto.
    2:{ congruence. }
    unfold mode_solve. change (sc_NLayers g) with NL. destruct (Nat.leb (sc_banded g) NL).
    - destruct (band_sim g HN HNL m bd _ _ (Rel_0 g)) as (F0 & E0 & R0). rewrite E0. cbn [bind].
      destruct (band_sim g HN HNL m bd _ _ HR) as (F1 & E1 & R1). rewrite E1. cbn [bind].
      assert (Hf : Meq g (dense_lhs g m bd M) (dense_lhs g m bd (fun _ _ => 0))) by (apply dense_fresh; auto; apply zero_out_0).
      pose proof (Rel_cells g HN HNL F0 F1 (dense_lhs g m bd (fun _ _ => 0)) R0 (Rel_Meq _ _ _ R1 Hf)) as Ec.
      change (sc_NLayers g * (2 * sc_N g))%nat with dim in Ec. rewrite Ec.
      rewrite (vlist_veq _ _ _ Hr).
      change (sc_N g) with N. change (NL * (2 * N))%nat with dim.
      destruct (la_solve_banded la _ _ _ _) as [C|]; cbn [ofopt bind]; [|reflexivity].
      eexists. split; [reflexivity|]. split; [reflexivity|]. split; [exact HD|]. cbn [ss_dof].
      exists (dense_lhs g m bd M). split; auto. apply zero_out_dense; auto.
    - assert (Hf : Meq g (dense_lhs g m bd (fun _ _ => 0)) (dense_lhs g m bd (ss_lhs s))) by (apply dense_fresh; auto; apply zero_out_0).
      rewrite (rows_Meq dim _ _ Hf). rewrite (vlist_veq _ _ _ Hr).
      change (sc_N g) with N. change (NL * (2 * N))%nat with dim.
      destruct (la_solve la _ _) as [C|]; cbn [ofopt bind]; [|reflexivity].
      eexists. split; [reflexivity|]. split; [reflexivity|]. split; [apply zero_out_dense; auto|]. exists M. auto.
  Qed.

  Lemma loop_char clob : forall n k s, Inv s ->
    match fold_left (fun rs m => let! s := rs in sc_step g la clob s m) (seq k n) (Ok s) with
    | Ok s' => Inv s' /\ (forall m, (k <= m < k + n)%nat -> exists C, mode_coeffs m = Ok C /\ ss_C s' m = of_list C)
               /\ (forall m, ~ (k <= m < k + n)%nat -> ss_C s' m = ss_C s m)
    | Err e => exists m, (k <= m < k + n)%nat /\ mode_coeffs m = Err e /\ forall m', (k <= m' < m)%nat -> exists C, mode_coeffs m' = Ok C
    end.
  Proof.
    induction n as [|n IH]; intros k s Hs; cbn [seq fold_left bind].
    - split; auto. split; [intros; lia|auto].
    - pose proof (step_char clob s k Hs) as H. destruct (mode_coeffs k) as [C|e] eqn:E.
      + destruct H as (s' & -> & HC & Hs'). specialize (IH (S k) s' Hs').
        destruct (fold_left _ (seq (S k) n) (Ok s')) as [s''|e].
        * destruct IH as (I1 & I2 & I3). split; auto. split.
          { intros m Hm. destruct (Nat.eq_dec m k) as [->|]; [|apply I2; lia].
            exists C. split; auto. rewrite I3 by lia. rewrite HC, upd_eq. reflexivity. }
          { intros m Hm. rewrite I3 by lia. rewrite HC. apply upd_ne. lia. }
        * destruct IH as (m & Hm & Em & Hf). exists m. split; [lia|]. split; [exact Em|]. intros m' Hm'. destruct (Nat.eq_dec m' k) as [->|]; [eauto|apply Hf; lia].
      + rewrite H. assert (X : forall l e, fold_left (fun rs m => let! s := rs in sc_step g la clob s m) l (Err e) = Err e) by (induction l; auto).
        rewrite X. exists k. split; [lia|]. split; [exact E|]. intros; lia.
  Qed.

  Lemma coeffs_char clob jC jR :
    match solve_for_coeffs g la clob jC jR with
    | Ok GC => forall m, (m < sc_NFourier g)%nat ->
        exists C, mode_coeffs m = Ok C /\ GC m = fun l i j => sc_G g m l i j * of_list C (l * NQ + j)%nat
    | Err e => exists m, (m < sc_NFourier g)%nat /\ mode_coeffs m = Err e /\ forall m', (m' < m)%nat -> exists C, mode_coeffs m' = Ok C
    end.
  Proof.
    unfold solve_for_coeffs.
    pose proof (loop_char clob (sc_NFourier g) 0 (mkSS (fun _ _ => 0) (fun _ => 0) jR jC)) as H.
    match type of H with ?P -> _ => assert (HI : P) end.
    { split; [apply zero_out_0|]. exists (fun _ _ => 0). split; [apply Rel_0|apply zero_out_0]. }
    specialize (H HI). destruct (fold_left _ _ _) as [s|e]; cbn [bind].
    - destruct H as (_ & H & _). intros m Hm. destruct (H m) as (C & E & HC); [lia|]. exists C. split; auto. rewrite HC. reflexivity.
    - destruct H as (m & Hm & E & Hf). exists m. split; [lia|]. split; [exact E|]. intros; apply Hf; lia.
  Qed.

  Hypothesis Hla : linalg_ok la.

  (** Both solvers solve the dense system. *)
  Lemma mode_system m C : mode_coeffs m = Ok C ->
    exists bd r0 r1, bd_terms g m = Ok bd /\ rhs_bc g m (fun _ => 0) = Ok r0 /\ rhs_iso g m bd r0 = Ok r1 /\
      forall i, (i < dim)%nat ->
        rsum dim (fun j => dense_lhs g m bd (fun _ _ => 0) i j * of_list C j) = rhs_beam g m bd r1 i.
  Proof.
    unfold mode_coeffs, mode_rhs. intros H. apply bind_Ok in H as (bd & Hbd & H). apply bind_Ok in H as (r & Hr & H).
    apply bind_Ok in Hr as (r0 & E0 & Hr). apply bind_Ok in Hr as (r1 & E1 & Hr). injection Hr as <-.
    exists bd, r0, r1. split; auto. split; auto. split; auto.
    unfold mode_solve in H. destruct (Nat.leb (sc_banded g) NL).
    - destruct (band_sim g HN HNL m bd _ _ (Rel_0 g)) as (F0 & EF & R0). rewrite EF in H. cbn [bind] in H.
      destruct (la_solve_banded la _ _ _ _) as [x|] eqn:Es; [|discriminate]. injection H as ->.
      intros i Hi. rewrite <- (banded_ok la Hla dim _ _ _ _ _ Es i Hi). apply rsum_ext. intros j Hj. f_equal.
      pose proof (banded_reads g HN HNL F0 i j Hi Hj) as HB. change (sc_N g) with N in HB. change (sc_NLayers g * (2 * N))%nat with dim in HB.
      rewrite HB. symmetry. apply (proj1 R0); auto.
    - destruct (la_solve la _ _) as [x|] eqn:Es; [|discriminate]. injection H as ->.
      intros i Hi. apply (solve_ok la Hla dim _ _ _ Es i Hi).
  Qed.
End Loop.
