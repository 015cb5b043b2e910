(** Proofs about interpolate applied to the functions pydisort returns. *)
From Coq Require Import String Reals Lra Lia List Bool Arith ZArith.
From Verif Require Import Base Tensor M_Subroutines M_LinAlg M_MathscrV M_Assemble M_Pydisort M_Interp Spec Spec_Sol Spec_Valid Spec_Interp Spec_Calls
  P_Quad P_Sub P_Sub2 P_Sub3 P_Teq P_Same P_Interp P_Interp2 P_Valid P_Pydisort2 P_Whole.
Import ListNotations.
Local Open Scope R_scope.



(** ** Axes of a broadcast result *)
Lemma bdim_keep a b d : bdim a b = Some d -> a <> 1%nat -> d = a.
Proof. unfold bdim. destruct (Nat.eqb_spec a b), (Nat.eqb_spec a 1), (Nat.eqb_spec b 1); intros H; inversion H; subst; auto; lia. Qed.
Lemma bshape_keep s : forall t r, bshape s t = Some r -> length r = length s /\ forall j, nth j s 0%nat <> 1%nat -> nth j r 0%nat = nth j s 0%nat.
Proof.
  induction s as [|a s IH]; intros [|b t] r H; cbn in H; try discriminate.
  - injection H as <-. auto.
  - destruct (bdim a b) as [d|] eqn:E; [|discriminate]. destruct (bshape s t) as [r'|] eqn:E'; [|discriminate]. injection H as <-.
    destruct (IH t r' E') as [L V]. split; [cbn; lia|]. intros [|j] Hj; cbn in *; [eapply bdim_keep; eauto|auto].
Qed.
Lemma padl_length k s : (length s <= k)%nat -> length (padl k s) = k.
Proof. intros. unfold padl. rewrite app_length, repeat_length. lia. Qed.
Lemma bcast_rank f A B C : bcast2 f A B = Ok C -> length (shp C) = Nat.max (length (shp A)) (length (shp B)).
Proof.
  unfold bcast2. destruct (bshape _ _) as [r|] eqn:E; [|discriminate]. intros H. injection H as <-. cbn [shp].
  apply bshape_keep in E as [L _]. rewrite L. apply padl_length. lia.
Qed.
Lemma bcast_axis f A B C j : bcast2 f A B = Ok C -> (length (shp B) <= length (shp A))%nat -> nth j (shp A) 0%nat <> 1%nat -> nth j (shp C) 0%nat = nth j (shp A) 0%nat.
Proof.
  unfold bcast2. intros H HL Hj. rewrite Nat.max_l in H by lia. replace (padl (length (shp A)) (shp A)) with (shp A) in H.
  2:{ unfold padl. rewrite Nat.sub_diag. reflexivity. }
  destruct (bshape _ _) as [r|] eqn:E; [|discriminate]. injection H as <-. cbn [shp]. apply bshape_keep in E as [_ V]. auto.
Qed.
Lemma iop_shape f A B C : iop f A B = Ok C -> shp C = shp A.
Proof. unfold iop. intros H. apply bind_Ok in H as (D & _ & H). destruct (list_eqb (shp D) (shp A)) eqn:E; [|discriminate]. injection H as <-. apply list_eqb_iff; auto. Qed.
Lemma ttake_rank k ids A C : ttake k ids A = Ok C -> (k < length (shp A))%nat -> length (shp C) = length (shp A).
Proof.
  unfold ttake. destruct (forallb _ _); [|discriminate]. intros H Hk. injection H as <-. cbn [shp]. rewrite app_length. rewrite firstn_length. destruct (shp A) as [|n s]; [cbn in Hk; lia|].
  cbn [length] in *. rewrite skipn_length. lia.
Qed.
Lemma tnew_rank k A : length (shp (tnew k A)) = S (length (shp A)).
Proof.
  unfold tnew. cbn [shp]. rewrite app_length. cbn [length]. rewrite firstn_length, skipn_length. lia.
Qed.

(** ** The isotropic contribution has two axes. *)
Lemma v_rank nr nq NL tau sc l Ns s G K gm anti v : length (shp sc) = 1%nat -> mathscr_v nr nq NL tau sc l Ns s G K gm anti = Ok v -> length (shp v) = 2%nat.
Proof.
  intros Hsc. unfold mathscr_v. destruct (Nat.eqb Ns 1); [|destruct (Nat.eqb Ns 2)].
  - unfold v_branch1. intros H. apply bind_Ok in H as (p0 & H0 & H). apply bind_Ok in H as (d & Hd & H).
    apply ttake_rank in Hd; [|cbn; lia]. apply bcast_rank in H. rewrite H, Hd, tnew_rank. cbn [shp length].
    assert (length (shp p0) = 1%nat) as ->; [|reflexivity].
    destruct anti; [apply bcast_rank in H0; rewrite H0, Hsc; reflexivity|injection H0 as <-; reflexivity].
  - unfold v_branch2. intros H. apply bind_Ok in H as (d0 & H0 & H). apply bind_Ok in H as (d1 & H1 & H). apply bind_Ok in H as (x & Hx & H).
    apply bind_Ok in H as (y & Hy & H). apply bind_Ok in H as (z & Hz & H).
    apply ttake_rank in H0; [|cbn; lia]. apply ttake_rank in H1; [|cbn; lia].
    apply bcast_rank in Hx. apply bcast_rank in Hy. apply bcast_rank in Hz. rewrite tnew_rank in Hx, Hy.
    assert (Z : length (shp z) = 2%nat). { rewrite Hz, Hx, Hy, H0, H1. destruct anti; reflexivity. }
    destruct anti; [apply bcast_rank in H; rewrite H, Z, Hsc; reflexivity|injection H as <-; auto].
  - unfold v_branchN. intros H. apply bind_Ok in H as (x & Hx & H). apply bind_Ok in H as (y & Hy & H). destruct (list_eqb _ _); [|discriminate]. injection H as <-. reflexivity.
Qed.

Section Rows.
  Variable a : as_in.
  Variable sv : solved.
  Hypothesis HN : le 1 (a_N a).
  Let NQ := (2 * a_N a)%nat.
  Lemma NQ_ne : NQ <> 1%nat. Proof. unfold NQ. lia. Qed.

  Lemma iso_rank anti r0 nr tau v : iso_part a sv anti r0 nr tau = Ok v -> length (shp v) = 2%nat.
  Proof. unfold iso_part. apply v_rank. reflexivity. Qed.
  Lemma um_axes anti tau um : um_all a sv anti tau = Ok um -> nth 1 (shp um) 0%nat = NQ /\ (length tau <> 1%nat -> nth 2 (shp um) 0%nat = length tau).
  Proof.
    pose proof NQ_ne as Hne. unfold um_all. destruct (a_iso a).
    - intros H. apply bind_Ok in H as (v & Hv & H). apply iso_rank in Hv. unfold um_add in H. destruct (Nat.eqb _ 1).
      + split; [|intros HT]; rewrite (bcast_axis _ _ _ _ _ H); auto; cbn; lia.
      + destruct (a_autograd a).
        * apply bind_Ok in H as (s & Hs & H). assert (R : length (shp s) = 3%nat) by (apply bcast_rank in Hs; rewrite Hs, Hv; reflexivity).
          assert (S1 : nth 1 (shp s) 0%nat = NQ) by (rewrite (bcast_axis _ _ _ _ 1 Hs); auto; cbn; lia).
          assert (S2 : length tau <> 1%nat -> nth 2 (shp s) 0%nat = length tau) by (intros HT; rewrite (bcast_axis _ _ _ _ 2 Hs); auto; cbn; lia).
          unfold tconcat in H. destruct (_ && _)%bool; [|discriminate]. injection H as <-. cbn [shp].
          destruct (shp s) as [|x [|y [|z [|]]]]; cbn in R; try discriminate. auto.
        * apply bind_Ok in H as (r & Hr & H). injection H as <-. cbn. auto.
    - intros H. injection H as <-. cbn. auto.
  Qed.
  Lemma sq_head n s : n <> 1%nat -> sq_shape (n :: s) = n :: sq_shape s.
  Proof. intros H. unfold sq_shape. cbn [filter]. rewrite (proj2 (Nat.eqb_neq n 1)) by auto. reflexivity. Qed.

  (** Outputs of [u] and [u0]: an array with one row per stream, then what the flags ask for. *)
  Definition outputs (n : nat) (flag : bool) (k : nat) (r : pret) : Prop :=
    exists A s rest, shp A = n :: s /\ r = ret flag (PT A :: rest) /\ length rest = k.
  Definition b2n (b : bool) : nat := if b then 1%nat else 0%nat.
  Lemma u_outputs tau phi anti e t r : cl_u a sv tau phi anti e t false = Ok r ->
    exists A s, shp A = NQ :: s /\ (r = ret (e || t) (PT A :: (if e then [PR (match r with PTup (_ :: PR x :: _) => x | _ => 0 end)] else []) ++ (if t then [PA (a_tau a)] else []))).
  Proof.
    intros H. unfold cl_u in H. destruct (tau_check a tau) as [[]|]; cbn [bind] in H; [|discriminate].
    destruct (um_all a sv anti tau) as [um|] eqn:EU; cbn [bind] in H; [|discriminate]. apply um_axes in EU as [E1 _].
    apply bind_Ok in H as (er & He & H). exists (tscal (a_rescale a) (tsqueeze (u_full a um phi))).
    exists (sq_shape [nth 2 (shp um) 0%nat; length phi]). split.
    { unfold tscal, tmap, tsqueeze, u_full. cbn [shp]. rewrite E1. apply sq_head. apply NQ_ne. }
    rewrite orb_false_r in H. injection H as <-. destruct e.
    - apply bind_Ok in He as (x & _ & He). injection He as <-. cbn. rewrite app_nil_r. reflexivity.
    - injection He as <-. cbn [app]. rewrite app_nil_r. reflexivity.
  Qed.
  Lemma u0_outputs tau anti t ac r : cl_u0 a sv tau anti t ac = Ok r ->
    exists A s rest, shp A = NQ :: s /\ r = ret (t || ac) (PT A :: (if t then [PA (a_tau a)] else []) ++ rest) /\
      (if ac then exists B, rest = [PT B] else rest = []).
  Proof.
    pose proof NQ_ne as Hne. intros H. unfold cl_u0 in H. destruct (tau_check a tau) as [[]|]; cbn [bind] in H; [|discriminate].
    apply bind_Ok in H as (ax & Ha & H). apply bind_Ok in H as (u & Hu & H). injection H as <-.
    assert (HS : nth 0 (shp u) 0%nat = NQ).
    { unfold u0_all in Hu. destruct (a_iso a); [|injection Hu as <-; reflexivity]. apply bind_Ok in Hu as (v & Hv & Hu). apply iso_rank in Hv.
      rewrite (bcast_axis _ _ _ _ 0 Hu); auto. cbn. lia. }
    destruct (shp u) as [|n s] eqn:ES; [cbn in HS; unfold NQ in HS; lia|]. cbn in HS. subst n.
    exists (tscal (a_rescale a) (tsqueeze u)), (sq_shape s), ax. split; [unfold tscal, tmap, tsqueeze; cbn [shp]; rewrite ES; apply sq_head; auto|]. split; auto.
    destruct ac; [|injection Ha as <-; auto]. apply bind_Ok in Ha as (x & Hx & Ha). injection Ha as <-.
    unfold act_reclass in Hx. destruct (any_scaled a); [destruct (Reqb _ _); [discriminate|]|]; injection Hx as <-; eauto.
  Qed.
End Rows.

Section RowsNT.
  Variable p : py_in.
  Variable lg : leggauss_t.
  Variable a : as_in.
  Variable sv : solved.
  Hypothesis HN : le 1 (a_N a).
  Hypothesis HpN : le 1 (pN p).
  Hypothesis Hiso : has_iso p = a_iso a.
  Let NQ := (2 * a_N a)%nat.
  Lemma c_shape tau phi anti ls c : NT_corrections p lg a tau phi anti ls = Ok c -> exists x, shp c = [x; length tau; length phi].
  Proof.
    unfold NT_corrections. intros H. apply bind_Ok in H as (T & HT & H). apply bind_Ok in H as (V & HV & H).
    apply TMS_shape in HT as (f & ->); auto. destruct (p_autograd p).
    - apply bind_Ok in H as (s & Hs & H). unfold tconcat in H. destruct (_ && _)%bool; [|discriminate]. injection H as <-. cbn. eauto.
    - apply bind_Ok in H as (s & Hs & H). injection H as <-. cbn. eauto.
  Qed.
  Lemma sq_rank x x' y n : (y <> 1%nat -> x' = y) -> n <> 1%nat ->
    forall z, (length (sq_shape [z; y; x]) <= length (n :: sq_shape [x'; x]))%nat.
  Proof.
    intros H Hn z. unfold sq_shape. cbn [filter]. destruct (Nat.eqb_spec z 1), (Nat.eqb_spec y 1), (Nat.eqb_spec x 1), (Nat.eqb_spec x' 1); cbn; try lia;
      exfalso; rewrite H in *; auto.
  Qed.
  Lemma uc_outputs tau phi anti e t r : u_corrected p lg a (cl_u a sv) tau phi anti e t = Ok r ->
    exists A s, shp A = NQ :: s /\ (r = ret (e || t) (PT A :: (if e then [PR (match r with PTup (_ :: PR x :: _) => x | _ => 0 end)] else []) ++ (if t then [PA (a_tau a)] else []))).
  Proof.
    intros H. unfold u_corrected in H. apply bind_Ok in H as (r0 & H0 & H). unfold cl_u in H0.
    destruct (tau_check a tau) as [[]|]; cbn [bind] in H0; [|discriminate].
    destruct (um_all a sv anti tau) as [um|] eqn:EU; cbn [bind] in H0; [|discriminate]. apply (um_axes a sv HN) in EU as [E1 E2].
    apply bind_Ok in H0 as (er & He & H0). rewrite !orb_true_r in H0. cbn [ret] in H0. injection H0 as <-.
    set (u := tscal (a_rescale a) (tsqueeze (u_full a um phi))) in *.
    assert (SU : shp u = NQ :: sq_shape [nth 2 (shp um) 0%nat; length phi]).
    { unfold u, tscal, tmap, tsqueeze, u_full. cbn [shp]. rewrite E1. apply sq_head. apply NQ_ne. auto. }
    set (ex := er ++ (if t then [PA (a_tau a)] else [])).
    set (ls := PI_ (layers a tau) :: (if a_iso a then [PI_ (uniq (a_NLayers a) (layers a tau)); PI_ (uniq_inv (a_NLayers a) (layers a tau))] else [])) in *.
    rewrite app_assoc in H. fold ex in H.
    assert (EK : (length (ex ++ ls) - (if has_iso p then 3 else 1))%nat = length ex).
    { rewrite app_length, Hiso. unfold ls. destruct (a_iso a); cbn [length]; lia. }
    cbv zeta in H. rewrite EK in H. rewrite app_nth2, Nat.sub_diag in H by lia. unfold ls at 1 in H. cbn [nth] in H.
    apply bind_Ok in H as (c & Hc & H). apply bind_Ok in H as (v & Hv & H). injection H as <-.
    apply c_shape in Hc as (x & Sc).
    assert (SV : exists s, shp v = NQ :: s).
    { pose proof (bcast_rank _ _ _ _ Hv) as R. pose proof (bcast_axis _ _ _ _ 0 Hv) as X.
      assert (NE : NQ <> 1%nat) by (unfold NQ; lia).
      rewrite SU in X. cbn [nth] in X. rewrite SU in R. cbn [length] in R.
      assert (X' : nth 0 (shp v) 0%nat = NQ).
      { apply X; auto. unfold tscal, tmap, tsqueeze. cbn [shp]. rewrite Sc. apply sq_rank; auto. }
      destruct (shp v) as [|n s] eqn:Ev; [cbn in X'; unfold NQ in X'; lia|]. cbn in X'. subst n. eauto. }
    destruct SV as (s & SV). exists v, s. split; auto. rewrite firstn_app, Nat.sub_diag, firstn_all. cbn [firstn]. rewrite app_nil_r. unfold ex.
    destruct e.
    - apply bind_Ok in He as (y & _ & He). injection He as <-. cbn. reflexivity.
    - injection He as <-. reflexivity.
  Qed.
End RowsNT.

Section Api.
  Variable p : py_in.
  Variable lg : leggauss_t.
  Variable la : linalg.
  Variable jk : junk.
  Variable out : py_out.
  Hypothesis Hla : linalg_ok la.
  Hypothesis Hlg : leggauss_ok (half p) (lg (half p)).
  Hypothesis Hok : pydisort p lg la jk = Ok out.
  Let nodes := fst (Gauss_Legendre_quad lg (half p) 0 1).

  Lemma fn_outputs u tau phi anti e t r : po_u out = Some u -> u tau phi anti e t = Ok r ->
    exists A s, shp A = streams p :: s /\ (r = ret (e || t) (PT A :: (if e then [PR (match r with PTup (_ :: PR x :: _) => x | _ => 0 end)] else []) ++ (if t then [PA (p_tau p)] else []))).
  Proof.
    destruct (pydisort_parts _ _ _ _ _ Hok) as (V & ss & r0 & sv & _ & _ & Hsv & _ & _ & _ & _ & Eu). intros Hu H. rewrite Eu in Hu.
    pose proof (half_pos p V) as HN. rewrite (streams_eq p V).
    destruct (p_only_flux p); [discriminate|]. injection Hu as <-. destruct (NT_active p).
    - apply uc_outputs in H; auto.
    - apply u_outputs in H; auto.
  Qed.
  Lemma fn0_outputs tau anti t ac r : po_u0 out tau anti t ac = Ok r ->
    exists A s rest, shp A = streams p :: s /\ r = ret (t || ac) (PT A :: (if t then [PA (p_tau p)] else []) ++ rest) /\
      (if ac then exists B, rest = [PT B] else rest = []).
  Proof.
    destruct (pydisort_parts _ _ _ _ _ Hok) as (V & ss & r0 & sv & _ & _ & Hsv & _ & _ & _ & E0 & _). intros H. rewrite E0 in H.
    pose proof (half_pos p V) as HN. rewrite (streams_eq p V). apply u0_outputs in H; auto.
  Qed.

  Variable f : pyfun.
  Variable it : interp.
  Hypothesis Hf : returned out f.
  Hypothesis Hit : interpolate lg f = Ok it.
  Lemma it_eq : it = mkIN (half p) nodes f.
  Proof.
    destruct (pydisort_parts _ _ _ _ _ Hok) as (V & _). unfold interpolate in Hit. apply bind_Ok in Hit as (r & Hr & H). apply bind_Ok in H as (n & Hn & H).
    assert (E : n = streams p).
    { destruct Hf as [->|(u & Hu & ->)]; cbn [call00] in Hr.
      - apply fn0_outputs in Hr as (A & s & rest & SA & -> & ->). cbn in Hn. rewrite SA in Hn. injection Hn as <-. reflexivity.
      - apply (fn_outputs u _ _ _ _ _ _ Hu) in Hr as (A & s & SA & Hr). cbn in Hr. rewrite Hr in Hn. cbn in Hn. rewrite SA in Hn. injection Hn as <-. reflexivity. }
    subst n. rewrite (streams_eq p V) in H. rewrite Nat.div2_double in H. destruct Hf as [->|(u & Hu & ->)]; injection H as <-; reflexivity.
  Qed.
  Lemma it_len : length (in_nodes it) = in_N it.
  Proof. rewrite it_eq. cbn. apply (GL_lengths lg (half p) 0 1 Hlg). Qed.
  Lemma it_rows c A rest : fetch (in_fun it) c = Ok (A, rest) -> exists s, shp A = (2 * in_N it)%nat :: s.
  Proof.
    destruct (pydisort_parts _ _ _ _ _ Hok) as (V & _). rewrite it_eq. cbn [in_fun in_N]. rewrite <- (streams_eq p V). intros H. unfold fetch in H.
    apply bind_Ok in H as (r & Hr & H). destruct Hf as [->|(u & Hu & ->)].
    - destruct (flagged c) eqn:EF.
      + apply fn0_outputs in Hr as (B & s & rs & SB & -> & _). unfold flagged in EF. rewrite EF in H. cbn in H. injection H as <- _. eauto.
      + apply fn0_outputs in Hr as (B & s & rs & SB & -> & _). cbn in H. injection H as <- _. eauto.
    - destruct (flagged c) eqn:EF.
      + apply (fn_outputs u _ _ _ _ _ _ Hu) in Hr as (B & s & SB & Er). unfold flagged in EF. rewrite EF in Er. rewrite Er in H. cbn in H. injection H as <- _. eauto.
      + apply (fn_outputs u _ _ _ _ _ _ Hu) in Hr as (B & s & SB & Er). rewrite Er in H. cbn in H. injection H as <- _. eauto.
  Qed.

  (** The values filled in are the interpolant. *)
  Lemma filled_interpolant c A s C : shp A = streams p :: s -> filled it c s A A C ->
    interpolant (half p) (po_mu out) (ia_mu c) A (elt C) /\ shp C = length (ia_mu c) :: s.
  Proof.
    destruct (pydisort_parts _ _ _ _ _ Hok) as (V & _ & _ & _ & _ & _ & _ & Emu & _). intros HA [SC VC]. split; auto. intros idx Hi. rewrite HA in Hi. cbn in Hi.
    pose proof (GL_lengths lg (half p) 0 1 Hlg) as [L1 _]. pose proof (GL_distinct' lg (half p) Hlg) as D. fold nodes in L1, D.
    destruct (barycentric_poly nodes (fun i => elt A (i :: idx)) D) as (P & LP & EP).
    destruct (barycentric_poly (map Ropp nodes) (fun i => elt A ((half p + i)%nat :: idx)) (map_opp_distinct _ D)) as (Q & LQ & EQ).
    rewrite map_length in LQ. exists P, Q. split; [lia|]. split; [lia|]. split.
    - intros i Hii. rewrite Emu. unfold mu_arr. change (pN p) with (half p).
      assert (QM : forall j, quad_mu p lg j = nth j nodes 0) by reflexivity.
      rewrite app_nth1 by (rewrite map_length, seq_length; auto). rewrite (nth_indep _ 0 (quad_mu p lg 0)) by (rewrite map_length, seq_length; auto).
      rewrite map_nth, seq_nth by auto. rewrite app_nth2 by (rewrite map_length, seq_length; lia). rewrite map_length, seq_length.
      replace (half p + i - half p)%nat with i by lia.
      rewrite (nth_indep _ 0 (- quad_mu p lg 0)) by (rewrite map_length, seq_length; auto).
      rewrite (map_nth (fun i => - quad_mu p lg i)), seq_nth by auto. cbn [Nat.add]. rewrite !QM.
      rewrite EP, EQ. split; [apply barycentric_at_node; auto; lia|].
      replace (- nth i nodes 0) with (nth i (map Ropp nodes) 0) by (rewrite (nth_map_d _ _ _ 0); auto; lia).
      apply (barycentric_at_node (map Ropp nodes) (fun i => elt A ((half p + i)%nat :: idx))); [apply map_opp_distinct; auto|rewrite map_length; lia].
    - intros k Hk. rewrite VC by auto. rewrite it_eq. unfold value_pos, value_neg. cbn [in_nodes in_N]. destruct (Rlt_dec _ _); symmetry; auto.
  Qed.
  Theorem call_value o c j A rest : cosines_ok (ia_mu c) -> fetch f c = Ok (A, rest) ->
    exists B F, snd (i_call it o c j) = Ok (ret (flagged c) (PT B :: rest)) /\ squeezed B (length (ia_mu c) :: tl (shp A)) F /\
      interpolant (half p) (po_mu out) (ia_mu c) A F.
  Proof.
    destruct (pydisort_parts _ _ _ _ _ Hok) as (V & _). intros Hm HF. assert (HF' : fetch (in_fun it) c = Ok (A, rest)) by (rewrite it_eq; exact HF).
    destruct (it_rows c A rest HF') as (s & HA). destruct (call_final it it_len c A rest s Hm HF' HA o j) as (C & EC & FC).
    assert (SA : shp A = streams p :: s). { rewrite HA, it_eq. cbn [in_N]. rewrite (streams_eq p V). reflexivity. }
    destruct (filled_interpolant c A s C SA FC) as [I1 S1].
    exists (tsqueeze C), (elt C). split; auto. split; auto. rewrite SA. cbn [tl]. unfold squeezed. apply tsqueeze_cong. split; [exact S1|reflexivity].
  Qed.
  Theorem call_error o c j : cosines_ok (ia_mu c) -> forall e, fetch f c = Err e -> snd (i_call it o c j) = Err e.
  Proof.
    intros Hm e HF. assert (HF' : fetch (in_fun it) c = Err e) by (rewrite it_eq; exact HF).
    rewrite (done_call it o c j (Err e)); auto. unfold i_start. replace (forallb _ (ia_mu c)) with true.
    2:{ symmetry. apply forallb_forall. intros x Hx. apply Rleb_t. apply Hm; auto. }
    cbn [negb]. rewrite HF'. reflexivity.
  Qed.
  Theorem call_range o c j x : In x (ia_mu c) -> 1 < Rabs x -> exists msg, snd (i_call it o c j) = Err (EValue msg).
  Proof.
    intros Hx H. eexists. erewrite done_call; [reflexivity|]. unfold i_start. replace (forallb _ (ia_mu c)) with false; [reflexivity|].
    symmetry. apply not_true_is_false. intros E. apply forallb_forall with (x := x) in E; auto. apply Rleb_iff in E. lra.
  Qed.
End Api.
