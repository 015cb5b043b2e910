(** Depths given as integers: beyond the range the answers differ. *)
From Coq Require Import String Reals Lra Lia List Bool Arith ZArith.
From Coquelicot Require Import Coquelicot.
From Verif Require Import Base Tensor Spec M_LinAlg Spec_RTE Calc M_Subroutines M_GenPart M_MathscrV M_Coeffs M_Assemble M_Pydisort M_Ints M_IntDepth
  P_Sub P_GenPart P_GenPart3 P_Tensor P_MathscrV P_Coeffs2 P_Coeffs3 P_Assemble P_Solve Spec_Sol Spec_Valid P_Valid P_Pydisort P_Pydisort2 P_Pydisort3 P_Ints P_Ints2 P_Ints4 P_Unique2 P_IntDepth.
Import ListNotations.
Local Open Scope R_scope.

(** What is computed at an integer depth. *)
Definition vz {IM : IntModel} (b : Z) (nq Ns : nat) (s : vec) (G : mat) (K gm : vec) (q : nat) (z : Z) : R :=
  rsum nq (fun k => G q k * (rsum Ns (fun j => cofI Ns s (K k) j * ipow b z j) * gm k)).

Section Values.
  Context {IM : IntModel}.
  Variable b : Z.
  Variables (nr nq NL : nat) (tau : list Z) (scale_tau : tensor) (l : list nat) (Ns : nat).
  Variables (s : nat -> vec) (G : nat -> mat) (K : nat -> vec) (gm : nat -> vec).
  Hypothesis Hl : length l = length tau.
  Hypothesis Hb : forall i, In i l -> (i < NL)%nat.
  Let L t := nth t l 0%nat.
  Lemma mathscr_vz_val : (3 <= Ns)%nat -> exists C, mathscr_vz b nr nq NL tau scale_tau l Ns s G K gm false = Ok C /\
    T2 C nr (length tau) (fun q t => vz b nq Ns (s (L t)) (G (L t)) (K (L t)) (gm (L t)) q (nth t tau 0%Z)).
  Proof.
    intros HN. unfold mathscr_vz. rewrite (proj2 (Nat.eqb_neq Ns 1)), (proj2 (Nat.eqb_neq Ns 2)) by lia.
    unfold vz_branchN. cbn [bind]. destruct (T3_take0 _ _ _ _ _ l (mb_I nr nq NL Ns s G K gm) Hb) as (D & HD & [SD ED]).
    rewrite HD. cbn [bind shp]. rewrite <- Hl, list_eqb_refl. eexists. split; [reflexivity|].
    split; [reflexivity|]. intros q t Hq Ht. cbn [elt nth].
    rewrite (rsum_ext Ns _ (fun p => rsum nq (fun k => G (L t) q k * b_right Ns s K gm p (L t) k) * ipow b (nth t tau 0%Z) (Ns - 1 - p))).
    2:{ intros p Hp. rewrite ED by auto. reflexivity. }
    rewrite (branchN_sum_I nq [] [] Ns s G K gm eq_refl). unfold vz. apply rsum_ext. intros k Hk. do 2 f_equal. apply rsum_ext. intros j Hj.
    replace (Ns - 1 - (Ns - 1 - j))%nat with j by lia. reflexivity.
  Qed.
End Values.

Section Diff.
  Variables (p : py_in) (lg : leggauss_t) (la : linalg) (jk : junk).
  Hypothesis Hla : linalg_ok la.
  Hypothesis Hlg : leggauss_ok (half p) (lg (half p)).
  Variable n : nat.
  Hypothesis Hn : (2 <= n)%nat.
  Hypothesis Hcol : ncol (p_s p) = S n.
  Hypothesis Hsrc : has_source p.
  Hypothesis Hunsc : forall l, (l < nlayers p)%nat -> scl p l = 1.

  Lemma u0z_val (V : valid p) ss r sv b z : 0 <= IZR z <= bottom p ->
    let a := assemble_args p lg r ss in let l := layer_of a (IZR z) in
    exists A, cl_u0z b a sv [z] false false false = Ok (PVal (PT A)) /\
      squeezed A [streams p; 1%nat] (fun idx => r * (fld_hb a sv 0 l (nth 0 idx 0%nat) (IZR z)
        + vz b (2 * a_N a) (S n) (a_s a l) (sv_G sv 0%nat l) (sv_K sv 0%nat l) (sv_gmi sv l) (nth 0 idx 0%nat) z)).
  Proof.
    intros Hz a l. pose proof (a_good p V lg Hlg ss r : as_good a) as Ha.
    assert (Hd : depths_ok p [IZR z]) by (intros x [<-|[]]; exact Hz).
    pose proof (range_ok p lg ss r [IZR z] Hd : in_range a [IZR z] = true) as Hrg.
    assert (Hus : any_scaled a = false).
    { destruct (any_scaled a) eqn:E; [|reflexivity]. apply (any_scaled_iff p lg V) in E as (k & Hk & E). exfalso. apply E, Hunsc, Hk. }
    assert (Hiso : has_iso p = true) by (apply has_iso_iff; exact Hsrc).
    assert (ENs : a_Ns a = S n).
    { change (a_Ns a) with (e_Ns p). unfold has_iso, e_Ns in *. destruct (forall2b _ _ _); [discriminate|exact Hcol]. }
    assert (Esc : scaled_of a (IZR z) = IZR z) by (unfold scaled_of; rewrite Hus; reflexivity).
    unfold cl_u0z, tau_check. cbn [map]. rewrite Hrg. cbn [check bind].
    assert (HU : exists C, u0_allz b a sv false [z] = Ok C /\ T2 C (2 * a_N a) 1 (fun q _ => fld_hb a sv 0 l q (IZR z)
        + vz b (2 * a_N a) (S n) (a_s a l) (sv_G sv 0%nat l) (sv_K sv 0%nat l) (sv_gmi sv l) q z)).
    { unfold u0_allz. change (a_iso a) with (has_iso p). rewrite Hiso. cbn [map].
      assert (T : T2 (u0_core a sv false [IZR z]) (2 * a_N a) 1 (fun q t => fld_hb a sv 0 l q (IZR z))).
      { split; [reflexivity|]. intros q t Hq Hnt. unfold u0_core, at_tau. cbn [elt nth andb]. rewrite hom_beam.
        replace t with 0%nat by lia. cbn [nth]. rewrite Esc. reflexivity. }
      assert (HI : exists v, iso_partz b a sv false 0 (2 * a_N a) [z] = Ok v /\
        T2 v (2 * a_N a) 1 (fun q t => vz b (2 * a_N a) (S n) (a_s a l) (sv_G sv 0%nat l) (sv_K sv 0%nat l) (sv_gmi sv l) q z)).
      { unfold iso_partz. rewrite Hus. cbv zeta. cbn [map].
        match goal with |- exists v, mathscr_vz ?bb ?nr ?nq ?nl ?ta ?sc ?l ?ns ?s ?G ?K ?gm _ = _ /\ _ =>
          destruct (mathscr_vz_val bb nr nq nl ta sc l ns s G K gm) as (C & HC & SC & EC) end.
        - rewrite uniq_inv_len. reflexivity.
        - intros i. apply uniq_inv_lt. exact (layers_lt a (g_NL a Ha) eq_refl [IZR z] Hd).
        - rewrite ENs. lia.
        - exists C. split; [exact HC|]. split; [exact SC|].
          intros q t Hq Hnt. rewrite EC by auto. replace t with 0%nat by lia. cbn [nth].
          rewrite uniq_inv_nth by (try exact (layers_lt a (g_NL a Ha) eq_refl [IZR z] Hd); cbn; lia).
          rewrite ENs. reflexivity. }
      destruct HI as (v & Hv & Tv). rewrite Hv. cbn [bind].
      destruct (T2_op Rplus _ v _ _ _ _ T Tv) as (C & HC & TC). exists C. split; [exact HC|].
      refine (T2_ext _ _ _ _ _ _ TC). intros q t _ _. reflexivity. }
    destruct HU as (C & HC & SC & EC). rewrite HC. cbn [bind orb app].
    exists (tscal r (tsqueeze C)). split; [reflexivity|].
    apply squeezed_scal; [rewrite SC, (streams_eq p V); reflexivity|]. intros idx Hi.
    apply inb_2 in Hi as (i & j & -> & Hi & Hj). cbn [nth]. rewrite EC; auto. rewrite (streams_eq p V) in Hi. exact Hi.
  Qed.

  (** A depth whose highest power does not fit, while all lower ones do. *)
  Lemma vz_diff b b' s G K gm q z : (forall j, (j < n)%nat -> ipow b z j = ipow b' z j) ->
    vz b (2 * half p) (S n) s G K gm q z - vz b' (2 * half p) (S n) s G K gm q z = s n * (ipow b z n - ipow b' z n) * zv (2 * half p) G K gm q.
  Proof.
    intros H. unfold vz, zv. rewrite <- rsum_minus, <- rsum_scal. apply rsum_ext. intros k Hk. cbn [rsum].
    rewrite (rsum_ext n (fun j => cofI (S n) s (K k) j * ipow b z j) (fun j => cofI (S n) s (K k) j * ipow b' z j)) by (intros j Hj; rewrite H by auto; reflexivity).
    assert (E : cofI (S n) s (K k) n = s n * (1 / K k)).
    { unfold cofI. replace (S n - n)%nat with 1%nat by lia. cbn [rsum]. rewrite Nat.add_0_r. unfold np_fact, exact_ints. pose proof (INR_fact_neq_0 n). unfold Rdiv. rewrite Rplus_0_l, !Rmult_1_l, <- !Rmult_assoc, Rinv_l by auto. simpl. ring. }
    rewrite E. ring.
  Qed.

  Theorem int_depth_differs b z l out : (1 <= b)%Z -> pydisort p lg la jk = Ok out ->
    (l < nlayers p)%nat -> top_of p l < IZR z <= bot_of p l -> at2 (p_s p) l n <> 0 ->
    (z ^ Z.of_nat (n - 1) < 2 ^ (b - 1) <= z ^ Z.of_nat n)%Z ->
    forall zo, pydisortz b p lg la jk = Ok zo -> zo_u0 zo [z] false false false <> po_u0 out [IZR z] false false false.
  Proof.
    intros Hb Hok Hl Hz Hlead Hfit zo Hzo E.
    destruct (pydisort_parts _ _ _ _ _ Hok) as (V & ss & r & sv & Hss & Hr & Hsv & _ & _ & _ & Eu0 & _).
    set (a := assemble_args p lg r ss) in *. pose proof (a_good p V lg Hlg ss r : as_good a) as Ha.
    assert (Ezo : zo_u0 zo = cl_u0z b a sv).
    { unfold pydisortz in Hzo. destruct (validate p); [cbn [bind] in Hzo|discriminate]. destruct (check _ _); [cbn [bind] in Hzo|discriminate].
      rewrite Hss in Hzo. cbn [bind] in Hzo. rewrite Hr in Hzo. cbn [bind] in Hzo. cbv zeta in Hzo. fold a in Hzo. rewrite Hsv in Hzo. cbn [bind] in Hzo.
      injection Hzo as <-. reflexivity. }
    rewrite Ezo, Eu0 in E.
    assert (Hb0 : bot_of p l <= bottom p).
    { assert (Eb : bottom p = bot_of p (nlayers p - 1)) by (unfold bottom, bot_of, nlayers; rewrite last_nth; reflexivity). rewrite Eb.
      apply (lay_bot_le a (g_NL a Ha) eq_refl (g_inc a Ha)). cbn. unfold pNL. unfold nlayers in *. lia. }
    assert (Hr0 : 0 < IZR z <= bottom p).
    { pose proof (lay_top_nonneg a (g_NL a Ha) eq_refl (g_inc a Ha) l Hl) as H0. change (lay_top a l) with (top_of p l) in H0. lra. }
    assert (Hz0 : (0 < z)%Z) by (apply lt_IZR; lra).
    assert (Hr1 : 0 <= IZR z <= bottom p) by lra.
    assert (El : layer_of a (IZR z) = l).
    { apply (layer_of_spec a (g_NL a Ha) eq_refl (g_inc a Ha) (IZR z) l Hr1 Hl). change (lay_top a l) with (top_of p l). change (lay_bot a l) with (bot_of p l). split; [left; lra|lra]. }
    assert (Hiso : has_iso p = true) by (apply has_iso_iff; exact Hsrc).
    assert (ENs : a_Ns a = S n).
    { change (a_Ns a) with (e_Ns p). unfold has_iso, e_Ns in *. destruct (forall2b _ _ _); [discriminate|exact Hcol]. }
    set (b' := (z ^ Z.of_nat n + 2)%Z).
    assert (Hzn : (0 < z ^ Z.of_nat n)%Z) by (apply Z.pow_pos_nonneg; lia).
    assert (Hf' : pow_fits b' n z).
    { unfold pow_fits, b'. rewrite Z.abs_eq by lia. eapply Z.lt_le_trans; [apply (Z.pow_gt_lin_r 2 (z ^ Z.of_nat n)); lia|]. apply Z.pow_le_mono_r; lia. }
    assert (Hb2 : (2 <= b)%Z).
    { pose proof (Z.pow_pos_nonneg z (Z.of_nat (n - 1)) Hz0 ltac:(lia)). destruct (Z.eq_dec b 1) as [->|]; [|lia]. change (2 ^ (1 - 1))%Z with 1%Z in Hfit. lia. }
    assert (Hf : pow_fits b (n - 1) z) by (unfold pow_fits; rewrite Z.abs_eq by lia; lia).
    assert (E' : cl_u0 a sv [IZR z] false false false = cl_u0z b' a sv [z] false false false).
    { symmetry. apply (cl_u0z_eq b' ltac:(unfold b'; lia) a sv false [z]). intros _. right. rewrite ENs. split; [lia|]. intros y [<-|[]].
      unfold top_pow. replace (S n - 1)%nat with n by lia. exact Hf'. }
    rewrite E' in E.
    destruct (u0z_val V ss r sv b z ltac:(lra)) as (A & EA & SA). destruct (u0z_val V ss r sv b' z ltac:(lra)) as (A' & EA' & SA').
    cbv zeta in EA, SA, EA', SA'. fold a in EA, SA, EA', SA'. rewrite El in SA, SA'. rewrite EA, EA' in E. injection E as <-.
    set (N := half p). set (nu := fun k => nth k (mu_arr p lg) 0).
    assert (Hnu : forall k, (k < 2 * N)%nat -> node N (quad_mu p lg) k = nu k) by (intros k Hk; symmetry; apply (mu_arr_node p lg); auto).
    pose proof (half_pos p V : (1 <= N)%nat) as HN1.
    assert (Hnu0 : nu 0%nat <> 0).
    { unfold nu. rewrite (mu_arr_node p lg) by (fold N; lia). unfold node. fold N. destruct (Nat.ltb_spec 0 N); [|lia].
      pose proof (quad_in p lg Hlg 0%nat ltac:(auto)). lra. }
    pose proof (g_NF a Ha) as HNF.
    destruct (cutoff_ex (a_omega a l) (a_wLeg a l) (a_NLeg a) 0) as (wg' & Hc2).
    destruct (sv_eigen a Ha la Hla jk sv Hsv 0 l wg' (g_NF a Ha) Hl Hc2) as [HA _].
    set (AA := A_spec (a_N a) (a_mu a) (a_W a) (a_omega a l) wg' (a_NLeg a) 0) in *.
    destruct (solve_stage a la jk sv Hsv) as (o & C & Ho & EG & EK & _ & Egm & _).
    assert (HKn : forall j, (j < 2 * a_N a)%nat -> sv_K sv 0 l j <> 0) by (intros j Hj; apply (sv_K_ne a Ha la Hla jk sv Hsv); auto; apply (g_NF a Ha)).
    assert (HG : forall i j, (i < 2 * a_N a)%nat -> (j < 2 * a_N a)%nat -> rsum (2 * a_N a) (fun k => sv_G sv 0 l i k * o_Ginv o l k j) = delta i j)
      by (rewrite EG; apply (ginv_spec (gp_of a) la Hla _ _ _ _ _ o Ho l); auto).
    assert (Hgm : forall k, (k < 2 * a_N a)%nat -> sv_gmi sv l k = rsum (2 * a_N a) (fun j => o_Ginv o l k j * (1 / nu j))).
    { intros k Hk. rewrite Egm. unfold inv_mu_inv. apply rsum_ext. intros j Hj. rewrite <- Hnu by exact Hj. rewrite <- (nu_inv a Ha j Hj). reflexivity. }
    destruct (zv_some n (2 * a_N a) ltac:(lia) AA (sv_G sv 0 l) (o_Ginv o l) (sv_K sv 0 l) nu (sv_gmi sv l) HA HKn HG Hgm) as (q & Hq & Hzv).
    { change (a_N a) with N. lia. } { exact Hnu0. }
    assert (Hq' : (q < streams p)%nat) by (rewrite (streams_eq p V); exact Hq).
    pose proof (one_depth p V A _ q Hq' SA) as E1. pose proof (one_depth p V A _ q Hq' SA') as E2. cbn [nth] in E1, E2. rewrite E1 in E2. clear E1.
    pose proof (vz_diff b b' (a_s a l) (sv_G sv 0%nat l) (sv_K sv 0%nat l) (sv_gmi sv l) q z) as D.
    change (2 * half p)%nat with (2 * a_N a)%nat in D. specialize (D ltac:(intros j Hj; rewrite (ipow_fits b (n - 1)), (ipow_fits b' n) by (auto; lia); reflexivity)).
    pose proof (r_iso p ss r Hr Hiso) as Hrne.
    assert (Hs : a_s a l n <> 0).
    { cbn [a assemble_args a_s]. unfold Rdiv. apply Rmult_integral_contrapositive_currified.
      - apply (ss_lead p V ss l n); auto.
      - apply Rinv_neq_0_compat. apply (divisor_ne p lg ss r Hr). }
    assert (Hp : ipow b z n - ipow b' z n <> 0).
    { rewrite (ipow_fits b' n) by (auto; unfold b'; lia). unfold ipow. rewrite pow_IZR. rewrite <- minus_IZR. apply not_0_IZR.
      pose proof (wrap_out b (z ^ Z.of_nat n) Hb). lia. }
    apply (Rmult_integral_contrapositive_currified r (a_s a l n * (ipow b z n - ipow b' z n) * zv (2 * a_N a) (sv_G sv 0%nat l) (sv_K sv 0%nat l) (sv_gmi sv l) q)); auto.
    - repeat apply Rmult_integral_contrapositive_currified; auto.
    - rewrite <- D. lra.
  Qed.
End Diff.
