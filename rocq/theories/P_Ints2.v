(** Beyond the range of the integers the particular solution of the isotropic source is wrong. *)
From Coq Require Import String Reals Lra Lia List Bool Arith ZArith.
From Coquelicot Require Import Coquelicot.
From Verif Require Import Base Tensor Spec M_LinAlg Spec_RTE Calc M_Subroutines M_GenPart M_MathscrV M_Coeffs M_Assemble M_Pydisort M_Ints
  P_Sub P_GenPart P_GenPart3 P_Tensor P_MathscrV P_Coeffs2 P_Coeffs3 P_Assemble P_Solve Spec_Sol P_Valid P_Pydisort P_Pydisort2 P_Pydisort3 P_Ints.
Import ListNotations.
Local Open Scope R_scope.

(** What is computed, whatever the factorials. *)
Definition cofI {IM : IntModel} (Ns : nat) (s : vec) (k : R) (j : nat) : R :=
  1 / np_fact j * rsum (Ns - j) (fun p => np_fact (j + p) * s (j + p)%nat * (1 / k) ^ S p).
Definition zI {IM : IntModel} (Ns : nat) (s : vec) (k t : R) : R := rsum Ns (fun j => cofI Ns s k j * t ^ j).
Definition vI {IM : IntModel} (nq Ns : nat) (s : vec) (G : mat) (K gm : vec) (q : nat) (t : R) : R :=
  rsum nq (fun k => G q k * (zI Ns s (K k) t * gm k)).

Section Values.
  Context {IM : IntModel}.
  Variables (nr nq NL : nat) (tau : list R) (scale_tau : tensor) (l : list nat) (Ns : nat).
  Variables (s : nat -> vec) (G : nat -> mat) (K : nat -> vec) (gm : nat -> vec).
  Hypothesis Hl : length l = length tau.
  Hypothesis Hb : forall i, In i l -> (i < NL)%nat.
  Let L t := nth t l 0%nat.

  Lemma b_sigma_I j ll k : (j < Ns)%nat -> b_sigma Ns s K (Ns - 1 - j) ll k = cofI Ns (s ll) (K ll k) j.
  Proof.
    intros Hj. unfold b_sigma, cofI, fac_rev. replace (Ns - 1 - (Ns - 1 - j))%nat with j by lia.
    rewrite Rmult_comm. f_equal.
    replace Ns with ((Ns - j) + j)%nat at 1 by lia. rewrite rsum_split. rewrite (rsum_0 j).
    2:{ intros i Hi. unfold lower_tri. rewrite (proj2 (Nat.leb_gt _ _)) by lia. ring. }
    rewrite Rplus_0_r. apply rsum_ext. intros p Hp. unfold lower_tri. rewrite (proj2 (Nat.leb_le _ _)) by lia.
    unfold weighted_a, fac_rev, K_invP, K_inv. replace (Ns - 1 - (Ns - 1 - j - p))%nat with (j + p)%nat by lia. ring.
  Qed.
  Lemma mb_I : T3 (mathscr_b nr nq NL Ns s G K gm) NL nr Ns (fun ll q p => rsum nq (fun k => G ll q k * b_right Ns s K gm p ll k)).
  Proof. split; reflexivity. Qed.
  Lemma branchN_sum_I (h : nat -> R) q ll :
    rsum Ns (fun p => rsum nq (fun k => G ll q k * b_right Ns s K gm p ll k) * h p)
    = rsum nq (fun k => G ll q k * (rsum Ns (fun j => cofI Ns (s ll) (K ll k) j * h (Ns - 1 - j)%nat) * gm ll k)).
  Proof.
    rewrite (rsum_ext Ns _ (fun p => rsum nq (fun k => G ll q k * b_right Ns s K gm p ll k * h p))).
    2:{ intros p Hp. rewrite rsum_scal_r. reflexivity. }
    rewrite rsum_swap. apply rsum_ext. intros k Hk.
    rewrite <- rsum_scal_r, <- rsum_scal. rewrite rsum_rev. apply rsum_ext. intros j Hj.
    unfold b_right. rewrite b_sigma_I by auto. ring.
  Qed.
  Lemma mathscr_v_I : (3 <= Ns)%nat -> exists C, mathscr_v nr nq NL tau scale_tau l Ns s G K gm false = Ok C /\
    T2 C nr (length tau) (fun q t => vI nq Ns (s (L t)) (G (L t)) (K (L t)) (gm (L t)) q (nth t tau 0)).
  Proof.
    intros HN. unfold mathscr_v. rewrite (proj2 (Nat.eqb_neq Ns 1)), (proj2 (Nat.eqb_neq Ns 2)) by lia.
    unfold v_branchN. cbn [bind]. destruct (T3_take0 _ _ _ _ _ l mb_I Hb) as (D & HD & [SD ED]).
    rewrite HD. cbn [bind shp]. rewrite <- Hl, list_eqb_refl. eexists. split; [reflexivity|].
    split; [reflexivity|]. intros q t Hq Ht. cbn [elt nth].
    rewrite (rsum_ext Ns _ (fun p => rsum nq (fun k => G (L t) q k * b_right Ns s K gm p (L t) k) * nth t tau 0 ^ (Ns - 1 - p))).
    2:{ intros p Hp. rewrite ED by auto. reflexivity. }
    rewrite branchN_sum_I. unfold vI, zI. apply rsum_ext. intros k Hk. do 2 f_equal. apply rsum_ext. intros j Hj.
    replace (Ns - 1 - (Ns - 1 - j))%nat with j by lia. reflexivity.
  Qed.
End Values.

(** The first factorial that is wrong. *)
Section First.
  Context {IM : IntModel}.
  Variable n : nat.
  Hypothesis Hn : (1 <= n)%nat.
  Hypothesis Hex : forall k, (k < n)%nat -> np_fact k = INR (fact k).
  Hypothesis HF : np_fact n <> 0.
  Definition ek (d k x : R) : R := rsum n (fun j => d * (/ INR (fact j) * (1 / k) ^ S (n - j)) * x ^ j).

  Lemma cofI_first s k j : (j <= n)%nat ->
    cofI (S n) s k j = cof (S n) s k j + (if Nat.ltb j n then (np_fact n - INR (fact n)) * s n * (/ INR (fact j) * (1 / k) ^ S (n - j)) else 0).
  Proof.
    intros Hj. unfold cofI, cof. destruct (Nat.ltb_spec j n) as [H|H].
    - replace (S n - j)%nat with (S (n - j)) by lia. cbn [rsum].
      rewrite (rsum_ext (n - j) (fun p => np_fact (j + p) * s (j + p)%nat * (1 / k) ^ S p) (fun p => INR (fact (j + p)) * s (j + p)%nat * (1 / k) ^ S p))
        by (intros i Hi; rewrite Hex by lia; reflexivity).
      rewrite (Hex j) by lia. replace (j + (n - j))%nat with n by lia. unfold Rdiv. ring.
    - assert (j = n) by lia. subst j. replace (S n - n)%nat with 1%nat by lia. cbn [rsum]. rewrite Nat.add_0_r.
      pose proof (INR_fact_neq_0 n). unfold Rdiv. rewrite !Rplus_0_l, Rplus_0_r, Rmult_1_l, <- !Rmult_assoc, !Rinv_l by auto. reflexivity.
  Qed.
  Lemma zI_first s k x : zI (S n) s k x = zk (S n) s k x + ek ((np_fact n - INR (fact n)) * s n) k x.
  Proof.
    unfold zI, zk, ek.
    rewrite (rsum_ext (S n) (fun j => cofI (S n) s k j * x ^ j) (fun j => cof (S n) s k j * x ^ j
       + (if Nat.ltb j n then (np_fact n - INR (fact n)) * s n * (/ INR (fact j) * (1 / k) ^ S (n - j)) else 0) * x ^ j)).
    2:{ intros j Hj. rewrite cofI_first by lia. ring. }
    rewrite rsum_plus. f_equal. cbn [rsum]. rewrite Nat.ltb_irrefl, Rmult_0_l, Rplus_0_r. apply rsum_ext. intros j Hj.
    rewrite (proj2 (Nat.ltb_lt j n)) by auto. reflexivity.
  Qed.
  Lemma ek_ode d k x : k <> 0 -> is_derive (ek d k) x (k * ek d k x - d * (x ^ (n - 1) / INR (fact (n - 1))) * (1 / k)).
  Proof.
    intros Hk. unfold ek. set (c := fun j => d * (/ INR (fact j) * (1 / k) ^ S (n - j))).
    assert (Hc : forall j, (j < n)%nat -> INR (S j) * c (S j) = k * c j).
    { intros j Hj. unfold c. replace (S (n - S j)) with (n - j)%nat by lia. cbn [pow]. rewrite fact_simpl, mult_INR.
      pose proof (INR_fact_neq_0 j). pose proof (not_0_INR (S j) ltac:(lia)). field. auto. }
    apply (der_eq _ _ (rsum n (fun j => c j * (INR j * x ^ pred j)))).
    - assert (Hs : forall m, rsum m (fun j => c j * (INR j * x ^ pred j)) + INR m * c m * x ^ pred m
                 = rsum m (fun j => INR (S j) * c (S j) * x ^ j)).
      { induction m; [simpl; ring|]. cbn [rsum]. rewrite <- IHm. cbn [pred]. ring. }
      pose proof (Hs n) as H. rewrite (rsum_ext n (fun j => INR (S j) * c (S j) * x ^ j) (fun j => k * (c j * x ^ j))) in H by (intros; rewrite Hc by auto; ring).
      rewrite rsum_scal in H. change (rsum n (fun j => d * (/ INR (fact j) * (1 / k) ^ S (n - j)) * x ^ j)) with (rsum n (fun j => c j * x ^ j)).
      rewrite <- H.
      assert (E : INR n * c n = d * / INR (fact (n - 1)) * (1 / k)).
      { replace n with (S (n - 1)) at 1 2 by lia. rewrite Hc by lia. unfold c. replace (n - (n - 1))%nat with 1%nat by lia.
        cbn [pow]. pose proof (INR_fact_neq_0 (n - 1)). field. auto. }
      rewrite E. replace (pred n) with (n - 1)%nat by lia. unfold Rdiv. ring.
    - apply (der_sum n (fun j y => c j * y ^ j)). intros j Hj. apply der_scal, der_pow.
  Qed.
End First.

(** The error of the particular solution and its differential equation. *)
Section Err.
  Context {IM : IntModel}.
  Variables (n nq : nat).
  Hypothesis Hn : (1 <= n)%nat.
  Variables (A G Gi : mat) (K nu gm : vec).
  Hypothesis HA : forall i j, (i < nq)%nat -> (j < nq)%nat -> rsum nq (fun p => A i p * G p j) = G i j * K j.
  Hypothesis HK : forall j, (j < nq)%nat -> K j <> 0.
  Hypothesis HG : forall i j, (i < nq)%nat -> (j < nq)%nat -> rsum nq (fun p => G i p * Gi p j) = delta i j.
  Hypothesis Hgm : forall k, (k < nq)%nat -> gm k = rsum nq (fun j => Gi k j * (1 / nu j)).
  Variable d : R.
  Definition ev (q : nat) (x : R) : R := rsum nq (fun k => G q k * (ek n d (K k) x * gm k)).
  Definition zv (q : nat) : R := rsum nq (fun k => G q k * (1 / K k * gm k)).

  Lemma apply_A (f : vec) q : (q < nq)%nat -> rsum nq (fun j => A q j * rsum nq (fun k => G j k * f k)) = rsum nq (fun k => G q k * K k * f k).
  Proof.
    intros Hq. rewrite (rsum_ext nq _ (fun j => rsum nq (fun k => A q j * G j k * f k))).
    2:{ intros j Hj. rewrite <- rsum_scal. apply rsum_ext. intros; ring. }
    rewrite rsum_swap. apply rsum_ext. intros k Hk. rewrite rsum_scal_r, HA by auto. reflexivity.
  Qed.
  Lemma ev_ode q x : (q < nq)%nat ->
    is_derive (ev q) x (rsum nq (fun j => A q j * ev j x) - d * (x ^ (n - 1) / INR (fact (n - 1))) * zv q).
  Proof.
    intros Hq. unfold ev. set (c := d * (x ^ (n - 1) / INR (fact (n - 1)))).
    apply (der_eq _ _ (rsum nq (fun k => G q k * ((K k * ek n d (K k) x - c * (1 / K k)) * gm k)))).
    - rewrite (apply_A (fun k => ek n d (K k) x * gm k)) by auto. unfold zv. rewrite <- rsum_scal, <- rsum_minus. apply rsum_ext. intros k Hk. ring.
    - apply (der_sum nq (fun k y => G q k * (ek n d (K k) y * gm k))). intros k Hk.
      apply der_scal, der_scal_r. apply ek_ode; auto.
  Qed.
  Lemma zv_eq q : (q < nq)%nat -> rsum nq (fun j => A q j * zv j) = 1 / nu q.
  Proof.
    intros Hq. unfold zv. rewrite (apply_A (fun k => 1 / K k * gm k)) by auto.
    rewrite (rsum_ext nq _ (fun k => rsum nq (fun j => G q k * Gi k j * (1 / nu j)))).
    2:{ intros k Hk. rewrite Hgm by auto. rewrite <- Rmult_assoc. replace (G q k * K k * (1 / K k)) with (G q k) by (field; auto).
        rewrite <- rsum_scal. apply rsum_ext. intros. ring. }
    rewrite rsum_swap. rewrite (rsum_ext nq _ (fun j => delta q j * (1 / nu j))).
    2:{ intros j Hj. rewrite rsum_scal_r, HG by auto. reflexivity. }
    rewrite rsum_delta_l by auto. reflexivity.
  Qed.
  Lemma zv_some : (1 <= nq)%nat -> nu 0%nat <> 0 -> exists q, (q < nq)%nat /\ zv q <> 0.
  Proof.
    intros H0 Hnu. destruct (Classical_Prop.classic (exists q, (q < nq)%nat /\ zv q <> 0)) as [H|H]; [exact H|]. exfalso.
    pose proof (zv_eq 0 ltac:(lia)) as E. rewrite rsum_0 in E.
    - assert (1 / nu 0%nat <> 0) by (unfold Rdiv; rewrite Rmult_1_l; apply Rinv_neq_0_compat; auto). lra.
    - intros j Hj. destruct (Req_dec (zv j) 0) as [->|Hz]; [ring|]. exfalso. apply H. eauto.
  Qed.
End Err.

(** The leading coefficient of the source survives the scaling. *)
Lemma binom_diag n : binom n n = 1%nat.
Proof. induction n; [reflexivity|]. cbn [binom]. rewrite IHn, binom_lt by lia. reflexivity. Qed.
Lemma ss_lead p (V : valid p) ss l n : scaled_s p = Ok ss -> has_iso p = true -> ncol (p_s p) = S n -> (l < nlayers p)%nat ->
  at2 (p_s p) l n <> 0 -> ss l n <> 0.
Proof.
  intros H Hiso En Hl Hne. unfold scaled_s in H. rewrite Hiso in H. pose proof (albedo_range p V l Hl) as Hal. pose proof (scl_pos p V l Hl) as Hs.
  assert (Hom : 1 - omega_at p l <> 0) by (change (omega_at p l) with (albedo p l); lra).
  destruct (delta_M p) eqn:E.
  - pose proof (affine_ok (ncol (p_s p)) (map (s_row p) (seq 0 (pNL p))) (map (scale_tau p) (seq 0 (pNL p))) (map (translation p) (seq 0 (pNL p)))) as HA.
    rewrite !map_length, !seq_length in HA. rewrite HA in H.
    + cbn [bind] in H. injection H as <-. assert (Hl' : (l < pNL p)%nat) by exact Hl.
      rewrite nth_seq0_map by auto. rewrite !nth_seq0_map by auto. rewrite scale_tau_eq by auto.
      assert (Er : nth n (affine_row (ncol (p_s p)) (s_row p l) (1 / scl p l) (translation p l)) 0 = (1 / scl p l) ^ n * at2 (p_s p) l n).
      { unfold affine_row. rewrite En, nth_seq0_map by lia. rewrite (rsum_single (S n) n); [|lia|].
        - unfold pascal_upper. rewrite binom_diag. cbn [Nat.eqb INR]. rewrite Nat.sub_diag. unfold s_row. rewrite En, nth_seq0_map by lia. simpl. ring.
        - intros j Hj Hjn. unfold pascal_upper. rewrite binom_lt by lia. simpl. ring. }
      rewrite Er. assert (Hp : (1 / scl p l) ^ n <> 0) by (apply pow_nonzero; unfold Rdiv; rewrite Rmult_1_l; apply Rinv_neq_0_compat; lra).
      unfold Rdiv. repeat apply Rmult_integral_contrapositive_currified; auto. apply Rinv_neq_0_compat. lra.
    + reflexivity.
    + reflexivity.
    + exact (v_ne p V).
    + intros i Hi. rewrite nth_seq0_map by auto. rewrite scale_tau_eq by auto. pose proof (scl_pos p V i Hi). lra.
  - injection H as <-. apply Rmult_integral_contrapositive_currified; auto.
Qed.

Section Call.
  Context {IM : IntModel}.
  Variable n : nat.
  Hypothesis Hn : (2 <= n)%nat.
  Hypothesis Hex : forall k, (k < n)%nat -> np_fact k = INR (fact k).
  Hypothesis HF : np_fact n <> 0.
  Hypothesis Hwrong : np_fact n <> INR (fact n).
  Variables (p : py_in) (lg : leggauss_t) (la : linalg) (jk : junk) (out : py_out).
  Hypothesis Hla : linalg_ok la.
  Hypothesis Hlg : leggauss_ok (half p) (lg (half p)).
  Hypothesis Hcol : ncol (p_s p) = S n.
  Hypothesis Hok : pydisort p lg la jk = Ok out.

  Theorem wrong_call : exists w U,
    double_gauss (half p) (po_mu out) w /\
    (forall tau, depths_ok p tau -> exists A, po_u0 out tau false false false = Ok (PVal (PT A)) /\
       squeezed A [streams p; length tau] (fun idx => U (nth 0 idx 0%nat) (nth (nth 1 idx 0%nat) tau 0))) /\
    forall l wg t, (l < nrow (p_s p))%nat -> at2 (p_s p) l n <> 0 -> top_of p l < t < bot_of p l ->
      is_cutoff (albedo_s p l) (wphase_s p l) (ncoeffs p) 0 wg ->
      exists i, (i < streams p)%nat /\
        ~ is_derive (U i) t (rte p (po_mu out) w wg 0 l i t (fun j => U j t) / nth i (po_mu out) 0).
  Proof.
    destruct (pydisort_parts _ _ _ _ _ Hok) as (V & ss & r & sv & Hss & Hr & Hsv & Emu & _ & _ & Eu0 & _).
    set (a := assemble_args p lg r ss) in *. pose proof (a_good p V lg Hlg ss r : as_good a) as Ha.
    rewrite Emu.
    set (val := fun l q x => fld_hb a sv 0 l q x + (if has_iso p then vI (2 * a_N a) (a_Ns a) (a_s a l) (sv_G sv 0%nat l) (sv_K sv 0%nat l) (sv_gmi sv l) q x else 0)).
    exists (quad_W p lg), (fun i t => r * val (layer_of a t) i (scaled_of a t)).
    split; [apply (mu_arr_gauss p lg Hlg)|]. split.
    - intros tau Ht. rewrite Eu0. unfold cl_u0, tau_check. pose proof (range_ok p lg ss r tau Ht : in_range a tau = true) as Hrg. rewrite Hrg. cbn [check bind].
      assert (HU : exists C, u0_all a sv false tau = Ok C /\ T2 C (2 * a_N a) (length tau) (fun q t => val (layer_of a (nth t tau 0)) q (scaled_of a (nth t tau 0)))).
      { unfold u0_all.
        assert (T : T2 (u0_core a sv false tau) (2 * a_N a) (length tau) (fun q t => fld_hb a sv 0 (layer_of a (nth t tau 0)) q (scaled_of a (nth t tau 0)))).
        { split; [reflexivity|]. intros q t Hq Hnt. unfold u0_core, at_tau. cbn [elt nth andb]. rewrite hom_beam. reflexivity. }
        change (a_iso a) with (has_iso p). destruct (has_iso p) eqn:Ei.
        - assert (HI : exists v, iso_part a sv false 0 (2 * a_N a) tau = Ok v /\
            T2 v (2 * a_N a) (length tau) (fun q t => vI (2 * a_N a) (a_Ns a) (a_s a (layer_of a (nth t tau 0))) (sv_G sv 0%nat (layer_of a (nth t tau 0)))
               (sv_K sv 0%nat (layer_of a (nth t tau 0))) (sv_gmi sv (layer_of a (nth t tau 0))) q (scaled_of a (nth t tau 0)))).
          { unfold iso_part.
            match goal with |- exists v, mathscr_v ?nr ?nq ?nl ?ta ?sc ?l ?ns ?s ?G ?K ?gm _ = _ /\ _ =>
              destruct (mathscr_v_I nr nq nl ta sc l ns s G K gm) as (C & HC & SC & EC) end.
            - rewrite uniq_inv_len. unfold layers, scaled_taus. rewrite !map_length. reflexivity.
            - intros i. apply uniq_inv_lt. exact (layers_lt a (g_NL a Ha) eq_refl tau Ht).
            - change (a_Ns a) with (e_Ns p). unfold has_iso, e_Ns in *. destruct (forall2b _ _ _); [discriminate|]. lia.
            - exists C. split; [exact HC|]. split; [rewrite SC; unfold scaled_taus; rewrite map_length; reflexivity|].
              assert (Ln : length (scaled_taus a tau) = length tau) by (unfold scaled_taus; rewrite map_length; auto).
              intros q t Hq Hnt. rewrite EC by (auto; rewrite Ln; auto). rewrite (staus_nth a tau t) by auto.
              rewrite uniq_inv_nth by (try exact (layers_lt a (g_NL a Ha) eq_refl tau Ht); unfold layers; rewrite map_length; auto).
              rewrite (layers_nth a tau t) by auto. reflexivity. }
          destruct HI as (v & Hv & Tv). rewrite Hv. cbn [bind].
          destruct (T2_op Rplus _ v _ _ _ _ T Tv) as (C & HC & TC). exists C. split; [exact HC|].
          refine (T2_ext _ _ _ _ _ _ TC). intros q t _ _. reflexivity.
        - eexists. split; [reflexivity|]. refine (T2_ext _ _ _ _ _ _ T). intros q t _ _. unfold val. ring. }
      destruct HU as (C & HC & SC & EC). rewrite HC. cbn [bind orb app].
      exists (tscal r (tsqueeze C)). split; [reflexivity|].
      apply squeezed_scal; [rewrite SC, (streams_eq p V); reflexivity|]. intros idx Hi.
      apply inb_2 in Hi as (i & j & -> & Hi & Hj). cbn [nth]. rewrite EC; auto. rewrite (streams_eq p V) in Hi. exact Hi.
    - intros l wg t Hlr Hlead Ht Hc.
      assert (Hiso : has_iso p = true) by (apply has_iso_iff; exists l, n; split; [exact Hlr|split; [lia|exact Hlead]]).
      assert (Hl : (l < nlayers p)%nat) by (rewrite <- (v_ns p V); [exact Hlr|apply has_iso_iff; exact Hiso]).
      assert (ENs : a_Ns a = S n).
      { change (a_Ns a) with (e_Ns p). unfold has_iso, e_Ns in *. destruct (forall2b _ _ _); [discriminate|exact Hcol]. }
      set (N := half p). set (x := depth_s p l t). set (nu := fun k => nth k (mu_arr p lg) 0).
      assert (Hnu : forall k, (k < 2 * N)%nat -> node N (quad_mu p lg) k = nu k) by (intros k Hk; symmetry; apply (mu_arr_node p lg); auto).
      pose proof (half_pos p V : (1 <= N)%nat) as HN1.
      assert (Hnu0 : forall k, (k < 2 * N)%nat -> nu k <> 0).
      { intros k Hk. unfold nu. rewrite (mu_arr_node p lg) by auto. unfold node. fold N. destruct (Nat.ltb_spec k N).
        - pose proof (quad_in p lg Hlg k ltac:(auto)). lra.
        - pose proof (quad_in p lg Hlg (k - N)%nat ltac:(unfold N in *; lia)). lra. }
      assert (Hx : 0 < x).
      { pose proof (scl_pos p V l Hl) as Hs. unfold x, depth_s. assert (0 <= rsum l (fun k => scl p k * (bot_of p k - top_of p k))) by (apply rsum_nonneg; intros k Hk; pose proof (scl_pos p V k ltac:(lia)); pose proof (v_inc p V k ltac:(unfold nlayers in *; lia)); apply Rmult_le_pos; lra). assert (0 < scl p l * (t - top_of p l)) by (apply Rmult_lt_0_compat; lra). lra. }
      destruct (cutoff_transfer (albedo_s p l) (weighted_scaled_Leg p l) (wphase_s p l) (ncoeffs p) 0 wg) as (wg' & Hc' & Hw); auto.
      { intros k. apply wleg_eq; auto. }
      assert (Hom : a_omega a l = albedo_s p l) by (apply scaled_omega_eq; auto).
      assert (Hc2 : is_cutoff (a_omega a l) (a_wLeg a l) (a_NLeg a) 0 wg') by (rewrite Hom; exact Hc').
      pose proof (g_NF a Ha) as HNF.
      destruct (sv_eigen a Ha la Hla jk sv Hsv 0 l wg' HNF Hl Hc2) as [HA _].
      set (A := A_spec (a_N a) (a_mu a) (a_W a) (a_omega a l) wg' (a_NLeg a) 0) in *.
      destruct (solve_stage a la jk sv Hsv) as (o & C & Ho & EG & EK & _ & Egm & _).
      assert (HKn : forall j, (j < 2 * a_N a)%nat -> sv_K sv 0 l j <> 0) by (intros j Hj; apply (sv_K_ne a Ha la Hla jk sv Hsv); auto).
      assert (HG : forall i j, (i < 2 * a_N a)%nat -> (j < 2 * a_N a)%nat -> rsum (2 * a_N a) (fun k => sv_G sv 0 l i k * o_Ginv o l k j) = delta i j)
        by (rewrite EG; apply (ginv_spec (gp_of a) la Hla _ _ _ _ _ o Ho l); auto).
      assert (Hgm : forall k, (k < 2 * a_N a)%nat -> sv_gmi sv l k = rsum (2 * a_N a) (fun j => o_Ginv o l k j * (1 / nu j))).
      { intros k Hk. rewrite Egm. unfold inv_mu_inv. apply rsum_ext. intros j Hj. rewrite <- Hnu by exact Hj. rewrite <- (nu_inv a Ha j Hj). reflexivity. }
      set (d := (np_fact n - INR (fact n)) * a_s a l n).
      assert (Hd : d <> 0).
      { unfold d. apply Rmult_integral_contrapositive_currified; [lra|]. cbn [a assemble_args a_s]. unfold Rdiv. apply Rmult_integral_contrapositive_currified.
        - apply (ss_lead p V ss l n); auto.
        - apply Rinv_neq_0_compat. apply (divisor_ne p lg ss r Hr). }
      set (E := ev n (2 * a_N a) (sv_G sv 0 l) (sv_K sv 0 l) (sv_gmi sv l) d).
      destruct (zv_some n (2 * a_N a) ltac:(lia) A (sv_G sv 0 l) (o_Ginv o l) (sv_K sv 0 l) nu (sv_gmi sv l) HA HKn HG Hgm) as (q & Hq & Hz).
      { change (a_N a) with N. lia. } { apply Hnu0. lia. }
      exists q. split; [rewrite (streams_eq p V); exact Hq|]. intros HD.
      assert (Hval : forall i y, top_of p l < y < bot_of p l -> r * val (layer_of a y) i (scaled_of a y) = Flay p lg ss r sv 0 l i y + r * E i (depth_s p l y)).
      { intros i y Hy.
        assert (Hb : bot_of p l <= bottom p).
        { assert (Eb : bottom p = bot_of p (nlayers p - 1)) by (unfold bottom, bot_of, nlayers; rewrite last_nth; reflexivity). rewrite Eb.
          apply (lay_bot_le a (g_NL a Ha) eq_refl (g_inc a Ha)). cbn. unfold pNL. unfold nlayers in *. lia. }
        assert (Hr0 : 0 <= y <= bottom p) by (pose proof (lay_top_nonneg a (g_NL a Ha) eq_refl (g_inc a Ha) l Hl) as H0; change (lay_top a l) with (top_of p l) in H0; lra).
        assert (El : layer_of a y = l).
        { apply (layer_of_spec a (g_NL a Ha) eq_refl (g_inc a Ha) y l Hr0 Hl). change (lay_top a l) with (top_of p l). change (lay_bot a l) with (bot_of p l). split; [left; lra|lra]. }
        pose proof (scaled_of_depth p V lg Hlg ss r y ltac:(lra)) as Es. fold a in Es. rewrite Es, El.
        unfold val, Flay. fold a. unfold fld. change (a_iso a) with (has_iso p). rewrite Hiso. cbn [Nat.eqb andb].
        assert (Ev : vI (2 * a_N a) (a_Ns a) (a_s a l) (sv_G sv 0 l) (sv_K sv 0 l) (sv_gmi sv l) i (depth_s p l y) = fld_iso a sv l i (depth_s p l y) + E i (depth_s p l y)).
        { unfold vI, fld_iso, vsol, E, ev. rewrite <- rsum_plus. apply rsum_ext. intros k Hk. rewrite ENs. rewrite (zI_first n ltac:(lia) Hex HF). fold d. ring. }
        rewrite Ev. ring. }
      pose proof (Flay_ode p V lg Hlg ss r Hss Hr la Hla jk sv Hsv 0 l q wg t ltac:(apply nmodes_pos; auto) Hl ltac:(rewrite (streams_eq p V); exact Hq) Hc) as D1.
      assert (Hdd : is_derive (fun t => depth_s p l t) t (scl p l)).
      { unfold depth_s. apply (der_eq _ _ (0 + scl p l * (1 - 0))); [ring|]. apply der_plus; [apply der_const|]. apply der_scal, der_minus; [apply der_id|apply der_const]. }
      pose proof (ev_ode n (2 * a_N a) ltac:(lia) A (sv_G sv 0 l) (sv_K sv 0 l) (sv_gmi sv l) HA HKn d q x Hq) as D2. fold E in D2.
      set (c := d * (x ^ (n - 1) / INR (fact (n - 1)))) in D2.
      pose proof (der_plus _ _ _ _ _ D1 (der_scal _ r _ _ (der_comp (E q) (fun t => depth_s p l t) t _ _ Hdd D2))) as D3.
      assert (D4 : is_derive (fun y => Flay p lg ss r sv 0 l q y + r * E q (depth_s p l y)) t
                     (rte p (mu_arr p lg) (quad_W p lg) wg 0 l q t (fun j => r * val (layer_of a t) j (scaled_of a t)) / nu q)).
      { refine (is_derive_ext_loc (V := R_NormedModule) _ _ _ _ _ HD).
        assert (He : 0 < Rmin (t - top_of p l) (bot_of p l - t)) by (apply Rmin_glb_lt; lra).
        exists (mkposreal _ He). intros y Hy. apply Hval. change (Rabs (y - t) < Rmin (t - top_of p l) (bot_of p l - t)) in Hy.
        pose proof (Rmin_l (t - top_of p l) (bot_of p l - t)). pose proof (Rmin_r (t - top_of p l) (bot_of p l - t)).
        assert (HR : Rabs (y - t) < t - top_of p l /\ Rabs (y - t) < bot_of p l - t) by lra. destruct HR as [R1 R2].
        apply Rabs_def2 in R1. apply Rabs_def2 in R2. lra. }
      pose proof (eq_trans (eq_sym (is_derive_unique _ _ _ D4)) (is_derive_unique _ _ _ D3)) as U3. clear D4 D3 D2 D1 HD.
      (* the equation is linear *)
      assert (ES : rsum (2 * N) (fun j => A q j * E j x) = (E q x - rsum (2 * N) (fun j => wnode N (quad_W p lg) j * D_spec (albedo_s p l) wg (ncoeffs p) 0 (nu q) (nu j) * E j x)) / nu q).
      { rewrite (rsum_ext (2 * N) _ (fun j => (delta q j * E j x - wnode N (quad_W p lg) j * D_spec (albedo_s p l) wg (ncoeffs p) 0 (nu q) (nu j) * E j x) / nu q)).
        - rewrite rsum_div, rsum_minus. rewrite (rsum_single (2 * N) q (fun j => delta q j * E j x)); auto.
          + rewrite delta_eq. f_equal. ring.
          + intros j Hj Hne. rewrite delta_ne by auto. ring.
        - intros j Hj. unfold A, A_spec. change (a_N a) with N. change (a_mu a) with (quad_mu p lg). change (a_W a) with (quad_W p lg). change (a_NLeg a) with (ncoeffs p).
          rewrite Hom. rewrite !Hnu by auto. rewrite (D_spec_om _ wg' wg) by auto. unfold Rdiv. ring. }
      change (2 * a_N a)%nat with (2 * N)%nat in U3. rewrite ES in U3. unfold rte in U3. cbn [Nat.eqb] in U3. rewrite (streams_eq p V) in U3. fold N in U3.
      fold (nu q) in U3.
      rewrite (rsum_ext (2 * N) (fun j => _ * (r * val _ j _)) (fun j => wnode N (quad_W p lg) j * D_spec (albedo_s p l) wg (ncoeffs p) 0 (nu q) (nu j) * Flay p lg ss r sv 0 l j t
         + r * (wnode N (quad_W p lg) j * D_spec (albedo_s p l) wg (ncoeffs p) 0 (nu q) (nu j) * E j x))) in U3.
      2:{ intros j Hj. rewrite Hval by auto. unfold x. fold (nu j). ring. }
      rewrite rsum_plus, rsum_scal in U3. rewrite Hval in U3 by auto. fold x in U3.
      pose proof (scl_pos p V l Hl) as Hs. pose proof (r_iso p ss r Hr Hiso) as Hr0. pose proof (Hnu0 q Hq) as Hnq.
      assert (Hc0 : c <> 0).
      { unfold c. apply Rmult_integral_contrapositive_currified; auto. unfold Rdiv. apply Rmult_integral_contrapositive_currified.
        - apply pow_nonzero. lra.
        - apply Rinv_neq_0_compat, INR_fact_neq_0. }
      set (z := zv _ _ _ _ q) in *. fold (nu q) in U3. change (fun k : nat => nu k) with nu in U3.
      assert (Z0 : r * (scl p l * (c * z)) = 0).
      { clear - U3 Hnq. unfold nu in U3, Hnq.
        match type of U3 with (scl p l * (?f + r * ?e - (?sf + r * ?se) - ?xx) - ?so) / ?nq = _ =>
          assert (H : (scl p l * (f + r * e - (sf + r * se) - xx) - so) / nq = (scl p l * (f - sf - xx) - so) / nq + r * (scl p l * ((e - se) / nq))) by (field; exact Hnq);
          rewrite H in U3; replace (r * (scl p l * ((e - se) / nq - c * z))) with (r * (scl p l * ((e - se) / nq)) - r * (scl p l * (c * z))) in U3 by ring
        end. lra. }
      apply Rmult_integral in Z0 as [Z0|Z0]; [auto|]. apply Rmult_integral in Z0 as [Z0|Z0]; [lra|]. apply Rmult_integral in Z0 as [Z0|Z0]; auto.
  Qed.
End Call.
