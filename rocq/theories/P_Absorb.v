(** Atmospheres in which nothing scatters: the boundary system has exactly one solution,
    whatever the number of layers, streams and modes, and the call succeeds. *)
From Coq Require Import String Reals Lra Lia List Bool Arith ZArith.
From Coquelicot Require Import Coquelicot.
From Verif Require Import Base Tensor Spec M_LinAlg Spec_RTE Calc M_Subroutines M_GenPart M_MathscrV M_Coeffs M_Assemble M_Pydisort
  P_Sub P_Special P_GenPart P_GenPart2 P_GenPart3 P_GenPart4 P_Tensor P_MathscrV P_Coeffs P_Coeffs2 P_Coeffs3 P_Assemble P_Solve
  Spec_Sol Spec_Valid Spec_Calls P_Valid P_Pydisort P_Pydisort2 P_Pydisort3.
Import ListNotations.
Local Open Scope R_scope.

(** The linear solvers succeed on a system with one solution. *)
Lemma mode_unique_ok la g m y bd r0 r1 : linalg_complete la -> (1 <= sc_N g)%nat -> (1 <= sc_NLayers g)%nat ->
  bd_terms g m = Ok bd -> rhs_bc g m (fun _ => 0) = Ok r0 -> rhs_iso g m bd r0 = Ok r1 ->
  (forall i, (i < sc_NLayers g * (2 * sc_N g))%nat ->
     rsum (sc_NLayers g * (2 * sc_N g)) (fun j => dense_lhs g m bd (fun _ _ => 0) i j * y j) = rhs_beam g m bd r1 i) ->
  (forall z : vec, (forall i, (i < sc_NLayers g * (2 * sc_N g))%nat ->
     rsum (sc_NLayers g * (2 * sc_N g)) (fun j => dense_lhs g m bd (fun _ _ => 0) i j * z j) = rhs_beam g m bd r1 i) ->
     forall i, (i < sc_NLayers g * (2 * sc_N g))%nat -> z i = y i) ->
  exists C, mode_coeffs g la m = Ok C.
Proof.
  intros [F1 F2] HN HNL E1 E2 E3 H Hu. unfold mode_coeffs, mode_rhs. rewrite E1. cbn [bind]. rewrite E2. cbn [bind]. rewrite E3. cbn [bind].
  unfold mode_solve. destruct (Nat.leb _ _).
  - destruct (band_sim g HN HNL m bd _ _ (Rel_0 g)) as (F0 & EF & R0). rewrite EF. cbn [bind].
    match goal with |- context [la_solve_banded la ?l ?u ?ab (vlist ?n ?b)] => destruct (F2 n l u ab b y) as (x & ->); [| |cbn; eauto] end.
    + intros i Hi. rewrite <- H by lia. apply rsum_ext. intros j Hj. f_equal.
      rewrite (banded_reads g HN HNL F0 i j) by lia. apply (proj1 R0); lia.
    + intros z Hz. apply Hu. intros i Hi. specialize (Hz i Hi).
      rewrite <- Hz. apply rsum_ext. intros j Hj. f_equal. rewrite (banded_reads g HN HNL F0 i j) by lia. symmetry. apply (proj1 R0); lia.
  - destruct (F1 _ _ _ y H Hu) as (x & ->). cbn. eauto.
Qed.

Section Decoupled.
  Variable g : sc_in.
  Hypothesis HN : (1 <= sc_N g)%nat.
  Hypothesis HNL : (1 <= sc_NLayers g)%nat.
  Hypothesis Hmulti : sc_multi g = Nat.ltb 1 (sc_NLayers g).
  Variable m : nat.
  Hypothesis HK : sc_iso g = true -> forall l k, (l < sc_NLayers g)%nat -> (k < 2 * sc_N g)%nat -> sc_K g 0%nat l k <> 0.
  Hypothesis Hanti : forall l j, (l < sc_NLayers g)%nat -> (j < sc_N g)%nat -> sc_K g m l j = - sc_K g m l (sc_N g + j)%nat.
  Hypothesis Ht0 : sc_tau0 g 0%nat = 0.
  Hypothesis HG : forall l i j, (l < sc_NLayers g)%nat -> (i < 2 * sc_N g)%nat -> (j < 2 * sc_N g)%nat ->
    sc_G g m l i j = if Nat.ltb i (sc_N g) then delta (sc_N g + i)%nat j else delta (i - sc_N g)%nat j.
  Local Notation N := (sc_N g).
  Local Notation NL := (sc_NLayers g).
  Local Notation NQ := (2 * sc_N g)%nat.
  Local Notation t := (sc_tau0 g).

  (** Part of the field that does not depend on the coefficients. *)
  Definition P (l q : nat) (x : R) : R := part_beam g m l q * exp (- x / sc_mu0 g) + part_iso g m l q x.
  Definition GCof (C : vec) : nat -> mat := fun l i j => sc_G g m l i j * C (l * NQ + j)%nat.

  Lemma field_dn C l j x : (l < NL)%nat -> (j < N)%nat ->
    field g m (GCof C) l (N + j) x = C (l * NQ + j)%nat * exp (sc_K g m l j * (x - t l)) + P l (N + j) x.
  Proof.
    intros Hl Hj. unfold field, P, GCof. rewrite (rsum_single NQ j) by
      (try lia; intros k Hk Hne; rewrite HG by lia; rewrite (proj2 (Nat.ltb_ge _ _)) by lia; replace (N + j - N)%nat with j by lia; rewrite delta_ne by auto; ring).
    rewrite HG by lia. rewrite (proj2 (Nat.ltb_ge _ _)) by lia. replace (N + j - N)%nat with j by lia. rewrite delta_eq.
    unfold ref_depth. rewrite (proj2 (Nat.ltb_lt _ _)) by lia. ring.
  Qed.
  Lemma field_up C l j x : (l < NL)%nat -> (j < N)%nat ->
    field g m (GCof C) l j x = C (l * NQ + (N + j))%nat * exp (sc_K g m l (N + j)%nat * (x - t (l + 1)%nat)) + P l j x.
  Proof.
    intros Hl Hj. unfold field, P, GCof. rewrite (rsum_single NQ (N + j)%nat) by
      (try lia; intros k Hk Hne; rewrite HG by lia; rewrite (proj2 (Nat.ltb_lt _ _)) by lia; rewrite delta_ne by auto; ring).
    rewrite HG by lia. rewrite (proj2 (Nat.ltb_lt _ _)) by lia. rewrite delta_eq.
    unfold ref_depth. rewrite (proj2 (Nat.ltb_ge _ _)) by lia. ring.
  Qed.

  Variables (bneg bpos : vec) (bd : option (mat * vec)).
  (** Coefficients of the downward streams from the top down, then of the upward streams from
      the bottom up. *)
  Fixpoint Dn (l : nat) (j : nat) : R :=
    match l with
    | O => bneg j - P 0 (N + j) 0
    | S k => Dn k j * exp (sc_K g m k j * (t (S k) - t k)) + P k (N + j) (t (S k)) - P (S k) (N + j) (t (S k))
    end.
  Definition dn_bottom (j : nat) : R := Dn (NL - 1) j * exp (sc_K g m (NL - 1) j * (t NL - t (NL - 1)%nat)) + P (NL - 1) (N + j) (t NL).
  Fixpoint Up (k : nat) (j : nat) : R :=
    match k with
    | O => bpos j + rsum N (fun p => bdR bd j p * dn_bottom p) + (if sc_beam g then bdX bd j else 0) * exp (- t NL / sc_mu0 g) - P (NL - 1) j (t NL)
    | S k' => let l := (NL - 1 - S k')%nat in
        Up k' j * exp (sc_K g m (l + 1) (N + j)%nat * (t (l + 1)%nat - t (l + 2)%nat)) + P (l + 1) j (t (l + 1)%nat) - P l j (t (l + 1)%nat)
    end.
  Definition Csol (q : nat) : R :=
    let l := (q / NQ)%nat in let k := (q mod NQ)%nat in
    if Nat.ltb k N then Dn l k else Up (NL - 1 - l) (k - N).
  Lemma Csol_at l k : (k < NQ)%nat -> Csol (l * NQ + k)%nat = if Nat.ltb k N then Dn l k else Up (NL - 1 - l) (k - N).
  Proof.
    intros Hk. unfold Csol. replace (l * NQ + k)%nat with (k + l * NQ)%nat by lia.
    rewrite Nat.div_add, Nat.mod_add by lia. rewrite Nat.div_small, Nat.mod_small by lia. reflexivity.
  Qed.
  Lemma Csol_dn l j : (j < N)%nat -> Csol (l * NQ + j)%nat = Dn l j.
  Proof. intros Hj. rewrite Csol_at by lia. rewrite (proj2 (Nat.ltb_lt _ _)) by lia. reflexivity. Qed.
  Lemma Csol_up l j : (j < N)%nat -> Csol (l * NQ + (N + j))%nat = Up (NL - 1 - l) j.
  Proof. intros Hj. rewrite Csol_at by lia. rewrite (proj2 (Nat.ltb_ge _ _)) by lia. f_equal. lia. Qed.

  Definition is_bc (C : vec) : Prop :=
    (forall i, (i < N)%nat -> field g m (GCof C) 0 (N + i) 0 = bneg i) /\
    (forall l a, (l < NL - 1)%nat -> (a < NQ)%nat -> field g m (GCof C) l a (t (l + 1)%nat) = field g m (GCof C) (l + 1) a (t (l + 1)%nat)) /\
    (forall a, (a < N)%nat -> field g m (GCof C) (NL - 1) a (t NL) = bpos a
        + rsum N (fun p => bdR bd a p * field g m (GCof C) (NL - 1) (N + p) (t NL))
        + (if sc_beam g then bdX bd a else 0) * exp (- t NL / sc_mu0 g)).

  Lemma Csol_bc : is_bc Csol.
  Proof.
    split; [|split].
    - intros i Hi. rewrite field_dn by lia. rewrite Csol_dn by auto. rewrite Ht0. cbn [Dn].
      replace (sc_K g m 0 i * (0 - 0)) with 0 by ring. rewrite exp_0. ring.
    - intros l a Hl Ha. destruct (Nat.lt_ge_cases a N) as [Hc|Hc].
      + rewrite !field_up by lia. rewrite !Csol_up by auto. replace (t (l + 1)%nat - t (l + 1)%nat) with 0 by ring.
        rewrite Rmult_0_r, exp_0. destruct (NL - 1 - l)%nat as [|k] eqn:E; [lia|]. cbn [Up].
        replace (NL - 1 - S k)%nat with l by lia. replace (NL - 1 - (l + 1))%nat with k by lia. replace (l + 1 + 1)%nat with (l + 2)%nat by lia. ring.
      + replace a with (N + (a - N))%nat by lia. set (j := (a - N)%nat). assert (Hj : (j < N)%nat) by (unfold j; lia).
        rewrite !field_dn by lia. rewrite !Csol_dn by auto. replace (l + 1)%nat with (S l) by lia. cbn [Dn].
        replace (t (S l) - t (S l)) with 0 by ring. rewrite Rmult_0_r, exp_0. ring.
    - intros a Ha. rewrite field_up by lia. rewrite Csol_up by auto. replace (NL - 1 + 1)%nat with NL by lia.
      replace (t NL - t NL) with 0 by ring. rewrite Rmult_0_r, exp_0. rewrite Nat.sub_diag. cbn [Up].
      rewrite (rsum_ext N (fun p => bdR bd a p * field g m (GCof Csol) (NL - 1) (N + p) (t NL)) (fun p => bdR bd a p * dn_bottom p)); [ring|].
      intros p Hp. rewrite field_dn by lia. rewrite Csol_dn by auto. reflexivity.
  Qed.

  Lemma bc_Csol C : is_bc C -> forall q, (q < NL * NQ)%nat -> C q = Csol q.
  Proof.
    intros (H1 & H2 & H3).
    assert (D : forall l, (l < NL)%nat -> forall j, (j < N)%nat -> C (l * NQ + j)%nat = Dn l j).
    { induction l as [|l IH]; intros Hl j Hj.
      - specialize (H1 j Hj). rewrite field_dn in H1 by lia. rewrite Ht0 in H1. replace (sc_K g m 0 j * (0 - 0)) with 0 in H1 by ring.
        rewrite exp_0 in H1. cbn [Dn]. lra.
      - specialize (H2 l (N + j)%nat ltac:(lia) ltac:(lia)). rewrite !field_dn in H2 by lia. rewrite IH in H2 by lia.
        replace (l + 1)%nat with (S l) in H2 by lia. replace (t (S l) - t (S l)) with 0 in H2 by ring. rewrite Rmult_0_r, exp_0 in H2. cbn [Dn]. lra. }
    assert (Eb : forall p, (p < N)%nat -> field g m (GCof C) (NL - 1) (N + p) (t NL) = dn_bottom p).
    { intros p Hp. rewrite field_dn by lia. rewrite D by lia. reflexivity. }
    assert (Uu : forall k, (k < NL)%nat -> forall j, (j < N)%nat -> C ((NL - 1 - k) * NQ + (N + j))%nat = Up k j).
    { induction k as [|k IH]; intros Hk j Hj.
      - specialize (H3 j Hj). rewrite field_up in H3 by lia. replace (NL - 1 + 1)%nat with NL in H3 by lia.
        replace (t NL - t NL) with 0 in H3 by ring. rewrite Rmult_0_r, exp_0 in H3.
        rewrite (rsum_ext N _ (fun p => bdR bd j p * dn_bottom p)) in H3 by (intros p Hp; rewrite Eb by auto; reflexivity).
        rewrite Nat.sub_0_r. cbn [Up]. lra.
      - specialize (H2 (NL - 1 - S k)%nat j ltac:(lia) ltac:(lia)). rewrite !field_up in H2 by lia.
        replace (NL - 1 - S k + 1)%nat with (NL - 1 - k)%nat in H2 by lia. rewrite IH in H2 by lia.
        cbn [Up]. replace (NL - 1 - S k + 1)%nat with (NL - 1 - k)%nat by lia. replace (NL - 1 - S k + 2)%nat with (NL - 1 - k + 1)%nat by lia.
        replace (t (NL - 1 - k)%nat - t (NL - 1 - k)%nat) with 0 in H2 by ring. rewrite Rmult_0_r, exp_0 in H2. lra. }
    intros q Hq. assert (Eq : q = (q / NQ * NQ + q mod NQ)%nat). { pose proof (Nat.div_mod q NQ ltac:(lia)). lia. }
    assert (Hl : (q / NQ < NL)%nat). { apply Nat.div_lt_upper_bound; lia. } pose proof (Nat.mod_upper_bound q NQ ltac:(lia)) as Hk.
    rewrite Eq. set (l := (q / NQ)%nat) in *. set (k := (q mod NQ)%nat) in *. clearbody l k. clear Eq Hq.
    destruct (Nat.lt_ge_cases k N).
    - rewrite Csol_dn by auto. apply D; auto.
    - replace k with (N + (k - N))%nat by lia. rewrite Csol_up by lia. rewrite <- Uu by lia. f_equal. nia.
  Qed.
End Decoupled.

Lemma decoupled_mode la g m : linalg_complete la -> (1 <= sc_N g)%nat -> (1 <= sc_NLayers g)%nat -> sc_multi g = Nat.ltb 1 (sc_NLayers g) ->
  (sc_iso g = true -> forall l k, (l < sc_NLayers g)%nat -> (k < 2 * sc_N g)%nat -> sc_K g 0%nat l k <> 0) ->
  (forall l j, (l < sc_NLayers g)%nat -> (j < sc_N g)%nat -> sc_K g m l j = - sc_K g m l (sc_N g + j)%nat) ->
  sc_tau0 g 0%nat = 0 ->
  (forall l i j, (l < sc_NLayers g)%nat -> (i < 2 * sc_N g)%nat -> (j < 2 * sc_N g)%nat ->
    sc_G g m l i j = if Nat.ltb i (sc_N g) then delta (sc_N g + i)%nat j else delta (i - sc_N g)%nat j) ->
  (exists bd, bd_terms g m = Ok bd) ->
  (exists bneg, b_mode g (sc_bneg_scalar g) (sc_bneg_vector g) (sc_bneg g) m = Ok bneg) ->
  (exists bpos, b_mode g (sc_bpos_scalar g) (sc_bpos_vector g) (sc_bpos g) m = Ok bpos) ->
  exists C, mode_coeffs g la m = Ok C.
Proof.
  intros Hc HN HNL Hm HK Hanti Ht0 HG (bd & Ebd) (bneg & En) (bpos & Ep).
  assert (exists r0, rhs_bc g m (fun _ => 0) = Ok r0) as (r0 & E0) by (unfold rhs_bc; rewrite En, Ep; cbn [bind]; eauto).
  destruct (rhs_iso_val g HN HNL Hm m HK bd r0) as (r1 & E1 & _).
  apply (mode_unique_ok la g m (Csol g m bneg bpos bd) bd r0 r1 Hc HN HNL Ebd E0 E1).
  - destruct (Csol_bc g HN HNL m Ht0 HG bneg bpos bd) as (B1 & B2 & B3).
    exact (bc_system g HN HNL Hm m HK bd Hanti Ht0 (Csol g m bneg bpos bd) (fun _ _ => 0) (fun _ => 0) r0 r1 bneg bpos (zero_out_0 g) E0 E1 En Ep B1 B2 B3).
  - intros z Hz. apply (bc_Csol g HN HNL m Ht0 HG bneg bpos bd).
    destruct (system_bc g HN HNL Hm m HK bd Hanti Ht0 z (fun _ _ => 0) (fun _ => 0) r0 r1 (zero_out_0 g) E0 E1 Hz) as (bn & bp & En' & Ep' & B1 & B2 & B3).
    assert (bn = bneg) by congruence. assert (bp = bpos) by congruence. subst bn bp. repeat split; auto.
Qed.

(** The solver stages of a call. *)
Lemma absorb_solve a la jk : as_good a -> linalg_complete la ->
  (forall m l, (m < a_NFourier a)%nat -> (l < a_NLayers a)%nat -> scatters (gp_of a) m l = false) ->
  (forall o m, (m < a_NFourier a)%nat -> exists bd, bd_terms (sc_of a o) m = Ok bd) ->
  (forall o m, (m < a_NFourier a)%nat -> exists b, b_mode (sc_of a o) (a_bneg_scalar a) (a_bneg_vector a) (a_bneg a) m = Ok b) ->
  (forall o m, (m < a_NFourier a)%nat -> exists b, b_mode (sc_of a o) (a_bpos_scalar a) (a_bpos_vector a) (a_bpos a) m = Ok b) ->
  exists sv, solve_all a la jk = Ok sv.
Proof.
  intros Ha Hc Hs Hbd Hbn Hbp. unfold solve_all.
  destruct (gp_total (gp_of a) la (j_G jk) (j_K jk) (j_A jk) (j_X jk) (j_Gi jk)) as (o & Ho).
  { intros m l Hm Hl H. rewrite Hs in H by auto. discriminate. }
  rewrite Ho. cbn [bind].
  match goal with |- exists sv, bind ?x _ = Ok sv => assert (X : exists GC, x = Ok GC); [|destruct X as (GC & ->); cbn [bind]; eauto] end.
  pose proof (coeffs_char (sc_of a o) (g_N a Ha) (g_NL a Ha) la (j_clob jk) (j_C jk) (j_R jk)) as CC.
  destruct (solve_for_coeffs _ _ _ _ _) as [GC|e]; [eauto|]. exfalso. destruct CC as (m & Hm & E & _).
  assert (GK : forall m l, (m < a_NFourier a)%nat -> (l < a_NLayers a)%nat -> o_G o m l = G_trivial (gp_of a) /\
     forall i, (i < a_N a)%nat -> o_K o m l i = - a_M_inv a i /\ o_K o m l (a_N a + i)%nat = a_M_inv a i).
  { intros m' l Hm' Hl. pose proof (out_char (gp_of a) la _ _ _ _ _ o Ho m' l Hm' Hl) as C. rewrite Hs in C by auto.
    destruct C as (H1 & H2 & _). split; [exact H1|exact H2]. }
  assert (Hmi : forall i, (i < a_N a)%nat -> 0 < a_M_inv a i).
  { intros i Hi. destruct (g_mu a Ha i Hi) as [H ->]. apply Rdiv_lt_0_compat; lra. }
  change (sc_NFourier (sc_of a o)) with (a_NFourier a) in Hm.
  destruct (decoupled_mode la (sc_of a o) m Hc (g_N a Ha) (g_NL a Ha) (g_multi a Ha)) as (C & EC); auto; [| | | |congruence].
  - intros _ l k Hl Hk. cbn. cbn in Hl, Hk. destruct (GK 0%nat l) as [_ H]; auto. { pose proof (g_NF a Ha). lia. }
    destruct (Nat.lt_ge_cases k (a_N a)) as [Hc'|Hc'].
    + destruct (H k Hc') as [-> _]. specialize (Hmi k Hc'). lra.
    + destruct (H (k - a_N a)%nat ltac:(lia)) as [_ H']. replace (a_N a + (k - a_N a))%nat with k in H' by lia. rewrite H'.
      specialize (Hmi (k - a_N a)%nat ltac:(lia)). lra.
  - intros l j Hl Hj. cbn in *. destruct (GK m l Hm Hl) as [_ H]. destruct (H j Hj) as [-> ->]. reflexivity.
  - apply (g_st0 a Ha).
  - intros l i j Hl Hi Hj. cbn in Hl, Hi, Hj |- *. destruct (GK m l Hm Hl) as [-> _]. apply (G_trivial_spec (gp_of a) i j); auto.
Qed.

(** Preparation of the sources: when it succeeds. *)
Lemma tmax_total b : exists x, tmax (norm_b b) = Ok x /\ forall idx, inb (shp b) idx -> 0 < elt b idx -> 0 < x.
Proof.
  unfold norm_b. destruct (all0 b) eqn:E.
  - exists 0. split; [reflexivity|]. intros idx Hi H. rewrite (proj1 (all0_iff b) E idx Hi) in H. exact H.
  - assert (X : exists x, tmax b = Ok x).
    { unfold tmax. destruct (entries b) eqn:Eb; [|eauto]. unfold all0 in E. rewrite Eb in E. discriminate. }
    destruct X as (x & Ex). exists x. split; [exact Ex|]. intros idx Hi H. pose proof (tmax_ge b x Ex idx Hi). lra.
Qed.

Lemma prep_ok p : valid p ->
  (~ has_source p -> nrow (p_s p) = 1%nat \/ nrow (p_s p) = nlayers p) ->
  (has_source p -> 0 < p_I0 p \/ positive_entry (p_bpos p) \/ positive_entry (p_bneg p)) ->
  exists ss r, scaled_s p = Ok ss /\ rescale p ss = Ok r.
Proof.
  intros V Hn Hp.
  assert (X : exists ss, scaled_s p = Ok ss).
  { unfold scaled_s. destruct (has_iso p) eqn:E.
    - destruct (delta_M p); [|eauto]. rewrite affine_ok; [cbn [bind]; eauto| | | |].
      + rewrite !map_length. reflexivity.
      + rewrite !map_length. reflexivity.
      + rewrite map_length, seq_length. pose proof (v_ne p V). exact H.
      + intros l Hl. rewrite map_length, seq_length in Hl. rewrite nth_seq0_map by auto. rewrite scale_tau_eq by auto.
        pose proof (scl_pos p V l Hl). lra.
    - assert (Hs : ~ has_source p) by (rewrite <- has_iso_iff, E; discriminate). unfold bdim. change (pNL p) with (nlayers p).
      destruct (Hn Hs) as [-> | ->]; [|rewrite Nat.eqb_refl; eauto]. destruct (Nat.eqb 1 (nlayers p)) eqn:E1; [eauto|]. cbn. eauto. }
  destruct X as (ss & Ess). exists ss. unfold rescale, e_bpos, e_bneg.
  destruct (tmax_total (p_bpos p)) as (mp & -> & Hmp). destruct (tmax_total (p_bneg p)) as (mn & -> & Hmn). cbn [bind].
  destruct (has_iso p) eqn:E; [|eauto]. assert (Hs : has_source p) by (apply has_iso_iff; auto).
  match goal with |- context [lmax ?l] => assert (H : 0 < lmax l); [|exists (lmax l); rewrite Reqb_f by lra; auto] end.
  destruct (Hp Hs) as [H|[(idx & Hi & H)|(idx & Hi & H)]].
  - eapply Rlt_le_trans; [exact H|]. apply lmax_ge. left. reflexivity.
  - eapply Rlt_le_trans; [exact (Hmp idx Hi H)|]. apply lmax_ge. right. left. reflexivity.
  - eapply Rlt_le_trans; [exact (Hmn idx Hi H)|]. apply lmax_ge. right. right. left. reflexivity.
Qed.

Lemma b_mode_total p g b d m : valid p -> sc_N g = half p -> b_accepted p b -> (exists v, bc_values b (half p) v) ->
  exists w, b_mode g (is_scalar_b (norm_b b)) (b_is_vector p (norm_b b)) (tmap (fun x => x / d) (norm_b b)) m = Ok w.
Proof.
  intros V HN Hb (v & Hv). pose proof (b_flags p g HN b Hb) as Hf. unfold b_mode. rewrite HN.
  destruct (Nat.eqb m 0).
  - rewrite !andb_true_r.
    assert (X : exists w, as_vec (half p) (tmap (fun x => x / d) (norm_b b)) = Ok w).
    { unfold as_vec. cbn [tmap shp elt]. destruct (all0 b) eqn:E0; unfold norm_b; rewrite E0; [cbn; eauto|].
      destruct Hv as [Z H|S H|S H|S H|k S Hk H].
      - rewrite (proj2 (all0_iff b) Z) in E0. discriminate.
      - rewrite S. eauto.
      - rewrite S. rewrite orb_true_r. eauto.
      - rewrite S, Nat.eqb_refl. cbn [orb]. eauto.
      - rewrite S. cbn [Nat.eqb andb]. destruct Hk as [-> | ->]; [rewrite orb_true_r|rewrite Nat.eqb_refl; cbn [orb]]; eauto. }
    destruct X as (w & ->). destruct (is_scalar_b _), (b_is_vector _ _); eauto; destruct Hf; discriminate.
  - rewrite !andb_false_r, andb_true_r. replace (_ || _)%bool with true; [eauto|]. symmetry. apply orb_true_iff. exact Hf.
Qed.

Lemma bd_total g m : (1 <= sc_N g)%nat -> ((m < length (sc_BDRF g))%nat -> exists rho, mode_is (nth m (sc_BDRF g) (MScal 0)) rho) ->
  exists bd, bd_terms g m = Ok bd.
Proof.
  intros Hn H. unfold bd_terms. destruct (Nat.ltb_spec m (length (sc_BDRF g))) as [Hlt|]; [|eauto].
  destruct (H Hlt) as (rho & Hr). destruct (bd_R_val g m _ rho Hn Hr) as (R & -> & _). cbn [bind].
  destruct (bd_X_val g _ rho Hn Hr) as (X & -> & _). destruct (sc_beam g); cbn [bind]; eauto.
Qed.

Theorem negligible_ok p lg la jk : valid p -> leggauss_ok (half p) (lg (half p)) -> linalg_complete la ->
  (forall m l, (m < nmodes p)%nat -> (l < nlayers p)%nat -> negligible (albedo_s p l) (wphase_s p l) (ncoeffs p) m) ->
  (exists v, bc_values (p_bpos p) (half p) v) -> (exists v, bc_values (p_bneg p) (half p) v) ->
  (forall m, (m < length (p_BDRF p))%nat -> exists rho, mode_is (nth m (p_BDRF p) (MScal 0)) rho) ->
  (~ has_source p -> nrow (p_s p) = 1%nat \/ nrow (p_s p) = nlayers p) ->
  (has_source p -> 0 < p_I0 p \/ positive_entry (p_bpos p) \/ positive_entry (p_bneg p)) ->
  (p_NT p = true -> forall x, In x (fst (Gauss_Legendre_quad lg (half p) 0 1)) -> 1 / 100000000 <= Rabs (x - p_mu0 p)) ->
  exists out, pydisort p lg la jk = Ok out.
Proof.
  intros V Hlg Hc Hom Hbp Hbn Hbd Hns Hsrc HNT. unfold pydisort. rewrite (proj2 (validate_iff p) V). cbn [bind].
  assert (HA : NT_angle_ok p lg = true).
  { unfold NT_angle_ok. destruct (p_NT p) eqn:E; [|reflexivity]. cbn [andb]. apply negb_true_iff. apply not_true_is_false. intros H.
    apply existsb_exists in H as (i & Hi & H). apply in_seq in Hi. apply Rltb_iff in H.
    destruct (GL_lengths lg (half p) 0 1 Hlg) as [L1 _].
    assert (Hin : In (quad_mu p lg i) (fst (Gauss_Legendre_quad lg (half p) 0 1))).
    { unfold quad_mu, of_list. apply nth_In. change (pN p) with (half p) in *. lia. }
    specialize (HNT eq_refl _ Hin). lra. }
  rewrite HA. cbn [check bind]. destruct (prep_ok p V Hns Hsrc) as (ss & r & -> & Er). cbn [bind]. rewrite Er. cbn [bind].
  assert (X : exists sv, solve_all (assemble_args p lg r ss) la jk = Ok sv); [|destruct X as (sv & ->); cbn [bind]; eauto].
  apply absorb_solve; auto.
  - exact (a_good p V lg Hlg ss r).
  - intros m l Hm Hl. unfold scatters. apply not_true_is_false. intros H. apply existsb_exists in H as (k & Hkk & Hk).
    apply Rltb_iff in Hk. unfold om_leg in Hk. cbn [gp_of gp_omega gp_wLeg assemble_args a_omega a_wLeg] in Hk.
    apply in_seq in Hkk. cbn [gp_of gp_NLeg assemble_args a_NLeg] in Hkk. rewrite (scaled_omega_eq p V l Hl) in Hk.
    change (a_NFourier (assemble_args p lg r ss)) with (pNF p) in Hm. rewrite <- nmodes_eq in Hm.
    specialize (Hom m l Hm Hl (m + k)%nat). change (pNLeg p) with (ncoeffs p) in Hkk. specialize (Hom ltac:(lia)).
    pose proof (wleg_eq p V l (m + k)%nat Hl) as E. replace (albedo_s p l / 2 * weighted_scaled_Leg p l (m + k)%nat) with (albedo_s p l * weighted_scaled_Leg p l (m + k)%nat / 2) in Hk by field.
    rewrite E in Hk. replace (albedo_s p l * wphase_s p l (m + k)%nat / 2) with (albedo_s p l / 2 * wphase_s p l (m + k)%nat) in Hk by field. lra.
  - intros o m Hm. apply bd_total; [exact (half_pos p V)|]. exact (Hbd m).
  - intros o m Hm. apply (b_mode_total p); auto. exact (v_bneg p V).
  - intros o m Hm. apply (b_mode_total p); auto. exact (v_bpos p V).
Qed.

Theorem absorbing_ok p lg la jk : valid p -> leggauss_ok (half p) (lg (half p)) -> linalg_complete la ->
  (forall l, (l < nlayers p)%nat -> albedo p l = 0 \/ fwd p l = 1) ->
  (exists v, bc_values (p_bpos p) (half p) v) -> (exists v, bc_values (p_bneg p) (half p) v) ->
  (forall m, (m < length (p_BDRF p))%nat -> exists rho, mode_is (nth m (p_BDRF p) (MScal 0)) rho) ->
  (~ has_source p -> nrow (p_s p) = 1%nat \/ nrow (p_s p) = nlayers p) ->
  (has_source p -> 0 < p_I0 p \/ positive_entry (p_bpos p) \/ positive_entry (p_bneg p)) ->
  (p_NT p = true -> forall x, In x (fst (Gauss_Legendre_quad lg (half p) 0 1)) -> 1 / 100000000 <= Rabs (x - p_mu0 p)) ->
  exists out, pydisort p lg la jk = Ok out.
Proof.
  intros V Hlg Hc Hom. apply negligible_ok; auto. intros m l Hm Hl k Hk.
  assert (E : albedo_s p l = 0) by (unfold albedo_s; destruct (Hom l Hl) as [-> | ->]; unfold Rdiv; ring).
  rewrite E. unfold Rdiv. rewrite !Rmult_0_l, Rabs_R0. lra.
Qed.
