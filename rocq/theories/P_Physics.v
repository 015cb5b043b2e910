(** Two descriptions of the same atmosphere give the same answer. *)
From Coq Require Import Classical String Reals Lra Lia List Bool Arith ZArith.
From Coquelicot Require Import Coquelicot.
From Verif Require Import Base Tensor Spec M_LinAlg Spec_RTE Calc M_Subroutines M_GenPart M_MathscrV M_Coeffs M_Assemble M_Pydisort
  P_Quad P_Sub P_Sub2 P_GenPart3 P_Tensor P_Teq P_MathscrV P_Coeffs P_Coeffs2 P_Coeffs3 P_Assemble P_Solve Spec_Sol Spec_Valid P_Valid P_Pydisort P_Pydisort2 P_Pydisort3 P_Pydisort4 P_Pydisort5 P_Pydisort6
  Spec_Calls P_Same P_Whole P_NT3 P_LinA P_Unique Spec_Unique P_Unique2 P_Unique3 P_Refine Spec_Phys Spec_Solved Spec_Rates Spec_Lossy P_Lossy P_Lossy2 Spec_Physics.
Import ListNotations.
Local Open Scope R_scope.

(** Sums of different lengths. *)
Lemma rsum_pad n k f : rsum n f = rsum (n + k) (fun i => if Nat.ltb i n then f i else 0).
Proof.
  rewrite rsum_split. rewrite (rsum_0 k) by (intros i Hi; rewrite (proj2 (Nat.ltb_ge (n + i) n)) by lia; reflexivity).
  rewrite Rplus_0_r. apply rsum_ext. intros i Hi. rewrite (proj2 (Nat.ltb_lt i n)) by auto. reflexivity.
Qed.
Definition agree (n n' : nat) (a b : vec) : Prop := forall k, (if Nat.ltb k n then a k else 0) = (if Nat.ltb k n' then b k else 0).
Lemma agree_sym n n' a b : agree n n' a b -> agree n' n b a.
Proof. intros H k. symmetry. apply H. Qed.
Lemma rsum_agree n n' a b (f : nat -> R -> R) : (forall k, f k 0 = 0) -> agree n n' a b -> rsum n (fun k => f k (a k)) = rsum n' (fun k => f k (b k)).
Proof.
  intros H0 H. rewrite (rsum_pad n n'), (rsum_pad n' n). rewrite (Nat.add_comm n' n). apply rsum_ext. intros k _. specialize (H k).
  destruct (Nat.ltb k n), (Nat.ltb k n'); rewrite ?H, ?H0; auto. rewrite <- H, H0. reflexivity.
Qed.
Lemma D_agree om n n' a b m x y : agree n n' a b -> D_spec om a n m x y = D_spec om b n' m x y.
Proof.
  intros H. unfold D_spec. f_equal. apply (rsum_agree n n' a b (fun k v => if Nat.leb m k then v * poch_term m k * lpmv m k x * lpmv m k y else 0)); [|exact H].
  intros k. destruct (Nat.leb m k); ring.
Qed.
Lemma X_agree c om n n' a b m x y : agree n n' a b -> X_spec c om a n m x y = X_spec c om b n' m x y.
Proof.
  intros H. unfold X_spec. f_equal. apply (rsum_agree n n' a b (fun k v => if Nat.leb m k then v * poch_term m k * lpmv m k y * lpmv m k (- x) else 0)); [|exact H].
  intros k. destruct (Nat.leb m k); ring.
Qed.
Lemma negligible_agree om n n' a b m : agree n n' a b -> negligible om a n m -> negligible om b n' m.
Proof.
  intros H N k [Hk Hk']. specialize (H k). rewrite (proj2 (Nat.ltb_lt k n')) in H by auto. rewrite <- H. destruct (Nat.ltb_spec k n).
  - apply N. auto.
  - rewrite Rmult_0_r, Rabs_R0. lra.
Qed.
Lemma D_0 a n m x y : D_spec 0 a n m x y = 0. Proof. unfold D_spec. lra. Qed.
Lemma X_0 c a n m x y : X_spec c 0 a n m x y = 0. Proof. unfold X_spec. ring. Qed.
Lemma negligible_0 a n m : negligible 0 a n m.
Proof. intros k _. replace (0 / 2 * a k) with 0 by field. rewrite Rabs_R0. lra. Qed.

Section Physics.
  Variables (p q : py_in) (g : nat -> nat) (rho rho' : nat -> R -> R -> R).
  Hypothesis V : valid p.
  Hypothesis V' : valid q.
  Hypothesis SP : same_physics p q g rho rho'.

  Lemma sp_half : half q = half p. Proof. unfold half. rewrite (sp_NQuad _ _ _ _ _ SP). reflexivity. Qed.
  Lemma sp_streams : streams q = streams p. Proof. unfold streams. rewrite (sp_NQuad _ _ _ _ _ SP). reflexivity. Qed.
  Lemma sp_scl l : (l < nlayers q)%nat -> scl q l = scl p (g l).
  Proof.
    intros H. unfold scl. destruct (Req_dec (albedo q l) 0) as [E|E].
    - rewrite <- (sp_albedo _ _ _ _ _ SP), E by auto. lra.
    - rewrite (sp_fwd _ _ _ _ _ SP), (sp_albedo _ _ _ _ _ SP) by auto. reflexivity.
  Qed.
  Lemma sp_albedo_s l : (l < nlayers q)%nat -> albedo_s q l = albedo_s p (g l).
  Proof.
    intros H. unfold albedo_s. rewrite (sp_scl l H). destruct (Req_dec (albedo q l) 0) as [E|E].
    - rewrite <- (sp_albedo _ _ _ _ _ SP), E by auto. unfold Rdiv. ring.
    - rewrite (sp_fwd _ _ _ _ _ SP), (sp_albedo _ _ _ _ _ SP) by auto. reflexivity.
  Qed.
  Lemma sp_scatter l : (l < nlayers q)%nat -> albedo_s q l = 0 \/ agree (ncoeffs q) (ncoeffs p) (wphase_s q l) (wphase_s p (g l)).
  Proof.
    intros H. destruct (Req_dec (albedo q l) 0) as [E|E].
    - left. unfold albedo_s. rewrite E. unfold Rdiv. ring.
    - right. intros k. pose proof (sp_coef _ _ _ _ _ SP l k H E) as C. unfold coefficient in C. unfold wphase_s.
      destruct (Nat.ltb k (ncoeffs q)), (Nat.ltb k (ncoeffs p)); first [reflexivity|rewrite C; ring|rewrite <- C; ring].
  Qed.
  Lemma sp_D l m x y : (l < nlayers q)%nat ->
    D_spec (albedo_s q l) (wphase_s q l) (ncoeffs q) m x y = D_spec (albedo_s p (g l)) (wphase_s p (g l)) (ncoeffs p) m x y.
  Proof.
    intros H. rewrite <- (sp_albedo_s l H). destruct (sp_scatter l H) as [->|A]; [rewrite !D_0; reflexivity|apply D_agree; auto].
  Qed.
  Lemma sp_negligible l m : (l < nlayers q)%nat ->
    negligible (albedo_s q l) (wphase_s q l) (ncoeffs q) m <-> negligible (albedo_s p (g l)) (wphase_s p (g l)) (ncoeffs p) m.
  Proof.
    intros H. rewrite <- (sp_albedo_s l H). destruct (sp_scatter l H) as [->|A].
    - split; intros _; apply negligible_0.
    - split; apply negligible_agree; auto using agree_sym.
  Qed.
  Lemma sp_cut l m wg : (l < nlayers q)%nat -> is_cutoff (albedo_s q l) (wphase_s q l) (ncoeffs q) m wg ->
    exists wg', is_cutoff (albedo_s p (g l)) (wphase_s p (g l)) (ncoeffs p) m wg' /\
    (forall x y, D_spec (albedo_s q l) wg (ncoeffs q) m x y = D_spec (albedo_s p (g l)) wg' (ncoeffs p) m x y) /\
    (forall c x y, X_spec c (albedo_s q l) wg (ncoeffs q) m x y = X_spec c (albedo_s p (g l)) wg' (ncoeffs p) m x y).
  Proof.
    intros H [C1 C2]. pose proof (sp_negligible l m H) as N.
    destruct (classic (negligible (albedo_s q l) (wphase_s q l) (ncoeffs q) m)) as [Hn|Hn].
    - exists (fun _ => 0). split; [split; [reflexivity|tauto]|]. specialize (C1 Hn).
      assert (A : agree (ncoeffs q) (ncoeffs p) wg (fun _ => 0)) by (intros k; rewrite C1; destruct (Nat.ltb k (ncoeffs q)), (Nat.ltb k (ncoeffs p)); reflexivity).
      rewrite <- (sp_albedo_s l H). split; intros; [apply D_agree|apply X_agree]; auto.
    - exists (wphase_s p (g l)). split; [split; [tauto|reflexivity]|]. specialize (C2 Hn). rewrite <- (sp_albedo_s l H).
      destruct (sp_scatter l H) as [E|A]; [rewrite E in Hn; destruct (Hn (negligible_0 _ _ _))|].
      assert (A' : agree (ncoeffs q) (ncoeffs p) wg (wphase_s p (g l))) by (intros k; rewrite C2; apply A).
      split; intros; [apply D_agree|apply X_agree]; auto.
  Qed.

  Lemma sp_inside l t : (l < nlayers q)%nat -> top_of q l <= t <= bot_of q l -> top_of p (g l) <= t <= bot_of p (g l).
  Proof. intros Hl Ht. destruct (sp_layer _ _ _ _ _ SP l Hl) as (_ & H1 & H2). lra. Qed.
  Lemma sp_depth l : (l < nlayers q)%nat -> forall t, top_of q l <= t <= bot_of q l -> depth_s q l t = sdepth p t.
  Proof.
    assert (ST : forall l, (l < nlayers q)%nat -> depth_s q l (top_of q l) = sdepth p (top_of q l) -> forall t, top_of q l <= t <= bot_of q l -> depth_s q l t = sdepth p t).
    { intros l' Hl' H t Ht. destruct (sp_layer _ _ _ _ _ SP l' Hl') as (Hg & H1 & H2).
      assert (Hx : top_of q l' < bot_of q l') by exact (v_inc q V' l' Hl').
      rewrite (sdepth_closed p V (g l') t Hg) by (apply sp_inside; auto). rewrite (sdepth_closed p V (g l') (top_of q l') Hg) in H by (apply sp_inside; auto; lra).
      unfold depth_s in *. rewrite sp_scl in * by auto. lra. }
    induction l; intros Hl; apply ST; auto.
    - assert (H0 : sdepth p 0 = depth_s p 0 0).
      { apply (sdepth_closed p V 0 0); [exact (v_ne p V)|]. pose proof (v_inc p V 0%nat (v_ne p V)) as H. change (0 < bot_of p 0) in H. cbn [top_of]. lra. }
      cbn [top_of]. rewrite H0. unfold depth_s. cbn [rsum top_of]. ring.
    - change (top_of q (S l)) with (bot_of q l). assert (Hx : top_of q l < bot_of q l) by exact (v_inc q V' l ltac:(lia)).
      rewrite <- (IHl ltac:(lia)) by lra. unfold depth_s. cbn [rsum top_of]. unfold bot_of. ring.
  Qed.
  Lemma sp_sdepth t : 0 <= t <= bottom p -> sdepth q t = sdepth p t.
  Proof.
    intros Ht. rewrite <- (sp_bottom _ _ _ _ _ SP) in Ht. destruct (layer_at_ex q V' t Ht) as (l & Hl & Hlt).
    assert (Hr : top_of q l <= t <= bot_of q l).
    { destruct Hlt as [Hlt|[-> ->]]; [lra|]. pose proof (v_inc q V' 0%nat (v_ne q V')) as H. change (0 < bot_of q 0) in H. cbn [top_of]. lra. }
    rewrite (sdepth_closed q V' l t Hl Hr). apply sp_depth; auto.
  Qed.
  Lemma sp_beam (f : R -> R) : p_I0 q * f (p_mu0 q) = p_I0 p * f (p_mu0 p).
  Proof.
    rewrite (sp_I0 _ _ _ _ _ SP). destruct (v_I0 p V) as [H|H].
    - rewrite (sp_mu0 _ _ _ _ _ SP H). reflexivity.
    - rewrite <- H. ring.
  Qed.

  Lemma sp_rte mu w wg wg' m l i t W : (l < nlayers q)%nat -> top_of q l <= t <= bot_of q l ->
    (forall x y, D_spec (albedo_s q l) wg (ncoeffs q) m x y = D_spec (albedo_s p (g l)) wg' (ncoeffs p) m x y) ->
    (forall c x y, X_spec c (albedo_s q l) wg (ncoeffs q) m x y = X_spec c (albedo_s p (g l)) wg' (ncoeffs p) m x y) ->
    rte q mu w wg m l i t W = rte p mu w wg' m (g l) i t W.
  Proof.
    intros Hl Ht HD HX. destruct (sp_layer _ _ _ _ _ SP l Hl) as (Hg & _). unfold rte.
    rewrite sp_scl, sp_streams, sp_half, (sp_albedo _ _ _ _ _ SP), (sp_source _ _ _ _ _ SP) by auto.
    rewrite (sp_depth l Hl t Ht). rewrite (sdepth_closed p V (g l) t Hg) by (apply sp_inside; auto).
    rewrite HX. rewrite (rsum_ext (streams p) (fun j => wnode (half p) w j * D_spec (albedo_s q l) wg (ncoeffs q) m (nth i mu 0) (nth j mu 0) * W j)
      (fun j => wnode (half p) w j * D_spec (albedo_s p (g l)) wg' (ncoeffs p) m (nth i mu 0) (nth j mu 0) * W j)) by (intros; rewrite HD; reflexivity).
    set (S := rsum (streams p) _). set (Z := if Nat.eqb m 0 then _ else _).
    assert (E : forall I x, X_spec (I / (4 * PI)) (albedo_s p (g l)) wg' (ncoeffs p) m x (nth i mu 0) * exp (- depth_s p (g l) t / x) =
      I * (X_spec (/ (4 * PI)) (albedo_s p (g l)) wg' (ncoeffs p) m x (nth i mu 0) * exp (- depth_s p (g l) t / x))).
    { intros I x. unfold X_spec, Rdiv. ring. }
    rewrite !E. rewrite (sp_beam (fun x => X_spec (/ (4 * PI)) (albedo_s p (g l)) wg' (ncoeffs p) m x (nth i mu 0) * exp (- depth_s p (g l) t / x))). reflexivity.
  Qed.

  Lemma sp_bvp mu w vn vp m W : double_gauss (half p) mu w -> (m < nmodes p)%nat -> (m < nmodes q)%nat -> bvp p mu w vn vp (rho m) m W -> bvp q mu w vn vp (rho' m) m W.
  Proof.
    intros HD Hm Hm' [A B C D]. constructor.
    - intros l i wg t Hl Hi Ht Hc. rewrite sp_streams in Hi. destruct (sp_cut l m wg Hl Hc) as (wg' & Hc' & H1 & H2).
      rewrite (sp_rte mu w wg wg') by (auto; lra). destruct (sp_layer _ _ _ _ _ SP l Hl) as (Hg & H3 & H4). apply A; auto. lra.
    - rewrite sp_streams, (sp_bottom _ _ _ _ _ SP). exact B.
    - rewrite sp_half. exact C.
    - rewrite sp_half, (sp_bottom _ _ _ _ _ SP). intros i Hi. rewrite (D i Hi). f_equal.
      destruct HD as (HL & HN & _).
      assert (R0 : forall j, (j < half p)%nat -> reflection q rho' m (nth i mu 0) (nth j mu 0) = reflection p rho m (nth i mu 0) (nth j mu 0)).
      { intros j Hj. apply (sp_surface _ _ _ _ _ SP); auto; [apply HN; auto|]. destruct (HN j Hj) as (Hx & _). lra. }
      assert (R1 : p_I0 q * (p_mu0 q * reflection q rho' m (nth i mu 0) (p_mu0 q) * exp (- depth_s q (nlayers q - 1) (bottom p) / p_mu0 q)) =
        p_I0 p * (p_mu0 p * reflection p rho m (nth i mu 0) (p_mu0 p) * exp (- depth_s p (nlayers p - 1) (bottom p) / p_mu0 p))).
      { rewrite (sp_I0 _ _ _ _ _ SP). destruct (v_I0 p V) as [H|H]; [|rewrite <- H; ring]. rewrite (sp_mu0 _ _ _ _ _ SP H).
        rewrite (sp_surface _ _ _ _ _ SP m _ _ Hm Hm' (proj1 (HN i Hi)) (v_mu0 p V H)).
        replace (depth_s q (nlayers q - 1) (bottom p)) with (depth_s p (nlayers p - 1) (bottom p)); [reflexivity|].
        pose proof (v_ne p V) as N1. pose proof (v_ne q V') as N2.
        rewrite (sp_depth (nlayers q - 1)).
        + symmetry. apply (sdepth_closed p V); [unfold nlayers in *; lia|]. rewrite (bottom_eq p). pose proof (v_inc p V (nlayers p - 1)%nat ltac:(unfold nlayers in *; lia)) as X.
          change (top_of p (nlayers p - 1) < bot_of p (nlayers p - 1)) in X. lra.
        + unfold nlayers in *. lia.
        + rewrite <- (sp_bottom _ _ _ _ _ SP), (bottom_eq q). pose proof (v_inc q V' (nlayers q - 1)%nat ltac:(unfold nlayers in *; lia)) as X.
          change (top_of q (nlayers q - 1) < bot_of q (nlayers q - 1)) in X. lra. }
      assert (Z : forall pp rr, (if Nat.ltb m (length (p_BDRF pp)) then (if Nat.eqb m 0 then 2 else 1) * rsum (half p) (fun j => rr m (nth i mu 0) (nth j mu 0) * nth j mu 0 * w j * W (half p + j)%nat (bottom p))
          + p_mu0 pp * p_I0 pp / PI * rr m (nth i mu 0) (p_mu0 pp) * exp (- depth_s pp (nlayers pp - 1) (bottom p) / p_mu0 pp) else 0) =
        (if Nat.eqb m 0 then 2 else 1) * rsum (half p) (fun j => reflection pp rr m (nth i mu 0) (nth j mu 0) * nth j mu 0 * w j * W (half p + j)%nat (bottom p)) +
        / PI * (p_I0 pp * (p_mu0 pp * reflection pp rr m (nth i mu 0) (p_mu0 pp) * exp (- depth_s pp (nlayers pp - 1) (bottom p) / p_mu0 pp)))).
      { intros pp rr. unfold reflection. destruct (Nat.ltb m (length (p_BDRF pp))).
        - unfold Rdiv. ring.
        - rewrite rsum_0 by (intros; ring). ring. }
      rewrite (Z p rho), (Z q rho'), R1. f_equal. f_equal. apply rsum_ext. intros j Hj. rewrite R0 by auto. reflexivity.
  Qed.
End Physics.

(** Without a beam the higher modes vanish. *)
Lemma bvp_0 p mu w vn vp rho m : p_I0 p = 0 -> (0 < m)%nat -> bvp p mu w vn vp rho m (fun _ _ => 0).
Proof.
  intros H0 Hm. assert (Em : Nat.eqb m 0 = false) by (apply Nat.eqb_neq; lia). constructor.
  - intros l i wg t Hl Hi Ht Hc. unfold rte. rewrite Em, H0. rewrite rsum_0 by (intros; ring).
    refine (der_eq _ _ _ _ _ (is_derive_const (K := R_AbsRing) (V := R_NormedModule) 0 t)). unfold X_spec, Rdiv. change zero with 0. ring.
  - intros i Hi x Hx e He. exists 1. split; [lra|]. intros. rewrite Rminus_eq_0, Rabs_R0. exact He.
  - intros i Hi. rewrite Em. reflexivity.
  - intros i Hi. rewrite Em, H0. destruct (Nat.ltb m (length (p_BDRF p))); [|ring]. rewrite rsum_0 by (intros; ring). unfold Rdiv. ring.
Qed.

(** A solution of the problem of a mode is the only one. *)
Definition only_one (p : py_in) (mu : list R) (rho : nat -> R -> R -> R) : Prop :=
  forall w vn vp m A B, double_gauss (half p) mu w -> (m < nmodes p)%nat -> bvp p mu w vn vp (rho m) m A -> bvp p mu w vn vp (rho m) m B ->
  forall i t, (i < streams p)%nat -> 0 <= t <= bottom p -> A i t = B i t.

Theorem physics_u p q g lg la la' jk jk' out out' rho rho' : linalg_ok la -> linalg_ok la' -> leggauss_ok (half p) (lg (half p)) ->
  same_physics p q g rho rho' -> surface_is p rho -> surface_is q rho' -> pydisort p lg la jk = Ok out -> pydisort q lg la' jk' = Ok out' ->
  ordinary_sources p -> ordinary_sources q -> only_one p (po_mu out) rho -> only_one q (po_mu out') rho' ->
  same_reports (same_azimuths p q) out out'.
Proof.
  intros Hla Hla' Hlg SP Hrho Hrho' Hok Hok' Hs Hs' Hun Hun'.
  destruct (pydisort_parts _ _ _ _ _ Hok) as (V & ss & r & sv & Hss & Hr & Hsv & Emu & _).
  destruct (pydisort_parts _ _ _ _ _ Hok') as (V' & ss' & r' & sv' & Hss' & Hr' & Hsv' & Emu' & _).
  pose proof (sp_half p q g _ _ SP) as Eh. pose proof (sp_streams p q g _ _ SP) as Es. pose proof (sp_bottom _ _ _ _ _ SP) as Eb.
  assert (Hlg' : leggauss_ok (half q) (lg (half q))) by (rewrite Eh; exact Hlg).
  assert (Em : po_mu out' = po_mu out).
  { rewrite Emu, Emu'. assert (EN : pN q = pN p) by (unfold pN, e_N; rewrite (sp_NQuad _ _ _ _ _ SP); reflexivity). unfold mu_arr, quad_mu. rewrite EN. reflexivity. }
  destruct (call_Umode p lg la jk out Hla Hlg Hok) as (x1 & x2 & x3 & _ & _ & _ & HU). set (U := Umode p lg x1 x2 x3) in *. clearbody U. clear x1 x2 x3.
  destruct (call_Umode q lg la' jk' out' Hla' Hlg' Hok') as (x1 & x2 & x3 & _ & _ & _ & HU'). set (U' := Umode q lg x1 x2 x3) in *. clearbody U'. clear x1 x2 x3.
  destruct (sp_bneg _ _ _ _ _ SP) as (vn & Hvn & Hvn'). destruct (sp_bpos _ _ _ _ _ SP) as (vp & Hvp & Hvp').
  pose proof (mu_arr_gauss p lg Hlg) as DG. rewrite <- Emu in DG. set (w := quad_W p lg) in DG.
  assert (DG' : double_gauss (half q) (po_mu out') w) by (rewrite Eh, Em; exact DG).
  assert (BV : forall m, seen p m -> bvp p (po_mu out) w vn vp (rho m) m (U m)) by (intros m Hm; apply (call_bvp p lg la jk out Hla Hlg Hok U w vn vp rho HU DG); auto; unfold ordinary_sources in Hs; tauto).
  assert (BV' : forall m, seen q m -> bvp q (po_mu out') w vn vp (rho' m) m (U' m)) by (intros m Hm; apply (call_bvp q lg la' jk' out' Hla' Hlg' Hok' U' w vn vp rho' HU' DG'); auto; unfold ordinary_sources in Hs'; tauto).
  assert (E : forall m i t, seen p m -> seen q m -> (i < streams p)%nat -> 0 <= t <= bottom p -> U' m i t = U m i t).
  { intros m i t Hm Hm' Hi Ht. refine (Hun' w vn vp m (U' m) (U m) DG' (proj1 Hm') (BV' m Hm') _ i t _ _).
    - rewrite Em. apply (sp_bvp p q g rho rho' V V' SP); auto; [exact (proj1 Hm)|exact (proj1 Hm')].
    - rewrite Es. exact Hi.
    - rewrite Eb. exact Ht. }
  assert (Dok : forall tau, depths_ok q tau <-> depths_ok p tau) by (intros tau; unfold depths_ok; rewrite Eb; tauto).
  assert (S0 : seen p 0 /\ seen q 0) by (split; (split; [apply nmodes_pos; auto|left; reflexivity])). destruct S0 as [S0 S0'].
  destruct (call_fluxes p lg la jk out Hla Hlg Hok U HU) as (w1 & D1 & F1 & F2).
  destruct (call_fluxes q lg la' jk' out' Hla' Hlg' Hok' U' HU') as (w2 & D2 & F3 & F4).
  rewrite Eh, Em in D2. pose proof (dg_weights _ _ _ _ D2 D1) as Ew.
  assert (Bm : forall t, p_mu0 q * p_I0 q * exp (- t / p_mu0 q) = p_mu0 p * p_I0 p * exp (- t / p_mu0 p)).
  { intros t. pose proof (sp_beam p q g rho rho' V SP (fun x => x * exp (- t / x))) as B. cbn beta in B. rewrite !(Rmult_comm _ (p_I0 _)), !Rmult_assoc. exact B. }
  assert (NIn : forall tau k, depths_ok p tau -> (k < length tau)%nat -> 0 <= nth k tau 0 <= bottom p) by (intros tau k H Hk; apply H, nth_In; auto).
  constructor.
  - congruence.
  - intros tau. destruct (classic (depths_ok p tau)) as [Ht|Ht].
    + destruct (F1 tau Ht) as (A & -> & HA). destruct (F3 tau ltac:(apply Dok; auto)) as (A' & -> & HA'). cbn. apply (squeezed_same _ _ _ _ _ HA HA').
      intros idx Hi. apply inb_1 in Hi as (k & -> & Hk). cbn [nth]. rewrite Eh, Em. f_equal. apply rsum_ext. intros i Hi. rewrite E; auto; [rewrite Ew by auto; reflexivity|rewrite (streams_eq p V); lia].
    + destruct (bad_depths _ _ _ _ _ Hok tau Ht) as (-> & _). destruct (bad_depths _ _ _ _ _ Hok' tau ltac:(rewrite Dok; auto)) as (-> & _). reflexivity.
  - intros tau. destruct (classic (depths_ok p tau)) as [Ht|Ht].
    + destruct (F2 tau Ht) as (A & B & -> & HA & HB1 & HB2). destruct (F4 tau ltac:(apply Dok; auto)) as (A' & B' & -> & HA' & HB1' & HB2'). cbn. constructor; [|constructor; [|constructor]]; cbn [pv_eq].
      * apply (squeezed_same _ _ _ _ _ HA HA'). intros idx Hi. apply inb_1 in Hi as (k & -> & Hk). cbn [nth]. rewrite Eh, Em. unfold direct. rewrite !Bm.
        rewrite (sp_sdepth p q g rho rho' V V' SP) by auto. f_equal. f_equal. f_equal. apply rsum_ext. intros i Hi. rewrite E; auto; [rewrite Ew by auto; reflexivity|rewrite (streams_eq p V); lia].
      * destruct (v_I0 p V) as [H0|H0].
        -- apply (squeezed_same _ _ _ _ _ (HB1 H0) (HB1' ltac:(rewrite (sp_I0 _ _ _ _ _ SP); auto))). intros idx Hi. unfold direct. rewrite Bm. reflexivity.
        -- apply (squeezed_same _ _ _ _ _ (HB2 (eq_sym H0)) (HB2' ltac:(rewrite (sp_I0 _ _ _ _ _ SP); auto))). reflexivity.
    + destruct (bad_depths _ _ _ _ _ Hok tau Ht) as (_ & -> & _). destruct (bad_depths _ _ _ _ _ Hok' tau ltac:(rewrite Dok; auto)) as (_ & -> & _). reflexivity.
  - intros tau. destruct (classic (depths_ok p tau)) as [Ht|Ht].
    + destruct (proj1 HU tau Ht) as (A & -> & HA). destruct (proj1 HU' tau ltac:(apply Dok; auto)) as (A' & -> & HA'). rewrite Es in HA'. cbn. apply (squeezed_same _ _ _ _ _ HA HA').
      intros idx Hi. apply inb_2 in Hi as (i & k & -> & Hi & Hk). cbn [nth]. symmetry. apply E; auto.
    + destruct (bad_depths _ _ _ _ _ Hok tau Ht) as (_ & _ & -> & _). destruct (bad_depths _ _ _ _ _ Hok' tau ltac:(rewrite Dok; auto)) as (_ & _ & -> & _). reflexivity.
  - intros (Hn & Hn' & Efl & Hb). destruct (p_only_flux p) eqn:Ef.
    + destruct (pydisort_parts _ _ _ _ _ Hok) as (_ & ? & ? & ? & _ & _ & _ & _ & _ & _ & _ & ->). destruct (pydisort_parts _ _ _ _ _ Hok') as (_ & ? & ? & ? & _ & _ & _ & _ & _ & _ & _ & ->).
      rewrite <- Efl, Ef. exact I.
    + destruct (call_u p lg la jk out Hok Ef) as (u & Hu). destruct (call_u q lg la' jk' out' Hok' (eq_sym Efl)) as (u' & Hu'). rewrite Hu, Hu'. intros tau phi.
      destruct (classic (depths_ok p tau)) as [Ht|Ht].
      * destruct (proj2 HU u Hu Hn tau phi Ht) as (A & -> & HA). destruct (proj2 HU' u' Hu' Hn' tau phi ltac:(apply Dok; auto)) as (A' & -> & HA'). rewrite Es in HA'. cbn.
        apply (squeezed_same _ _ _ _ _ HA HA'). intros idx Hi. apply inb_3 in Hi as (i & k & h & -> & Hi & Hk & Hh). cbn [nth].
        destruct (v_I0 p V) as [H0|H0].
        -- destruct (Hb H0) as (B3 & B4). rewrite B3, B4. apply rsum_ext. intros m Hm. f_equal. symmetry. apply E; auto; split; auto. rewrite B4. exact Hm.
        -- assert (One : forall pp (X : nat -> R) ph, (1 <= nmodes pp)%nat -> (forall m, (0 < m < nmodes pp)%nat -> X m = 0) -> rsum (nmodes pp) (fun m => X m * cos (INR m * ph)) = X 0%nat).
           { intros pp X ph H1 H2. replace (nmodes pp) with (1 + (nmodes pp - 1))%nat by lia. rewrite rsum_split. rewrite (rsum_0 (nmodes pp - 1)).
             - cbn [rsum]. cbn [INR]. rewrite Rmult_0_l, cos_0. ring.
             - intros m Hm. rewrite H2 by lia. ring. }
           rewrite (One p (fun m => U m i (nth k tau 0))), (One q (fun m => U' m i (nth k tau 0))); try (apply nmodes_pos; auto).
           ++ symmetry. apply E; auto.
           ++ intros m Hm. assert (Sm : seen q m) by (split; [lia|right; exact Hn']).
              refine (Hun' w vn vp m (U' m) (fun _ _ => 0) DG' (proj1 Sm) (BV' m Sm) _ i _ _ _); [apply bvp_0; [rewrite (sp_I0 _ _ _ _ _ SP); auto|lia]|rewrite Es; exact Hi|rewrite Eb; auto].
           ++ intros m Hm. assert (Sm : seen p m) by (split; [lia|right; exact Hn]).
              refine (Hun w vn vp m (U m) (fun _ _ => 0) DG (proj1 Sm) (BV m Sm) _ i _ _ _); [apply bvp_0; [auto|lia]|exact Hi|auto].
      * destruct (bad_depths _ _ _ _ _ Hok tau Ht) as (_ & _ & _ & Hx). destruct (bad_depths _ _ _ _ _ Hok' tau ltac:(rewrite Dok; auto)) as (_ & _ & _ & Hx').
        rewrite (Hx u), (Hx' u') by auto. reflexivity.
Qed.

Theorem physics_same p q g lg la la' jk jk' out out' rho rho' : linalg_ok la -> linalg_unique la -> linalg_ok la' -> linalg_unique la' -> leggauss_ok (half p) (lg (half p)) ->
  same_physics p q g rho rho' -> surface_is p rho -> surface_is q rho' -> pydisort p lg la jk = Ok out -> pydisort q lg la' jk' = Ok out' ->
  ordinary_sources p -> ordinary_sources q -> same_reports (same_azimuths p q) out out'.
Proof.
  intros Hla Hlu Hla' Hlu' Hlg SP Hrho Hrho' Hok Hok' Hs Hs'.
  assert (Hlg' : leggauss_ok (half q) (lg (half q))) by (rewrite (sp_half p q g rho rho' SP); exact Hlg).
  apply (physics_u p q g lg la la' jk jk' out out' rho rho'); auto.
  - intros w vn vp m A B DG Hm HA HB. exact (bvp_unique p lg la jk out Hla Hlu Hlg Hok w vn vp (rho m) m A B DG Hm (Hrho m) HA HB).
  - intros w vn vp m A B DG Hm HA HB. exact (bvp_unique q lg la' jk' out' Hla' Hlu' Hlg' Hok' w vn vp (rho' m) m A B DG Hm (Hrho' m) HA HB).
Qed.

(** ** Atmospheres that lose *)
Section Lossy.
  Variables (p q : py_in) (g : nat -> nat) (rho rho' : nat -> R -> R -> R).
  Hypothesis V : valid p.
  Hypothesis V' : valid q.
  Hypothesis SP : same_physics p q g rho rho'.
  Hypothesis EM : nmodes q = nmodes p.

  Lemma sp_loses mu w m l s : (l < nlayers q)%nat -> loses p mu w m (g l) s -> loses q mu w m l s.
  Proof.
    intros Hl H x Hx. rewrite (sp_half p q g rho rho' SP) in Hx. specialize (H x Hx). unfold net_loss in *. rewrite (sp_half p q g rho rho' SP).
    replace (rsum (half p) _) with (rsum (half p) (fun i => w i * (x i * (x i - rsum (half p) (fun j => w j * ((D_spec (albedo_s p (g l)) (wphase_s p (g l)) (ncoeffs p) m (nth i mu 0) (nth j mu 0)
      + s * D_spec (albedo_s p (g l)) (wphase_s p (g l)) (ncoeffs p) m (nth i mu 0) (- nth j mu 0)) * x j)))))); [exact H|].
    apply rsum_ext. intros i Hi. do 3 f_equal. apply rsum_ext. intros j Hj. rewrite !(sp_D p q g rho rho' SP) by auto. reflexivity.
  Qed.
  Lemma sp_reflected mu w m x i : double_gauss (half p) mu w -> (m < nmodes p)%nat -> (i < half p)%nat -> reflected q mu w rho' m x i = reflected p mu w rho m x i.
  Proof.
    intros (_ & HN & _) Hm Hi. unfold reflected. rewrite (sp_half p q g rho rho' SP).
    assert (Z : forall pp rr, (if Nat.ltb m (length (p_BDRF pp)) then (if Nat.eqb m 0 then 2 else 1) * rsum (half p) (fun j => rr m (nth i mu 0) (nth j mu 0) * nth j mu 0 * w j * x j) else 0) =
      (if Nat.eqb m 0 then 2 else 1) * rsum (half p) (fun j => reflection pp rr m (nth i mu 0) (nth j mu 0) * nth j mu 0 * w j * x j)).
    { intros pp rr. unfold reflection. destruct (Nat.ltb m (length (p_BDRF pp))); [reflexivity|]. rewrite rsum_0 by (intros; ring). ring. }
    rewrite (Z q rho'), (Z p rho). f_equal. apply rsum_ext. intros j Hj. destruct (HN j Hj) as (Hx & _).
    rewrite (sp_surface _ _ _ _ _ SP m (nth i mu 0) (nth j mu 0)); [reflexivity|auto|lia|apply HN; auto|lra].
  Qed.
  Lemma sp_lossy mu w : double_gauss (half p) mu w -> lossy p mu w rho -> lossy q mu w rho'.
  Proof.
    intros DG [H1 H2]. constructor.
    - intros m l s Hm Hl Hn Hs. rewrite EM in Hm. destruct (sp_layer _ _ _ _ _ SP l Hl) as (Hg & _). apply sp_loses; auto. apply H1; auto. rewrite <- (sp_negligible p q g rho rho' SP) by auto. exact Hn.
    - intros m x Hm. rewrite EM in Hm. rewrite (sp_half p q g rho rho' SP). specialize (H2 m x Hm). rewrite (rsum_ext _ _ (fun i => w i * nth i mu 0 * reflected p mu w rho m x i ^ 2)); [exact H2|].
      intros i Hi. rewrite sp_reflected by auto. reflexivity.
  Qed.
  Lemma sp_resonant mu w m l : 0 < p_I0 p -> (l < nlayers q)%nat -> resonant q mu w m l <-> resonant p mu w m (g l).
  Proof.
    intros H0 Hl. unfold resonant. rewrite (sp_negligible p q g rho rho' SP) by auto. rewrite (sp_streams p q g rho rho' SP), (sp_half p q g rho rho' SP), (sp_mu0 _ _ _ _ _ SP H0).
    apply and_iff_compat_l. split; intros (v & Hv & H); exists v; (split; [exact Hv|]); intros i Hi; rewrite (H i Hi); f_equal; apply rsum_ext; intros j Hj; rewrite (sp_D p q g rho rho' SP) by auto; reflexivity.
  Qed.
  (** Every layer of the coarse description is met. *)
  Lemma sp_onto k : (k < nlayers p)%nat -> exists l, (l < nlayers q)%nat /\ g l = k.
  Proof.
    intros Hk. set (t := (top_of p k + bot_of p k) / 2). assert (Hi : top_of p k < bot_of p k) by exact (v_inc p V k Hk).
    assert (Ht : top_of p k < t < bot_of p k) by (unfold t; lra).
    assert (Hb : 0 <= t <= bottom p) by (apply (layer_range p V k); auto; lra).
    destruct (layer_at_ex q V' t ltac:(rewrite (sp_bottom _ _ _ _ _ SP); exact Hb)) as (l & Hl & Hlt).
    exists l. split; [exact Hl|]. assert (Hr : top_of q l <= t <= bot_of q l).
    { destruct Hlt as [Hlt|[-> ->]]; [lra|]. pose proof (v_inc q V' 0%nat (v_ne q V')) as X. change (0 < bot_of q 0) in X. cbn [top_of]. lra. }
    destruct (sp_layer _ _ _ _ _ SP l Hl) as (Hg & H1 & H2). destruct (Nat.lt_trichotomy (g l) k) as [H|[H|H]]; [|exact H|].
    - destruct k as [|k]; [lia|]. pose proof (bots_mono p V (g l) k ltac:(lia) ltac:(lia)) as X. change (top_of p (S k)) with (bot_of p k) in Ht. lra.
    - destruct (g l) as [|j] eqn:Ej; [lia|]. pose proof (bots_mono p V k j ltac:(lia) ltac:(lia)) as X. change (top_of p (S j)) with (bot_of p j) in H1. lra.
  Qed.
  Lemma sp_free : no_resonance p <-> no_resonance q.
  Proof.
    unfold no_resonance. rewrite (sp_half p q g rho rho' SP), (sp_I0 _ _ _ _ _ SP), EM. split; intros H H0 mu w m l DG Hm Hl Hr.
    - apply sp_resonant in Hr; auto. destruct (sp_layer _ _ _ _ _ SP l Hl) as (Hg & _). exact (H H0 mu w m (g l) DG Hm Hg Hr).
    - destruct (sp_onto l Hl) as (k & Hk & <-). apply (H H0 mu w m k DG Hm Hk). apply sp_resonant; auto.
  Qed.
End Lossy.
