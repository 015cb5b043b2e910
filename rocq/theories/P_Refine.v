(** Cutting the layers more finely does not change the answer. *)
From Coq Require Import Classical String Reals Lra Lia List Bool Arith ZArith.
From Coquelicot Require Import Coquelicot.
From Verif Require Import Base Tensor Spec M_LinAlg Spec_RTE Calc M_Subroutines M_GenPart M_MathscrV M_Coeffs M_Assemble M_Pydisort
  P_Quad P_Sub P_Sub2 P_GenPart3 P_Tensor P_Teq P_MathscrV P_Coeffs P_Coeffs2 P_Coeffs3 P_Assemble P_Solve Spec_Sol Spec_Valid P_Valid P_Pydisort P_Pydisort2 P_Pydisort3 P_Pydisort4 P_Pydisort5 P_Pydisort6
  Spec_Calls P_Same P_Whole P_NT3 P_LinA P_Unique Spec_Unique P_Unique2 P_Unique3.
Import ListNotations.
Local Open Scope R_scope.

(** Coefficients that matter. *)
Lemma D_spec_lt om wg wg' n m x y : (forall k, (k < n)%nat -> wg k = wg' k) -> D_spec om wg n m x y = D_spec om wg' n m x y.
Proof. intros H. unfold D_spec. f_equal. apply rsum_ext. intros e He. rewrite H by auto. reflexivity. Qed.
Lemma X_spec_lt c om wg wg' n m mu0 x : (forall k, (k < n)%nat -> wg k = wg' k) -> X_spec c om wg n m mu0 x = X_spec c om wg' n m mu0 x.
Proof. intros H. unfold X_spec. f_equal. apply rsum_ext. intros e He. rewrite H by auto. reflexivity. Qed.
Lemma cutoff_lt om wg wg' n m c : (forall k, (k < n)%nat -> wg k = wg' k) -> is_cutoff om wg n m c ->
  exists c', is_cutoff om wg' n m c' /\ forall k, (k < n)%nat -> c k = c' k.
Proof.
  intros H [H1 H2].
  assert (E : negligible om wg n m <-> negligible om wg' n m).
  { split; intros A e He; specialize (A e He); [rewrite <- H by lia|rewrite H by lia]; exact A. }
  destruct (classic (negligible om wg' n m)) as [Hn|Hn].
  - exists (fun _ => 0). split; [split; [reflexivity|tauto]|]. intros k _. apply H1. tauto.
  - exists wg'. split; [split; [tauto|reflexivity]|]. intros k Hk. rewrite H2 by tauto. auto.
Qed.

Section Refine.
  Variables (p q : py_in) (g : nat -> nat).
  Hypothesis V : valid p.
  Hypothesis V' : valid q.
  Hypothesis RF : refines p q g.

  Lemma rf_half : half q = half p. Proof. unfold half. rewrite (rf_NQuad _ _ _ RF). reflexivity. Qed.
  Lemma rf_streams : streams q = streams p. Proof. unfold streams. rewrite (rf_NQuad _ _ _ RF). reflexivity. Qed.
  Lemma rf_scl l : (l < nlayers q)%nat -> scl q l = scl p (g l).
  Proof. intros H. unfold scl. rewrite (rf_albedo _ _ _ RF), (rf_fwd _ _ _ RF) by auto. reflexivity. Qed.
  Lemma rf_albedo_s l : (l < nlayers q)%nat -> albedo_s q l = albedo_s p (g l).
  Proof. intros H. unfold albedo_s. rewrite rf_scl, (rf_albedo _ _ _ RF), (rf_fwd _ _ _ RF) by auto. reflexivity. Qed.
  Lemma rf_wphase l k : (l < nlayers q)%nat -> (k < ncoeffs p)%nat -> wphase_s q l k = wphase_s p (g l) k.
  Proof. intros H Hk. unfold wphase_s, phase_s. rewrite (rf_phase _ _ _ RF), (rf_fwd _ _ _ RF) by auto. reflexivity. Qed.

  Lemma rf_inside l t : (l < nlayers q)%nat -> top_of q l <= t <= bot_of q l -> top_of p (g l) <= t <= bot_of p (g l).
  Proof. intros Hl Ht. destruct (rf_layer _ _ _ RF l Hl) as (_ & H1 & H2). lra. Qed.
  Lemma rf_depth l : (l < nlayers q)%nat -> forall t, top_of q l <= t <= bot_of q l -> depth_s q l t = sdepth p t.
  Proof.
    assert (ST : forall l, (l < nlayers q)%nat -> depth_s q l (top_of q l) = sdepth p (top_of q l) -> forall t, top_of q l <= t <= bot_of q l -> depth_s q l t = sdepth p t).
    { intros l' Hl' H t Ht. destruct (rf_layer _ _ _ RF l' Hl') as (Hg & H1 & H2).
      assert (Hx : top_of q l' < bot_of q l') by exact (v_inc q V' l' Hl').
      rewrite (sdepth_closed p V (g l') t Hg) by (apply rf_inside; auto). rewrite (sdepth_closed p V (g l') (top_of q l') Hg) in H by (apply rf_inside; auto; lra).
      unfold depth_s in *. rewrite rf_scl in * by auto. lra. }
    induction l; intros Hl; apply ST; auto.
    - assert (H0 : sdepth p 0 = depth_s p 0 0).
      { apply (sdepth_closed p V 0 0); [exact (v_ne p V)|]. pose proof (v_inc p V 0%nat (v_ne p V)) as H. change (0 < bot_of p 0) in H. cbn [top_of]. lra. }
      cbn [top_of]. rewrite H0. unfold depth_s. cbn [rsum top_of]. ring.
    - change (top_of q (S l)) with (bot_of q l). assert (Hx : top_of q l < bot_of q l) by exact (v_inc q V' l ltac:(lia)).
      rewrite <- (IHl ltac:(lia)) by lra. unfold depth_s. cbn [rsum top_of]. unfold bot_of. ring.
  Qed.

  Lemma rf_rte mu w wg wg' m l i t W : (l < nlayers q)%nat -> top_of q l <= t <= bot_of q l -> (forall k, (k < ncoeffs p)%nat -> wg k = wg' k) ->
    rte q mu w wg m l i t W = rte p mu w wg' m (g l) i t W.
  Proof.
    intros Hl Ht Hw. destruct (rf_layer _ _ _ RF l Hl) as (Hg & _). destruct (rf_beam _ _ _ RF) as (E1 & E2 & _). unfold rte.
    rewrite rf_scl, rf_albedo_s, rf_streams, rf_half, (rf_ncoeffs _ _ _ RF), (rf_albedo _ _ _ RF), (rf_source _ _ _ RF), E1, E2 by auto.
    rewrite (rf_depth l Hl t Ht). rewrite (sdepth_closed p V (g l) t Hg) by (apply rf_inside; auto).
    rewrite (X_spec_lt _ _ wg wg') by auto. f_equal. f_equal. f_equal. f_equal. apply rsum_ext. intros j Hj. rewrite (D_spec_lt _ wg wg') by auto. reflexivity.
  Qed.

  (** A solution for the coarse layers is one for the fine layers. *)
  Lemma rf_bvp mu w vn vp rho m W : bvp p mu w vn vp rho m W -> bvp q mu w vn vp rho m W.
  Proof.
    intros [A B C D]. destruct (rf_beam _ _ _ RF) as (E1 & E2 & _). constructor.
    - intros l i wg t Hl Hi Ht Hc. rewrite rf_streams in Hi. rewrite (rf_ncoeffs _ _ _ RF), rf_albedo_s in Hc by auto.
      destruct (cutoff_lt _ _ (wphase_s p (g l)) _ _ _ (fun k Hk => rf_wphase l k Hl Hk) Hc) as (wg' & Hc' & Hw).
      rewrite (rf_rte mu w wg wg') by (auto; lra). destruct (rf_layer _ _ _ RF l Hl) as (Hg & H1 & H2). apply A; auto. lra.
    - rewrite rf_streams, (rf_bottom _ _ _ RF). exact B.
    - rewrite rf_half. exact C.
    - rewrite rf_half, (rf_bottom _ _ _ RF), (rf_BDRF _ _ _ RF), E1, E2. intros i Hi. rewrite (D i Hi).
      replace (depth_s q (nlayers q - 1) (bottom p)) with (depth_s p (nlayers p - 1) (bottom p)); [reflexivity|].
      pose proof (v_ne p V) as N1. pose proof (v_ne q V') as N2.
      rewrite (rf_depth (nlayers q - 1)).
      + symmetry. apply (sdepth_closed p V); [unfold nlayers in *; lia|]. rewrite (bottom_eq p). pose proof (v_inc p V (nlayers p - 1)%nat ltac:(unfold nlayers in *; lia)) as H.
        change (top_of p (nlayers p - 1) < bot_of p (nlayers p - 1)) in H. lra.
      + unfold nlayers in *. lia.
      + rewrite <- (rf_bottom _ _ _ RF), (bottom_eq q). pose proof (v_inc q V' (nlayers q - 1)%nat ltac:(unfold nlayers in *; lia)) as H.
        change (top_of q (nlayers q - 1) < bot_of q (nlayers q - 1)) in H. lra.
  Qed.
End Refine.

Lemma bad_depths p lg la jk out : pydisort p lg la jk = Ok out -> forall tau, ~ depths_ok p tau ->
  let e := EValue "tau input outside the tau range given for the atmosphere (check `tau_arr`)." in
  (forall an rt, po_flux_up out tau an rt = Err e) /\ (forall an rt, po_flux_down out tau an rt = Err e) /\ (forall an rt ra, po_u0 out tau an rt ra = Err e) /\
  (forall u phi an re rt, po_u out = Some u -> u tau phi an re rt = Err e).
Proof.
  intros Hok tau Hn e. destruct (pydisort_parts _ _ _ _ _ Hok) as (V & ss & r & sv & Hs & Hr & Hsv & E1 & E2 & E3 & E4 & E5).
  set (a := assemble_args p lg r ss) in *.
  assert (E : in_range a tau = false).
  { destruct (in_range a tau) eqn:E; auto. exfalso. apply Hn. exact (proj1 (in_range_iff a tau) E). }
  assert (Et : tau_check a tau = Err e) by (unfold tau_check; rewrite E; reflexivity).
  assert (Eu : forall phi an re rt rl, cl_u a sv tau phi an re rt rl = Err e) by (intros; unfold cl_u; rewrite Et; reflexivity).
  repeat split; intros.
  - rewrite E2. unfold cl_flux_up. rewrite Et. reflexivity.
  - rewrite E3. unfold cl_flux_down. rewrite Et. reflexivity.
  - rewrite E4. unfold cl_u0. rewrite Et. reflexivity.
  - rewrite E5 in H. destruct (p_only_flux p); [discriminate|]. injection H as <-. destruct (NT_active p); [unfold u_corrected; rewrite Eu; reflexivity|apply Eu].
Qed.
Lemma squeezed_same A B s f h : squeezed A s f -> squeezed B s h -> (forall idx, inb s idx -> f idx = h idx) -> teq A B.
Proof.
  intros HA HB H. apply (teq_trans _ _ _ HA). apply teq_sym. apply (teq_trans _ _ _ HB). apply tsqueeze_cong. split; [reflexivity|]. cbn. intros idx Hi. symmetry. auto.
Qed.

Lemma sdepth_refine p q g : valid p -> valid q -> refines p q g -> forall t, 0 <= t <= bottom p -> sdepth q t = sdepth p t.
Proof.
  intros V V' RF t Ht. rewrite <- (rf_bottom _ _ _ RF) in Ht. destruct (layer_at_ex q V' t Ht) as (l & Hl & Hlt).
  assert (Hr : top_of q l <= t <= bot_of q l).
  { destruct Hlt as [Hlt|[-> ->]]; [lra|]. pose proof (v_inc q V' 0%nat (v_ne q V')) as H. change (0 < bot_of q 0) in H. cbn [top_of]. lra. }
  rewrite (sdepth_closed q V' l t Hl Hr). apply (rf_depth p q g V V' RF); auto.
Qed.

Theorem call_refine_u p q g lg la la' jk jk' out out' rho : linalg_ok la -> linalg_ok la' -> leggauss_ok (half p) (lg (half p)) ->
  refines p q g -> pydisort p lg la jk = Ok out -> pydisort q lg la' jk' = Ok out' ->
  (nonneg (p_bneg p) /\ nonneg (p_bpos p)) \/ (some_source p /\ some_source q) ->
  (forall m, (m < length (p_BDRF p))%nat -> mode_is (nth m (p_BDRF p) (MScal 0)) (rho m)) ->
  (forall w vn vp m A B, double_gauss (half q) (po_mu out') w -> (m < nmodes q)%nat ->
     bvp q (po_mu out') w vn vp (rho m) m A -> bvp q (po_mu out') w vn vp (rho m) m B -> forall i t, (i < streams q)%nat -> 0 <= t <= bottom q -> A i t = B i t) ->
  same_reports (~ nt_applies p /\ ~ nt_applies q) out out'.
Proof.
  intros Hla Hla' Hlg RF Hok Hok' Hs Hrho Hun.
  destruct (pydisort_parts _ _ _ _ _ Hok) as (V & ss & r & sv & Hss & Hr & Hsv & Emu & _).
  destruct (pydisort_parts _ _ _ _ _ Hok') as (V' & ss' & r' & sv' & Hss' & Hr' & Hsv' & Emu' & _).
  pose proof (rf_half p q g RF) as Eh. pose proof (rf_streams p q g RF) as Es. pose proof (rf_bottom _ _ _ RF) as Eb.
  assert (Hlg' : leggauss_ok (half q) (lg (half q))) by (rewrite Eh; exact Hlg).
  assert (Em : po_mu out' = po_mu out).
  { rewrite Emu, Emu'. assert (EN : pN q = pN p) by (unfold pN, e_N; rewrite (rf_NQuad _ _ _ RF); reflexivity). unfold mu_arr, quad_mu. rewrite EN. reflexivity. }
  destruct (call_Umode p lg la jk out Hla Hlg Hok) as (x1 & x2 & x3 & _ & _ & _ & HU). set (U := Umode p lg x1 x2 x3) in *. clearbody U. clear x1 x2 x3.
  destruct (call_Umode q lg la' jk' out' Hla' Hlg' Hok') as (x1 & x2 & x3 & _ & _ & _ & HU'). set (U' := Umode q lg x1 x2 x3) in *. clearbody U'. clear x1 x2 x3.
  destruct (bc_exists p V lg Hlg ss r la Hla jk sv Hsv) as ((vn & Hvn) & (vp & Hvp)).
  pose proof (mu_arr_gauss p lg Hlg) as DG. rewrite <- Emu in DG. set (w := quad_W p lg) in DG.
  assert (DG' : double_gauss (half q) (po_mu out') w) by (rewrite Eh, Em; exact DG).
  assert (E : forall m i t, seen p m -> seen q m -> (i < streams p)%nat -> 0 <= t <= bottom p -> U' m i t = U m i t).
  { intros m i t Hm Hm' Hi Ht.
    refine (Hun w vn vp m (U' m) (U m) DG' (proj1 Hm') _ _ i t _ _).
    - apply (call_bvp q lg la' jk' out' Hla' Hlg' Hok' U' w vn vp rho HU' DG'); auto; rewrite ?(rf_bneg _ _ _ RF), ?(rf_bpos _ _ _ RF), ?(rf_BDRF _ _ _ RF), ?Eh; tauto.
    - rewrite Em. apply (rf_bvp p q g V V' RF). apply (call_bvp p lg la jk out Hla Hlg Hok U w vn vp rho HU DG); auto; tauto.
    - rewrite Es. exact Hi.
    - rewrite Eb. exact Ht. }
  assert (Dok : forall tau, depths_ok q tau <-> depths_ok p tau) by (intros tau; unfold depths_ok; rewrite Eb; tauto).
  assert (S0 : seen p 0 /\ seen q 0) by (split; (split; [apply nmodes_pos; auto|left; reflexivity])). destruct S0 as [S0 S0'].
  destruct (call_fluxes p lg la jk out Hla Hlg Hok U HU) as (w1 & D1 & F1 & F2).
  destruct (call_fluxes q lg la' jk' out' Hla' Hlg' Hok' U' HU') as (w2 & D2 & F3 & F4).
  rewrite Eh, Em in D2. pose proof (dg_weights _ _ _ _ D2 D1) as Ew.
  destruct (rf_beam _ _ _ RF) as (B1 & B2 & B3).
  assert (NIn : forall tau k, depths_ok p tau -> (k < length tau)%nat -> 0 <= nth k tau 0 <= bottom p) by (intros tau k H Hk; apply H, nth_In; auto).
  constructor.
  - congruence.
  - intros tau. destruct (classic (depths_ok p tau)) as [Ht|Ht].
    + destruct (F1 tau Ht) as (A & -> & HA). destruct (F3 tau ltac:(apply Dok; auto)) as (A' & -> & HA'). cbn. apply (squeezed_same _ _ _ _ _ HA HA').
      intros idx Hi. apply inb_1 in Hi as (k & -> & Hk). cbn [nth]. rewrite Eh, Em. f_equal. apply rsum_ext. intros i Hi. rewrite E; auto; [rewrite Ew by auto; reflexivity|rewrite (streams_eq p V); lia].
    + destruct (bad_depths _ _ _ _ _ Hok tau Ht) as (-> & _). destruct (bad_depths _ _ _ _ _ Hok' tau ltac:(rewrite Dok; auto)) as (-> & _). reflexivity.
  - intros tau. destruct (classic (depths_ok p tau)) as [Ht|Ht].
    + destruct (F2 tau Ht) as (A & B & -> & HA & HB1 & HB2). destruct (F4 tau ltac:(apply Dok; auto)) as (A' & B' & -> & HA' & HB1' & HB2'). cbn. constructor; [|constructor; [|constructor]]; cbn [pv_eq].
      * apply (squeezed_same _ _ _ _ _ HA HA'). intros idx Hi. apply inb_1 in Hi as (k & -> & Hk). cbn [nth]. rewrite Eh, Em. unfold direct. rewrite B1, B2.
        rewrite (sdepth_refine p q g V V' RF) by auto. f_equal. f_equal. f_equal. apply rsum_ext. intros i Hi. rewrite E; auto; [rewrite Ew by auto; reflexivity|rewrite (streams_eq p V); lia].
      * destruct (v_I0 p V) as [H0|H0].
        -- apply (squeezed_same _ _ _ _ _ (HB1 H0) (HB1' ltac:(rewrite B2; auto))). intros idx Hi. unfold direct. rewrite B1, B2. reflexivity.
        -- apply (squeezed_same _ _ _ _ _ (HB2 (eq_sym H0)) (HB2' ltac:(rewrite B2; auto))). reflexivity.
    + destruct (bad_depths _ _ _ _ _ Hok tau Ht) as (_ & -> & _). destruct (bad_depths _ _ _ _ _ Hok' tau ltac:(rewrite Dok; auto)) as (_ & -> & _). reflexivity.
  - intros tau. destruct (classic (depths_ok p tau)) as [Ht|Ht].
    + destruct (proj1 HU tau Ht) as (A & -> & HA). destruct (proj1 HU' tau ltac:(apply Dok; auto)) as (A' & -> & HA'). rewrite Es in HA'. cbn. apply (squeezed_same _ _ _ _ _ HA HA').
      intros idx Hi. apply inb_2 in Hi as (i & k & -> & Hi & Hk). cbn [nth]. symmetry. apply E; auto.
    + destruct (bad_depths _ _ _ _ _ Hok tau Ht) as (_ & _ & -> & _). destruct (bad_depths _ _ _ _ _ Hok' tau ltac:(rewrite Dok; auto)) as (_ & _ & -> & _). reflexivity.
  - intros [Hn Hn']. destruct (p_only_flux p) eqn:Ef.
    + destruct (pydisort_parts _ _ _ _ _ Hok) as (_ & ? & ? & ? & _ & _ & _ & _ & _ & _ & _ & ->). destruct (pydisort_parts _ _ _ _ _ Hok') as (_ & ? & ? & ? & _ & _ & _ & _ & _ & _ & _ & ->).
      rewrite (rf_flux _ _ _ RF), Ef. exact I.
    + destruct (call_u p lg la jk out Hok Ef) as (u & Hu). destruct (call_u q lg la' jk' out' Hok' ltac:(rewrite (rf_flux _ _ _ RF); exact Ef)) as (u' & Hu'). rewrite Hu, Hu'. intros tau phi.
      destruct (classic (depths_ok p tau)) as [Ht|Ht].
      * destruct (proj2 HU u Hu Hn tau phi Ht) as (A & -> & HA). destruct (proj2 HU' u' Hu' Hn' tau phi ltac:(apply Dok; auto)) as (A' & -> & HA'). rewrite Es, (rf_nmodes _ _ _ RF) in HA'. cbn.
        apply (squeezed_same _ _ _ _ _ HA HA'). intros idx Hi. apply inb_3 in Hi as (i & k & h & -> & Hi & Hk & Hh). cbn [nth]. rewrite B3. apply rsum_ext. intros m Hm. f_equal. symmetry.
        apply E; auto; split; auto. rewrite (rf_nmodes _ _ _ RF). exact Hm.
      * destruct (bad_depths _ _ _ _ _ Hok tau Ht) as (_ & _ & _ & Hx). destruct (bad_depths _ _ _ _ _ Hok' tau ltac:(rewrite Dok; auto)) as (_ & _ & _ & Hx').
        rewrite (Hx u), (Hx' u') by auto. reflexivity.
Qed.

Theorem call_refine p q g lg la la' jk jk' out out' : linalg_ok la -> linalg_ok la' -> linalg_unique la' -> leggauss_ok (half p) (lg (half p)) ->
  refines p q g -> pydisort p lg la jk = Ok out -> pydisort q lg la' jk' = Ok out' ->
  (nonneg (p_bneg p) /\ nonneg (p_bpos p)) \/ (some_source p /\ some_source q) ->
  (forall m, (m < length (p_BDRF p))%nat -> exists rho, mode_is (nth m (p_BDRF p) (MScal 0)) rho) ->
  same_reports (~ nt_applies p /\ ~ nt_applies q) out out'.
Proof.
  intros Hla Hla' Hlu Hlg RF Hok Hok' Hs HB.
  destruct (fin_choice (fun _ _ => 0) (fun m rho => mode_is (nth m (p_BDRF p) (MScal 0)) rho) _ HB) as (rho & Hrho).
  apply (call_refine_u p q g lg la la' jk jk' out out' rho); auto.
  intros w vn vp m A B DG' Hm HA HB' i t Hi Ht. refine (bvp_unique q lg la' jk' out' Hla' Hlu _ Hok' w vn vp (rho m) m A B DG' Hm _ HA HB' i t Hi Ht).
  - rewrite (rf_half p q g RF). exact Hlg.
  - rewrite (rf_BDRF _ _ _ RF). apply Hrho.
Qed.

(** ** Cutting one layer *)
Lemma nth_skp {A} (d : A) : forall n xs i, nth i (skipn n xs) d = nth (n + i) xs d.
Proof. induction n; intros xs i; [reflexivity|]. destruct xs; [destruct i; reflexivity|]. cbn. apply IHn. Qed.
Definition under (l k : nat) : nat := if Nat.leb k l then k else (k - 1)%nat.
Lemma nth_twice {A} (d : A) l : forall xs k, nth k (twice l xs) d = nth (under l k) xs d.
Proof.
  intros xs k. unfold twice, under. destruct (Nat.leb_spec k l) as [H|H].
  - destruct (Nat.lt_ge_cases k (length (firstn (S l) xs))) as [Hk|Hk].
    + rewrite app_nth1 by auto. rewrite <- (firstn_skipn (S l) xs) at 2. rewrite app_nth1; auto.
    + rewrite app_nth2 by auto. rewrite firstn_length in *. rewrite (nth_overflow xs) by lia. apply nth_overflow. rewrite skipn_length. lia.
  - destruct (Nat.lt_ge_cases (k - 1) (length xs)) as [Hk|Hk].
    + rewrite app_nth2; rewrite firstn_length; [|lia]. rewrite nth_skp. f_equal. lia.
    + rewrite (nth_overflow xs) by lia. apply nth_overflow. rewrite app_length, firstn_length, skipn_length. lia.
Qed.
Lemma length_twice {A} l (xs : list A) : (l < length xs)%nat -> length (twice l xs) = S (length xs).
Proof. intros H. unfold twice. rewrite app_length, firstn_length, skipn_length. lia. Qed.
Lemma in_twice {A} l (xs : list A) x : In x (twice l xs) -> In x xs.
Proof.
  unfold twice. intros H. apply in_app_or in H as [H|H].
  - rewrite <- (firstn_skipn (S l) xs). apply in_or_app. auto.
  - rewrite <- (firstn_skipn l xs). apply in_or_app. auto.
Qed.

Section Split.
  Variables (p : py_in) (l : nat) (s : R).
  Hypothesis Hl : (l < nlayers p)%nat.
  Hypothesis Hs : top_of p l < s < bot_of p l.
  Let q := split p l s.

  Lemma split_len : nlayers q = S (nlayers p).
  Proof. unfold nlayers in *. cbn [q split p_tau]. rewrite app_length, firstn_length. cbn [length]. rewrite skipn_length. lia. Qed.
  Lemma split_bot k : (k < nlayers q)%nat -> bot_of q k = if Nat.eqb k l then s else bot_of p (under l k).
  Proof.
    rewrite split_len. intros Hk. unfold bot_of, nlayers, under in *. cbn [q split p_tau]. destruct (Nat.lt_trichotomy k l) as [H|[->|H]].
    - rewrite app_nth1 by (rewrite firstn_length; lia). rewrite (proj2 (Nat.eqb_neq k l)) by lia. rewrite (proj2 (Nat.leb_le k l)) by lia.
      rewrite <- (firstn_skipn l (p_tau p)) at 2. rewrite app_nth1; auto. rewrite firstn_length; lia.
    - rewrite Nat.eqb_refl. rewrite app_nth2; rewrite firstn_length; [|lia]. replace (l - _)%nat with 0%nat by lia. reflexivity.
    - rewrite (proj2 (Nat.eqb_neq k l)) by lia. rewrite (proj2 (Nat.leb_gt k l)) by lia. rewrite app_nth2; rewrite firstn_length; [|lia].
      replace (k - _)%nat with (S (k - l - 1)) by lia. cbn [nth]. rewrite nth_skp. f_equal. lia.
  Qed.
  Lemma split_top k : (k < nlayers q)%nat -> top_of q k = if Nat.eqb k (S l) then s else top_of p (under l k).
  Proof.
    intros Hk. destruct k.
    - cbn. unfold under. reflexivity.
    - change (top_of q (S k)) with (bot_of q k). rewrite split_bot by lia. change (Nat.eqb (S k) (S l)) with (Nat.eqb k l).
      destruct (Nat.eqb_spec k l) as [|Hne]; [reflexivity|]. unfold under. destruct (Nat.leb_spec k l) as [H|H].
      + rewrite (proj2 (Nat.leb_le (S k) l)) by lia. reflexivity.
      + rewrite (proj2 (Nat.leb_gt (S k) l)) by lia. destruct k; [lia|]. replace (S (S k) - 1)%nat with (S k) by lia. replace (S k - 1)%nat with k by lia. reflexivity.
  Qed.
  Lemma under_lt k : (k < nlayers q)%nat -> (under l k < nlayers p)%nat.
  Proof. rewrite split_len. intros H. unfold under. destruct (Nat.leb_spec k l); lia. Qed.
  Lemma split_row a k j : at2 (twice_row l a) k j = at2 a (under l k) j.
  Proof. reflexivity. Qed.

  Hypothesis V : valid p.
  Lemma no_source : nrow (p_s p) <> nlayers p -> forall k j, (k < nrow (p_s p))%nat -> (j < ncol (p_s p))%nat -> at2 (p_s p) k j = 0.
  Proof.
    intros Hn k j Hk Hj. destruct (Req_dec (at2 (p_s p) k j) 0) as [|Hne]; auto. exfalso. apply Hn. apply (v_ns p V). exists k, j. auto.
  Qed.
  Lemma split_source k t : (k < nlayers q)%nat -> source q k t = source p (under l k) t.
  Proof.
    intros Hk. unfold source. cbn [q split p_s]. destruct (Nat.eqb_spec (nrow (p_s p)) (nlayers p)) as [E|E].
    - cbn [twice_row nrow ncol at2]. rewrite E. pose proof (under_lt k Hk) as Hu. rewrite split_len in Hk.
      rewrite (proj2 (Nat.ltb_lt k (S (nlayers p)))) by lia. rewrite (proj2 (Nat.ltb_lt (under l k) (nlayers p))) by lia. reflexivity.
    - assert (Z : forall k', (if Nat.ltb k' (nrow (p_s p)) then rsum (ncol (p_s p)) (fun j => at2 (p_s p) k' j * t ^ j) else 0) = 0).
      { intros k'. destruct (Nat.ltb_spec k' (nrow (p_s p))); [|reflexivity]. apply rsum_0. intros j Hj. rewrite no_source by auto. ring. }
      rewrite !Z. reflexivity.
  Qed.
  Theorem split_refines : refines p q (under l).
  Proof.
    constructor; try reflexivity; auto.
    - rewrite !bottom_eq. rewrite split_len. replace (S (nlayers p) - 1)%nat with (nlayers p) by lia. rewrite split_bot by (rewrite split_len; lia).
      rewrite (proj2 (Nat.eqb_neq (nlayers p) l)) by lia. unfold under. rewrite (proj2 (Nat.leb_gt _ l)) by lia. reflexivity.
    - intros k Hk. split; [apply under_lt; auto|]. rewrite split_top, split_bot by auto. unfold under. split.
      + destruct (Nat.eqb_spec k (S l)) as [->|H]; [|lra]. rewrite (proj2 (Nat.leb_gt (S l) l)) by lia. replace (S l - 1)%nat with l by lia. lra.
      + destruct (Nat.eqb_spec k l) as [->|H]; [|lra]. rewrite Nat.leb_refl. lra.
    - intros k Hk. unfold albedo. cbn [q split p_omega]. apply nth_twice.
    - intros k Hk. unfold fwd. cbn [q split p_f]. apply nth_twice.
    - intros k t Hk. apply split_source; auto.
  Qed.
  Lemma split_some : some_source p -> some_source q.
  Proof.
    intros [H|[H|(k & j & H1 & H2 & H3)]]; [left; exact H|right; left; exact H|right; right].
    cbn [q split p_s]. destruct (Nat.eqb_spec (nrow (p_s p)) (nlayers p)) as [E|E]; [|exists k, j; auto].
    exists (if Nat.leb k l then k else S k), j. cbn [twice_row nrow ncol at2]. split; [destruct (Nat.leb_spec k l); lia|]. split; [auto|].
    destruct (Nat.leb_spec k l) as [Hk|Hk]; [rewrite (proj2 (Nat.leb_le _ _)) by lia; exact H3|rewrite (proj2 (Nat.leb_gt _ _)) by lia]. replace (S k - 1)%nat with k by lia. exact H3.
  Qed.
  Theorem split_valid : valid q.
  Proof.
    pose proof split_len as EL. unfold nlayers in Hl, EL.
    constructor; try exact (v_I0 p V); try apply V.
    - change (Spec_Sol.nlayers q) with (nlayers q). rewrite split_len. lia.
    - intros k Hk. change (k < nlayers q)%nat in Hk. rewrite split_bot by auto. destruct (Nat.eqb k l).
      + destruct l; [cbn [top_of] in Hs; lra|]. pose proof (v_tau p V n ltac:(unfold nlayers; lia)) as H. cbn [top_of] in Hs. unfold bot_of in H. lra.
      + apply (v_tau p V). apply under_lt; auto.
    - intros k Hk. change (k < nlayers q)%nat in Hk. rewrite split_bot, split_top by auto. pose proof (v_inc p V (under l k) (under_lt k Hk)) as H.
      unfold under in *. destruct (Nat.eq_dec k l) as [E1|E1]; [|destruct (Nat.eq_dec k (S l)) as [E2|E2]].
      + subst k. rewrite Nat.eqb_refl, Nat.leb_refl. destruct (Nat.eqb_spec l (S l)); [lia|]. lra.
      + subst k. rewrite Nat.eqb_refl. destruct (Nat.eqb_spec (S l) l); [lia|]. rewrite (proj2 (Nat.leb_gt (S l) l)) in * by lia. replace (S l - 1)%nat with l in * by lia. lra.
      + rewrite (proj2 (Nat.eqb_neq k l)), (proj2 (Nat.eqb_neq k (S l))) by auto. exact H.
    - intros w Hw. apply (v_om p V). apply (in_twice l). exact Hw.
    - change (Spec_Sol.nlayers q) with (nlayers q). rewrite split_len. cbn. rewrite (v_nrow p V). reflexivity.
    - change (Spec_Sol.nlayers q) with (nlayers q). rewrite split_len. cbn [q split p_omega]. rewrite length_twice; rewrite (v_nom p V); auto.
    - intros (f & Hf & Hne). change (Spec_Sol.nlayers q) with (nlayers q). rewrite split_len. cbn [q split p_f].
      assert (E : length (p_f p) = nlayers p) by (apply (v_nf p V); exists f; split; auto; apply (in_twice l); exact Hf).
      rewrite length_twice; rewrite E; auto.
    - intros (k & j & H1 & H2 & H3). change (Spec_Sol.nlayers q) with (nlayers q). rewrite split_len. cbn [q split p_s] in *. destruct (Nat.eqb_spec (nrow (p_s p)) (nlayers p)) as [E|E].
      + cbn. rewrite E. reflexivity.
      + exfalso. apply H3. apply no_source; auto.
    - intros k j Hk Hj. change (k < nlayers q)%nat in Hk. cbn [q split p_Leg]. rewrite split_row. apply (v_g p V); auto. apply under_lt; auto.
    - intros f Hf. apply (v_f p V). apply (in_twice l). exact Hf.
  Qed.
End Split.

Lemma split_nt p l s : (l < nlayers p)%nat -> nt_applies (split p l s) -> nt_applies p.
Proof.
  intros Hl (A & B & C & (f & Hf & Hf0) & E & (w & Hw & Hw0)). repeat (split; [assumption|]). split; [exists f; split; auto; apply (in_twice l); exact Hf|].
  split; [exact E|]. exists w; split; auto; apply (in_twice l); exact Hw.
Qed.
Theorem call_split p l s lg la la' jk jk' out out' : linalg_ok la -> linalg_ok la' -> linalg_unique la' -> leggauss_ok (half p) (lg (half p)) ->
  (l < nlayers p)%nat -> top_of p l < s < bot_of p l -> pydisort p lg la jk = Ok out -> pydisort (split p l s) lg la' jk' = Ok out' ->
  (nonneg (p_bneg p) /\ nonneg (p_bpos p)) \/ some_source p ->
  (forall m, (m < length (p_BDRF p))%nat -> exists rho, mode_is (nth m (p_BDRF p) (MScal 0)) rho) ->
  same_reports (~ nt_applies p) out out'.
Proof.
  intros Hla Hla' Hlu Hlg Hl Hs Hok Hok' HS HB. assert (V : valid p) by apply (pydisort_parts _ _ _ _ _ Hok).
  destruct (call_refine p (split p l s) (under l) lg la la' jk jk' out out') as [A B C D E]; auto.
  - apply split_refines; auto.
  - destruct HS as [H|H]; [left; exact H|right; split; [exact H|apply split_some; auto]].
  - constructor; auto. intros Hn. apply E. split; [exact Hn|]. intros H. apply Hn. apply (split_nt p l s); auto.
Qed.
