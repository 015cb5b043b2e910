(** Well-posed inputs: the call answers, also after a layer is cut. Beams that cannot resonate. *)
From Coq Require Import Classical String Reals Lra Lia List Bool Arith ZArith.
From Coquelicot Require Import Coquelicot.
From Verif Require Import Base Tensor Spec M_LinAlg Spec_RTE Calc M_Subroutines M_GenPart M_MathscrV M_Coeffs M_Assemble M_Pydisort
  P_Quad P_Sub P_Special P_GenPart P_GenPart2 P_GenPart3 P_GenPart4 P_Tensor P_MathscrV P_Coeffs P_Coeffs2 P_Coeffs3 P_Assemble P_Solve P_LinA
  Spec_Sol Spec_Valid Spec_Calls Spec_Unique Spec_Phys Spec_Solved P_Valid P_Pydisort P_Pydisort2 P_Pydisort3 P_Pydisort4 P_Pydisort5 P_NT3 P_Absorb P_Unique P_Unique2 P_Unique3
  P_Pydisort8 P_Pydisort6 P_Refine P_Max P_Max2 P_Spec1 P_Spec2 P_Spec3 P_Spec4 P_Spec5 P_Spec6.
Import ListNotations.
Local Open Scope R_scope.

Theorem posed_ok p rho lg la jk : physical_input p rho -> no_resonance p -> leggauss_ok (half p) (lg (half p)) -> linalg_ok la -> linalg_complete la -> linalg_total la ->
  exists out, pydisort p lg la jk = Ok out.
Proof.
  intros [V H1 H2 H3 H4 H5 H6 H7] H8 Hlg Hla Hlc Hlt. apply (physical_ok p lg la jk rho); auto.
  intros HN x Hx. pose proof (mu_arr_gauss p lg Hlg) as HD. destruct (GL_lengths lg (half p) 0 1 Hlg) as [L1 _].
  destruct (In_nth _ x 0 Hx) as (i & Hi & <-). rewrite L1 in Hi.
  specialize (H6 HN _ _ i HD Hi). rewrite (mu_arr_node p lg) in H6 by lia. unfold node in H6. rewrite (proj2 (Nat.ltb_lt i (half p))) in H6 by exact Hi. exact H6.
Qed.

(** Finite maxima. *)
Lemma fin_argmax n (f : nat -> R) : (0 < n)%nat -> exists i, (i < n)%nat /\ forall j, (j < n)%nat -> f j <= f i.
Proof.
  induction n; intros Hn; [lia|]. destruct n.
  - exists 0%nat. split; [lia|]. intros j Hj. replace j with 0%nat by lia. lra.
  - destruct IHn as (i & Hi & Hm); [lia|]. destruct (Rle_lt_dec (f (S n)) (f i)) as [H|H].
    + exists i. split; [lia|]. intros j Hj. destruct (Nat.eq_dec j (S n)) as [->|]; [exact H|]. apply Hm. lia.
    + exists (S n). split; [lia|]. intros j Hj. destruct (Nat.eq_dec j (S n)) as [->|]; [lra|]. specialize (Hm j ltac:(lia)). lra.
Qed.

Lemma rsum_tri n f : Rabs (rsum n f) <= rsum n (fun j => Rabs (f j)).
Proof. induction n; cbn [rsum]; [rewrite Rabs_R0; lra|]. pose proof (Rabs_triang (rsum n f) (f n)). lra. Qed.

Theorem far_free p mu w rho l : valid p -> double_gauss (half p) mu w -> physical p mu w rho -> 0 < p_mu0 p -> (l < nlayers p)%nat ->
  (forall i, (i < half p)%nat -> albedo_s p l < Rabs (1 - nth i mu 0 / p_mu0 p)) -> forall m, ~ resonant p mu w m l.
Proof.
  intros V HD HP Hmu Hl Hfar m (_ & v & (i0 & Hi0 & Hv0) & Hv). set (N := half p) in *. pose proof (streams_eq p V) as Es. fold N in Es. rewrite Es in *.
  destruct (fin_argmax (2 * N) (fun i => Rabs (v i)) ltac:(lia)) as (i & Hi & Hm).
  assert (Hpos : 0 < Rabs (v i)) by (pose proof (Hm i0 Hi0) as H; cbn beta in H; pose proof (Rabs_pos_lt _ Hv0); lra).
  assert (Hd : albedo_s p l < Rabs (1 + nth i mu 0 / p_mu0 p)).
  { destruct HD as (_ & H2 & _). destruct (Nat.lt_ge_cases i N) as [Hlt|Hge].
    - destruct (H2 i Hlt) as (Hn & _). pose proof (albedo_s_range p V l Hl) as Hal.
      assert (0 < nth i mu 0 / p_mu0 p) by (apply Rdiv_lt_0_compat; lra). rewrite Rabs_right by lra. lra.
    - destruct (H2 (i - N)%nat ltac:(lia)) as (_ & Hn & _). fold N in Hn. replace (N + (i - N))%nat with i in Hn by lia. rewrite Hn.
      specialize (Hfar (i - N)%nat ltac:(lia)). replace (1 + - nth (i - N) mu 0 / p_mu0 p) with (1 - nth (i - N) mu 0 / p_mu0 p) by (unfold Rdiv; ring). exact Hfar. }
  specialize (Hv i Hi).
  assert (E : (1 + nth i mu 0 / p_mu0 p) * v i = rsum (2 * N) (fun j => wnode N w j * D_spec (albedo_s p l) (wphase_s p l) (ncoeffs p) m (nth i mu 0) (nth j mu 0) * v j)) by (unfold Rdiv; lra).
  assert (B : Rabs (1 + nth i mu 0 / p_mu0 p) * Rabs (v i) <= albedo_s p l * Rabs (v i)).
  { rewrite <- Rabs_mult, E. apply Rle_trans with (1 := rsum_tri _ _).
    apply Rle_trans with (rsum (2 * N) (fun j => wnode N w j * Rabs (D_spec (albedo_s p l) (wphase_s p l) (ncoeffs p) m (nth i mu 0) (nth j mu 0)) * Rabs (v i))).
    - apply rsum_le. intros j Hj. pose proof (wnode_pos p mu w HD j Hj) as Hw. fold N in Hw. rewrite !Rabs_mult, (Rabs_right (wnode N w j)) by lra.
      apply Rmult_le_compat_l; [apply Rmult_le_pos; [lra|apply Rabs_pos]|]. apply Hm. exact Hj.
    - rewrite rsum_scal_r. apply Rmult_le_compat_r; [apply Rabs_pos|]. apply (phys_row0 p V mu w rho HD HP m l i Hl Hi). }
  apply Rmult_le_reg_r in B; [lra|exact Hpos].
Qed.

(** Finer layers. *)
Section Refine.
  Variables (p q : py_in) (g : nat -> nat).
  Hypothesis V : valid p.
  Hypothesis V' : valid q.
  Hypothesis RF : refines p q g.

  Lemma rf_mode m l x y : (l < nlayers q)%nat -> phase_mode q m l x y = phase_mode p m (g l) x y.
  Proof. intros Hl. unfold phase_mode. rewrite (rf_ncoeffs _ _ _ RF). apply rsum_ext. intros k Hk. destruct (Nat.leb m k); [|reflexivity]. rewrite (rf_wphase p q g RF) by auto. reflexivity. Qed.
  Lemma rf_physical mu w rho : physical p mu w rho -> physical q mu w rho.
  Proof.
    intros [A B C]. pose proof (rf_half p q g RF) as Eh. pose proof (rf_streams p q g RF) as Es. constructor.
    - intros l i j phi Hl Ha Hi Hj. rewrite Es in *. destruct (rf_layer _ _ _ RF l Hl) as (Hg & _). rewrite (rf_albedo_s p q g RF) in Ha by auto.
      pose proof (A (g l) i j phi Hg Ha Hi Hj) as H. unfold phase_fn in *. rewrite (rf_ncoeffs _ _ _ RF).
      rewrite (rsum_ext _ _ (fun m => (if Nat.eqb m 0 then 1 else 2) * phase_mode p m (g l) (nth i mu 0) (nth j mu 0) * cos (INR m * phi))); [exact H|].
      intros m Hm. rewrite rf_mode by auto. reflexivity.
    - intros i j phi Hi Hj. rewrite Eh in *. unfold surface_fn. rewrite (rf_BDRF _ _ _ RF). apply B; auto.
    - intros i Hi. rewrite Eh in *. unfold reflectance. rewrite (rf_BDRF _ _ _ RF), Eh. apply C; auto.
  Qed.
  Lemma rf_resonant mu w m l : (l < nlayers q)%nat -> resonant q mu w m l -> resonant p mu w m (g l).
  Proof.
    intros Hl (Hn & v & Hv0 & Hv). pose proof (rf_half p q g RF) as Eh. pose proof (rf_streams p q g RF) as Es. destruct (rf_beam _ _ _ RF) as (B1 & _).
    rewrite Es, Eh, B1 in *. rewrite (rf_ncoeffs _ _ _ RF), (rf_albedo_s p q g RF) in * by auto. split.
    - intros H. apply Hn. intros k Hk. rewrite (rf_wphase p q g RF) by (auto; lia). apply H. exact Hk.
    - exists v. split; [exact Hv0|]. intros i Hi. rewrite (Hv i Hi). f_equal. apply rsum_ext. intros j Hj.
      rewrite (D_spec_lt _ (wphase_s q l) (wphase_s p (g l))) by (intros k Hk; apply (rf_wphase p q g RF); auto). reflexivity.
  Qed.
End Refine.

Section Split.
  Variables (p : py_in) (l : nat) (s : R) (rho : nat -> R -> R -> R).
  Hypothesis Hl : (l < nlayers p)%nat.
  Hypothesis Hs : top_of p l < s < bot_of p l.
  Hypothesis WP : physical_input p rho.
  Let q := split p l s.
  Let V : valid p := pi_valid p rho WP.

  Theorem split_posed : physical_input q rho.
  Proof.
    pose proof (split_refines p l s Hl Hs V) as RF. pose proof (split_valid p l s Hl Hs V) as V'. fold q in RF, V'.
    pose proof WP as [_ H1 H2 H3 H4 H5 H6 H7]. pose proof (rf_half p q _ RF) as Eh.
    assert (Hsrc : has_source p <-> has_source q).
    { unfold has_source. cbn [q split p_s]. destruct (Nat.eqb_spec (nrow (p_s p)) (nlayers p)) as [E|E]; [|tauto]. split.
      - intros (i & j & Hi & Hj & Hn). exists (if Nat.leb i l then i else S i), j. cbn [twice_row nrow ncol at2]. split; [destruct (Nat.leb_spec i l); lia|]. split; [exact Hj|].
        destruct (Nat.leb_spec i l) as [Hk|Hk]; [rewrite (proj2 (Nat.leb_le _ _)) by lia; exact Hn|rewrite (proj2 (Nat.leb_gt _ _)) by lia]. replace (S i - 1)%nat with i by lia. exact Hn.
      - intros (i & j & Hi & Hj & Hn). cbn [twice_row nrow ncol at2] in *. exists (if Nat.leb i l then i else i - 1)%nat, j. split; [destruct (Nat.leb_spec i l); lia|]. auto. }
    constructor; auto.
    - intros Hn. rewrite <- Hsrc in Hn.
      assert (EN : nrow (p_s q) = if Nat.eqb (nrow (p_s p)) (nlayers p) then S (nrow (p_s p)) else nrow (p_s p)) by (cbn [q split p_s]; destruct (Nat.eqb _ _); reflexivity).
      assert (EL : nlayers q = S (nlayers p)) by exact (split_len p l s Hl). rewrite EN, EL.
      destruct (Nat.eqb_spec (nrow (p_s p)) (nlayers p)) as [E|E]; [right; congruence|]. destruct (H4 Hn); [auto|contradiction].
    - intros H. apply H5. apply Hsrc. exact H.
    - intros mu w HD. apply (rf_physical p q _ RF). apply H7. rewrite <- Eh. exact HD.
  Qed.
  Theorem split_free : no_resonance p -> no_resonance q.
  Proof.
    intros H8 HI mu w m k HD Hm Hk Hr. pose proof (split_refines p l s Hl Hs V) as RF. fold q in RF. pose proof (rf_half p q _ RF) as Eh.
    rewrite Eh in HD. rewrite (rf_nmodes _ _ _ RF) in Hm. destruct (rf_layer _ _ _ RF k Hk) as (Hg & _).
    apply (H8 HI mu w m (under l k) HD Hm Hg). apply (rf_resonant p q _ RF); auto.
  Qed.

  Theorem split_solved lg la la' jk jk' : no_resonance p -> leggauss_ok (half p) (lg (half p)) ->
    linalg_ok la -> linalg_complete la -> linalg_total la -> linalg_ok la' -> linalg_complete la' -> linalg_total la' ->
    exists out out', pydisort p lg la jk = Ok out /\ pydisort q lg la' jk' = Ok out' /\
    ((nonneg (p_bneg p) /\ nonneg (p_bpos p)) \/ some_source p -> same_reports (~ nt_applies p) out out').
  Proof.
    intros HR Hlg A1 A2 A3 B1 B2 B3. pose proof (split_refines p l s Hl Hs V) as RF. fold q in RF.
    destruct (posed_ok p rho lg la jk WP HR Hlg A1 A2 A3) as (out & Hok).
    destruct (posed_ok q rho lg la' jk' split_posed (split_free HR) Hlg B1 B2 B3) as (out' & Hok').
    exists out, out'. split; [exact Hok|]. split; [exact Hok'|]. intros HS.
    destruct (call_refine_u p q (under l) lg la la' jk jk' out out' rho) as [A B C D E]; auto.
    - destruct HS as [H|H]; [left; exact H|right; split; [exact H|apply split_some; auto]].
    - exact (pi_rho p rho WP).
    - intros w vn vp m A B HD Hm HA HB. 
      exact (phys_unique q (pi_valid q rho split_posed) _ w rho HD (pi_physical q rho split_posed _ w HD) vn vp m A B HA HB).
    - constructor; auto. intros Hn. apply E. split; [exact Hn|]. intros H. apply Hn. apply (split_nt p l s); auto.
  Qed.
End Split.

(** Everything together: the call answers, and its modes are the only solution. *)
Theorem posed_answer p rho lg la jk : physical_input p rho -> no_resonance p -> leggauss_ok (half p) (lg (half p)) -> linalg_ok la -> linalg_complete la -> linalg_total la ->
  exists out U w, pydisort p lg la jk = Ok out /\ modes_of p out U /\ double_gauss (half p) (po_mu out) w /\
  forall vn vp, bc_values (p_bneg p) (half p) vn -> bc_values (p_bpos p) (half p) vp ->
  (nonneg (p_bneg p) /\ nonneg (p_bpos p)) \/ some_source p ->
  forall m, seen p m -> bvp p (po_mu out) w vn vp (rho m) m (U m) /\
  forall F, bvp p (po_mu out) w vn vp (rho m) m F -> forall i t, (i < streams p)%nat -> 0 <= t <= bottom p -> F i t = U m i t.
Proof.
  intros WP HR Hlg Hla Hlc Hlt. destruct (posed_ok p rho lg la jk WP HR Hlg Hla Hlc Hlt) as (out & H).
  destruct (modes_exist p lg la jk out Hla Hlg H) as (U & HU). destruct (call_fluxes p lg la jk out Hla Hlg H U HU) as (w & Hw & _).
  exists out, U, w. split; [exact H|]. split; [exact HU|]. split; [exact Hw|]. intros vn vp Hn Hp Hs m Hm.
  apply (phys_only p lg la jk out Hla Hlg H U HU w Hw); auto; try tauto.
  - exact (pi_rho p rho WP).
  - exact (pi_physical p rho WP _ w Hw).
Qed.

(** Resonance does not depend on the order of the nodes. *)
Lemma rsum_inj n : forall (s : nat -> nat) f, (forall i, (i < n)%nat -> (s i < n)%nat) -> (forall i j, (i < n)%nat -> (j < n)%nat -> s i = s j -> i = j) ->
  rsum n (fun i => f (s i)) = rsum n f.
Proof.
  induction n; intros s f Hs Hi; [reflexivity|]. pose proof (Hs n ltac:(lia)) as Hq. rewrite (rsum_skip n (s n) f) by lia. cbn [rsum]. f_equal.
  rewrite <- (IHn (fun i => if Nat.ltb (s i) (s n) then s i else (s i - 1)%nat) (fun j => f (sk (s n) j))).
  - apply rsum_ext. intros i Hin. f_equal. assert (s i <> s n) by (intros E; apply Hi in E; lia). unfold sk.
    destruct (Nat.ltb_spec (s i) (s n)); [destruct (Nat.ltb_spec (s i) (s n)); lia|]. destruct (Nat.ltb_spec (s i - 1) (s n)); lia.
  - intros i Hin. assert (s i <> s n) by (intros E; apply Hi in E; lia). pose proof (Hs i ltac:(lia)). destruct (Nat.ltb_spec (s i) (s n)); lia.
  - intros i j Hin Hjn E. assert (s i <> s n) by (intros E'; apply Hi in E'; lia). assert (s j <> s n) by (intros E'; apply Hi in E'; lia).
    apply Hi; try lia. destruct (Nat.ltb_spec (s i) (s n)), (Nat.ltb_spec (s j) (s n)); lia.
Qed.

Theorem resonant_order p mu w mu' w' m l : valid p -> double_gauss (half p) mu w -> double_gauss (half p) mu' w' -> resonant p mu w m l -> resonant p mu' w' m l.
Proof.
  intros V HD HD' (Hn & v & (i0 & Hi0 & Hv0) & Hv). split; [exact Hn|]. set (N := half p) in *. pose proof (streams_eq p V) as Es. fold N in Es. rewrite Es in *.
  destruct (dg_determined N mu' w' mu w HD' HD) as (HS & _).
  destruct (fin_choice 0%nat (fun i j => (j < N)%nat /\ nth i mu' 0 = nth j mu 0 /\ w' i = w j) N) as (s & Hs); [intros i Hi; exact (HS i Hi)|].
  set (t := fun i => if Nat.ltb i N then s i else (N + s (i - N))%nat).
  pose proof HD as (_ & HM & _). pose proof HD' as (HL' & HM' & HX' & _).
  assert (Ht : forall i, (i < 2 * N)%nat -> (t i < 2 * N)%nat /\ nth i mu' 0 = nth (t i) mu 0 /\ wnode N w' i = wnode N w (t i)).
  { intros i Hi. unfold t, wnode. destruct (Nat.ltb_spec i N) as [H|H].
    - destruct (Hs i H) as (A & B & C). rewrite (proj2 (Nat.ltb_lt (s i) N)) by exact A. split; [lia|]. auto.
    - destruct (Hs (i - N)%nat ltac:(lia)) as (A & B & C). rewrite (proj2 (Nat.ltb_ge (N + s (i - N)) N)%nat) by lia. split; [lia|].
      destruct (HM' (i - N)%nat ltac:(lia)) as (_ & E1 & _). destruct (HM (s (i - N)%nat) A) as (_ & E2 & _). replace (N + (i - N))%nat with i in E1 by lia.
      rewrite E1, E2, B. split; [reflexivity|]. replace (N + s (i - N) - N)%nat with (s (i - N)%nat) by lia. exact C. }
  assert (Hti : forall i j, (i < 2 * N)%nat -> (j < 2 * N)%nat -> t i = t j -> i = j).
  { intros i j Hi Hj E. destruct (Ht i Hi) as (_ & E1 & _). destruct (Ht j Hj) as (_ & E2 & _). apply NNPP. intros Hne. apply (HX' i j); try (rewrite HL'; assumption); auto. congruence. }
  exists (fun i => v (t i)). split.
  - apply NNPP. intros Hno. pose proof (rsum_inj (2 * N) t (fun i => Rabs (v i)) (fun i Hi => proj1 (Ht i Hi)) Hti) as E. cbn beta in E.
    rewrite rsum_0 in E; [|intros i Hi; destruct (Req_dec (v (t i)) 0) as [->|H]; [apply Rabs_R0|exfalso; apply Hno; eauto]].
    pose proof (Rabs_pos_lt _ Hv0). assert (Rabs (v i0) <= rsum (2 * N) (fun i => Rabs (v i))); [|lra].
    clear - Hi0. induction (2 * N)%nat as [|n IH]; [lia|]. cbn [rsum]. assert (Hp : 0 <= rsum n (fun i => Rabs (v i))) by (apply rsum_nonneg; intros; apply Rabs_pos).
    destruct (Nat.eq_dec i0 n) as [->|]; [lra|]. specialize (IH ltac:(lia)). pose proof (Rabs_pos (v n)). lra.
  - intros i Hi. destruct (Ht i Hi) as (A & B & _). rewrite B. rewrite (Hv (t i) A). f_equal.
    rewrite <- (rsum_inj (2 * N) t (fun j => wnode N w j * D_spec (albedo_s p l) (wphase_s p l) (ncoeffs p) m (nth (t i) mu 0) (nth j mu 0) * v j) (fun i Hi => proj1 (Ht i Hi)) Hti).
    apply rsum_ext. intros j Hj. destruct (Ht j Hj) as (_ & B' & C'). rewrite B', C'. reflexivity.
Qed.

Theorem posed_iff p rho lg la jk : physical_input p rho -> leggauss_ok (half p) (lg (half p)) -> linalg_ok la -> linalg_unique la -> linalg_complete la -> linalg_total la ->
  (exists out, pydisort p lg la jk = Ok out) <-> no_resonance p.
Proof.
  intros WP Hlg Hla Hlu Hlc Hlt. split.
  - intros (out & H) HI mu w m l HD Hm Hl Hr. destruct (modes_exist p lg la jk out Hla Hlg H) as (U & HU). destruct (call_fluxes p lg la jk out Hla Hlg H U HU) as (w1 & Hw & _).
    apply (call_no_resonance p lg la jk out Hla Hlu Hlg H HI w1 m l Hw Hm Hl). exact (resonant_order p mu w _ w1 m l (pi_valid p rho WP) HD Hw Hr).
  - intros HR. exact (posed_ok p rho lg la jk WP HR Hlg Hla Hlc Hlt).
Qed.

Theorem posed_no_beam p rho lg la jk : physical_input p rho -> p_I0 p = 0 -> leggauss_ok (half p) (lg (half p)) -> linalg_ok la -> linalg_complete la -> linalg_total la ->
  exists out, pydisort p lg la jk = Ok out.
Proof. intros WP HI. apply (posed_ok p rho); auto. intros H. lra. Qed.
