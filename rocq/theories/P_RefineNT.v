(** Cutting layers more finely when the corrections of the intensity take part. *)
From Coq Require Import Classical String Reals Lra Lia List Bool Arith ZArith.
From Coquelicot Require Import Coquelicot.
From Verif Require Import Base Tensor Spec M_LinAlg Spec_RTE Calc M_Subroutines M_GenPart M_MathscrV M_Coeffs M_Assemble M_Pydisort
  P_Quad P_Sub P_Sub2 P_GenPart3 P_Tensor P_Teq P_MathscrV P_Coeffs P_Coeffs2 P_Coeffs3 P_Assemble P_Solve Spec_Sol Spec_Valid P_Valid P_Pydisort P_Pydisort2 P_Pydisort3 P_Pydisort4 P_Pydisort5 P_Pydisort6
  Spec_Calls P_Same P_Whole Spec_NT P_NT3 P_LinA P_Unique Spec_Unique P_Unique2 P_Unique3 P_Refine P_Absorb P_Refute P_Sub3 P_NT4 Examples.
Import ListNotations.
Local Open Scope R_scope.

Lemma exp_layer c D lo hi : lo < hi -> cont_on lo hi D -> (forall t, lo < t < hi -> is_derive D t (c * D t)) ->
  exists C, forall t, lo <= t <= hi -> D t = C * exp (c * t).
Proof.
  intros Hlt HC HD. set (E := fun t => D t * exp (- (c * t))).
  assert (E0 : forall t, lo < t < hi -> is_derive E t 0).
  { intros t Ht. unfold E. refine (der_eq _ _ _ _ _ (der_mult D (fun t => exp (- (c * t))) t _ _ (HD t Ht) (der_exp (fun t => - (c * t)) t (- (c * 1)) _))).
    - ring.
    - apply (der_opp (fun t => c * t)). apply (der_scal (fun t => t)). apply der_id. }
  exists (E ((lo + hi) / 2)). intros t Ht. refine (cont_on_eq lo hi D (fun t => E ((lo + hi) / 2) * exp (c * t)) Hlt HC _ _ t Ht).
  - apply cont_on_derive. intros x _. eexists. apply der_scal. apply (der_exp (fun t => c * t)). apply (der_scal (fun t => t)). apply der_id.
  - intros x Hx. rewrite (der_zero_const E lo hi E0 ((lo + hi) / 2) x) by lra. unfold E. rewrite Rmult_assoc, <- exp_plus. replace (- (c * x) + c * x) with 0 by ring. rewrite exp_0. ring.
Qed.
Lemma layers_zero p (V : valid p) D (c : nat -> R) : cont_on 0 (bottom p) D ->
  (forall l t, (l < nlayers p)%nat -> top_of p l < t < bot_of p l -> is_derive D t (c l * D t)) ->
  D 0 = 0 \/ D (bottom p) = 0 -> forall t, 0 <= t <= bottom p -> D t = 0.
Proof.
  intros HC HD Hz.
  assert (L : forall l, (l < nlayers p)%nat -> exists C, forall t, top_of p l <= t <= bot_of p l -> D t = C * exp (c l * t)).
  { intros l Hl. apply exp_layer.
    - exact (v_inc p V l Hl).
    - assert (Hx : top_of p l < bot_of p l) by exact (v_inc p V l Hl). pose proof (layer_range p V l (top_of p l) Hl ltac:(lra)). pose proof (layer_range p V l (bot_of p l) Hl ltac:(lra)).
      apply (cont_on_sub 0 (bottom p)); [lra|lra|exact HC].
    - intros t Ht. apply HD; auto. }
  assert (One : forall l s, (l < nlayers p)%nat -> top_of p l <= s <= bot_of p l -> D s = 0 -> forall t, top_of p l <= t <= bot_of p l -> D t = 0).
  { intros l s Hl Hs H t Ht. destruct (L l Hl) as (C & HCl). rewrite (HCl s Hs) in H. apply Rmult_integral in H as [H|H]; [|pose proof (exp_pos (c l * s)); lra]. rewrite (HCl t Ht), H. ring. }
  assert (All : forall l, (l < nlayers p)%nat -> forall t, top_of p l <= t <= bot_of p l -> D t = 0).
  { destruct Hz as [Hz|Hz].
    - induction l; intros Hl; (assert (Hx : top_of p 0 < bot_of p 0) by exact (v_inc p V 0%nat ltac:(lia))).
      + apply (One 0%nat 0 Hl); auto. cbn [top_of] in *. lra.
      + assert (Hy : top_of p l < bot_of p l) by exact (v_inc p V l ltac:(lia)). assert (Hw : top_of p (S l) < bot_of p (S l)) by exact (v_inc p V (S l) Hl).
        apply (One (S l) (bot_of p l) Hl); [change (top_of p (S l)) with (bot_of p l) in *; lra|]. apply IHl; [lia|lra].
    - assert (B : forall k l, (l + k = nlayers p - 1)%nat -> (l < nlayers p)%nat -> forall t, top_of p l <= t <= bot_of p l -> D t = 0).
      { induction k; intros l E Hl; (assert (Hx : top_of p l < bot_of p l) by exact (v_inc p V l Hl)).
        - replace (l + 0)%nat with l in E by lia. rewrite (bottom_eq p) in Hz. rewrite <- E in Hz. apply (One l (bot_of p l) Hl); [lra|exact Hz].
        - assert (Hw : top_of p (S l) < bot_of p (S l)) by exact (v_inc p V (S l) ltac:(lia)).
          apply (One l (bot_of p l) Hl); [lra|]. apply (IHk (S l)); [lia|lia|]. change (top_of p (S l)) with (bot_of p l) in *. lra. }
      intros l Hl. apply (B (nlayers p - 1 - l)%nat); auto. lia. }
  intros t Ht. destruct (layer_at_ex p V t Ht) as (l & Hl & Hlt). apply (All l Hl). destruct Hlt as [Hlt|[-> ->]]; [lra|].
  assert (Hx : top_of p 0 < bot_of p 0) by exact (v_inc p V 0%nat Hl). cbn [top_of] in *. lra.
Qed.

(** The intensity of single-scattered light is determined by its source. *)
Lemma once_unique p (V : valid p) mu src T T' : scattered_once p mu src T -> scattered_once p mu src T' ->
  forall i t phi, (i < streams p)%nat -> 0 <= t <= bottom p -> T i t phi = T' i t phi.
Proof.
  intros (A & B & C) (A' & B' & C') i t phi Hi Ht.
  enough (E : T i t phi - T' i t phi = 0) by lra.
  refine (layers_zero p V (fun t => T i t phi - T' i t phi) (fun l => scl p l / nth i mu 0) _ _ _ t Ht).
  - apply (cont_on_ext _ _ (fun t => T i t phi + (-1) * T' i t phi)); [intros; ring|]. apply cont_on_plus; [apply B; auto|apply cont_on_scal, B'; auto].
  - intros l s Hl Hs. refine (der_eq _ _ _ _ _ (der_minus _ _ _ _ _ (A l i s phi Hl Hi Hs) (A' l i s phi Hl Hi Hs))). unfold Rdiv. ring.
  - rewrite (streams_eq p V) in Hi. destruct (Nat.lt_ge_cases i (half p)) as [H|H].
    + right. destruct (C i phi H) as (_ & ->). destruct (C' i phi H) as (_ & ->). ring.
    + left. replace i with (half p + (i - half p))%nat by lia. destruct (C (i - half p)%nat phi ltac:(lia)) as (-> & _). destruct (C' (i - half p)%nat phi ltac:(lia)) as (-> & _). ring.
Qed.

Section RefNT.
  Variables (p q : py_in) (g : nat -> nat).
  Hypothesis V : valid p.
  Hypothesis V' : valid q.
  Hypothesis RF : refines p q g.

  Lemma rf_once mu src src' T : (forall l x phi, (l < nlayers q)%nat -> src' l x phi = src (g l) x phi) -> scattered_once p mu src T -> scattered_once q mu src' T.
  Proof.
    intros Hs (A & B & C). destruct (rf_beam _ _ _ RF) as (E1 & E2 & _). rewrite <- (rf_streams p q g RF), <- (rf_bottom _ _ _ RF), <- (rf_half p q g RF) in *. split; [|split]; auto.
    intros l i t phi Hl Hi Ht. destruct (rf_layer _ _ _ RF l Hl) as (Hg & H1 & H2).
    rewrite Hs by auto. rewrite (rf_scl p q g RF), (rf_depth p q g V V' RF), (sdepth_closed p V (g l)), E1 by (auto; lra). apply A; auto. lra.
  Qed.
  Lemma rf_lay t : 0 <= t <= bottom p -> (lay q t < nlayers q)%nat /\ g (lay q t) = lay p t.
  Proof.
    intros Ht. rewrite <- (rf_bottom _ _ _ RF) in Ht. destruct (layer_at_ex q V' t Ht) as (l & Hl & Hlt). rewrite (lay_of_at q V' t l) by (split; auto). split; [exact Hl|].
    symmetry. apply (lay_of_at p V). destruct (rf_layer _ _ _ RF l Hl) as (Hg & H1 & H2). split; [exact Hg|]. destruct Hlt as [Hlt|[-> ->]]; [left; lra|].
    right. split; [|reflexivity]. cbn [top_of] in H1. destruct (g 0%nat) as [|k]; [reflexivity|]. exfalso. pose proof (v_tau p V k ltac:(lia)) as H. cbn [top_of] in H1. unfold bot_of in H. lra.
  Qed.
  Hypothesis Hcol : ncol (p_Leg q) = ncol (p_Leg p).
  Hypothesis Hph : forall l k, (l < nlayers q)%nat -> (k < ncol (p_Leg p))%nat -> phase q l k = phase p (g l) k.
  Lemma rf_missing l x phi : (l < nlayers q)%nat -> missing q l x phi = missing p (g l) x phi.
  Proof.
    intros Hl. destruct (rf_beam _ _ _ RF) as (E1 & E2 & E3).
    unfold missing, p_exact, p_trunc, scat_cos. rewrite (rf_albedo_s p q g RF), (rf_fwd _ _ _ RF), (rf_ncoeffs _ _ _ RF), Hcol, E1, E2, E3 by auto. f_equal. f_equal; [f_equal|].
    - apply rsum_ext. intros k Hk. rewrite Hph by auto. reflexivity.
    - apply rsum_ext. intros k Hk. rewrite (rf_wphase p q g RF) by auto. reflexivity.
  Qed.
  Lemma rf_args tau phi : nt_args q tau phi <-> nt_args p tau phi.
  Proof.
    unfold nt_args, depths_ok. rewrite (rf_bottom _ _ _ RF), (rf_half p q g RF). split; intros (A & B & C & D); repeat (split; auto); intros t Ht; specialize (C t Ht); specialize (B t Ht);
      destruct (rf_lay t B) as [H1 H2]; [rewrite <- H2, <- (rf_fwd _ _ _ RF)|rewrite (rf_fwd _ _ _ RF), H2]; auto.
  Qed.
End RefNT.

Lemma nt_is_ext p u an f h : (forall i t phi, (i < streams p)%nat -> 0 <= t <= bottom p -> f i t phi = h i t phi) -> nt_is p u an f -> nt_is p u an h.
Proof.
  intros E H tau phi Ha. destruct (H tau phi Ha) as (A & H1 & H2). exists A. split; [exact H1|]. apply (teq_trans _ _ _ H2). apply tsqueeze_cong. split; [reflexivity|]. cbn. intros idx Hi.
  apply inb_3 in Hi as (i & k & m & -> & Hi & Hk & Hm). cbn. apply E; auto. apply Ha. apply nth_In. auto.
Qed.

(** The corrected intensity of the two calls differs by the second-order correction only. *)
Theorem call_refine_nt p q g lg la la' jk jk' out out' : linalg_ok la -> linalg_ok la' -> linalg_unique la' -> leggauss_ok (half p) (lg (half p)) ->
  refines p q g -> ncol (p_Leg q) = ncol (p_Leg p) -> (forall l k, (l < nlayers q)%nat -> (k < ncol (p_Leg p))%nat -> phase q l k = phase p (g l) k) ->
  pydisort p lg la jk = Ok out -> pydisort q lg la' jk' = Ok out' ->
  (forall m, (m < length (p_BDRF p))%nat -> exists rho, mode_is (nth m (p_BDRF p) (MScal 0)) rho) ->
  forall u u', po_u out = Some u -> po_u out' = Some u' -> nt_finite p (po_mu out) -> nt_finite q (po_mu out') ->
  exists f W W', second_order p (po_mu out) W /\ second_order q (po_mu out) W' /\
    nt_is p u false (fun i t phi => f i t phi + W i t phi) /\ nt_is p u' false (fun i t phi => f i t phi + W' i t phi).
Proof.
  intros Hla Hla' Hlu Hlg RF Hcol Hph Hok Hok' HB u u' Hu Hu' HF HF'.
  assert (V : valid p) by apply (pydisort_parts _ _ _ _ _ Hok). assert (V' : valid q) by apply (pydisort_parts _ _ _ _ _ Hok').
  pose proof (rf_half p q g RF) as Eh. pose proof (rf_streams p q g RF) as Es. pose proof (rf_bottom _ _ _ RF) as Eb. pose proof (rf_nmodes _ _ _ RF) as En.
  assert (Hlg' : leggauss_ok (half q) (lg (half q))) by (rewrite Eh; exact Hlg).
  assert (Em : po_mu out' = po_mu out).
  { destruct (pydisort_parts _ _ _ _ _ Hok) as (_ & ss & r & sv & Hss & Hr & Hsv & -> & _). destruct (pydisort_parts _ _ _ _ _ Hok') as (_ & ss' & r' & sv' & Hss' & Hr' & Hsv' & -> & _).
    assert (EN : pN q = pN p) by (unfold pN, e_N; rewrite (rf_NQuad _ _ _ RF); reflexivity). unfold mu_arr, quad_mu. rewrite EN. reflexivity. }
  destruct (nt_solution p lg la jk out Hla Hlg Hok u Hu HF) as (w & U & G & W & DG & _ & A3 & A4 & A5 & A6 & A7 & _ & A8 & _ & A9).
  destruct (nt_solution q lg la' jk' out' Hla' Hlg' Hok' u' Hu' HF') as (w' & U' & G' & W' & DG' & _ & B3 & B4 & B5 & B6 & B7 & _ & B8 & _ & B9).
  rewrite Em in *. rewrite Eh in DG'. pose proof (dg_weights _ _ _ _ DG' DG) as Ew. rewrite <- Eh in DG'.
  destruct (pydisort_parts _ _ _ _ _ Hok) as (_ & ss & r & sv & _ & _ & Hsv & _).
  destruct (bc_exists p V lg Hlg ss r la Hla jk sv Hsv) as ((vn & Hvn) & (vp & Hvp)).
  destruct (fin_choice (fun _ _ => 0) (fun m rho => mode_is (nth m (p_BDRF p) (MScal 0)) rho) _ HB) as (rho & Hrho).
  assert (EU : forall m i t, (m < nmodes p)%nat -> (i < streams p)%nat -> 0 <= t <= bottom p -> U' m i t = U m i t).
  { intros m i t Hm Hi Ht.
    refine (bvp_unique q lg la' jk' out' Hla' Hlu Hlg' Hok' w' vn vp (rho m) m (U' m) (U m) _ _ _ _ _ i t _ _).
    - rewrite Em. exact DG'.
    - rewrite En. exact Hm.
    - rewrite (rf_BDRF _ _ _ RF). apply Hrho.
    - rewrite Em. constructor.
      + intros l j wg s Hl Hj Hs Hc. apply B3; auto. rewrite En; exact Hm.
      + intros j Hj. apply B4; auto. rewrite En; exact Hm.
      + intros j Hj. apply B5; auto; [rewrite (rf_bneg _ _ _ RF), Eh; exact Hvn|rewrite En; exact Hm].
      + intros j Hj. apply (B6 vp rho); auto; [rewrite (rf_bpos _ _ _ RF), Eh; exact Hvp|rewrite (rf_BDRF _ _ _ RF); exact Hrho|rewrite En; exact Hm].
    - rewrite Em. apply (bvp_w q _ w); [apply streams_eq; exact V'|rewrite Eh; intros; symmetry; apply Ew; auto|]. apply (rf_bvp p q g V V' RF). constructor.
      + intros l j wg s Hl Hj Hs Hc. apply A3; auto.
      + intros j Hj. apply A4; auto.
      + intros j Hj. apply A5; auto.
      + intros j Hj. apply (A6 vp rho); auto.
    - rewrite Es. exact Hi.
    - rewrite Eb. exact Ht. }
  assert (EG : forall i t, (i < streams p)%nat -> 0 <= t <= bottom p -> G' i t = G i t).
  { intros i t Hi Ht. refine (once_unique q V' (po_mu out) (fun _ _ _ => 1) (fun i t _ => G' i t) (fun i t _ => G i t) B7 _ i t 0 _ _).
    - apply (rf_once p q g V V' RF _ (fun _ _ _ => 1)); auto.
    - rewrite Es; exact Hi.
    - rewrite Eb; exact Ht. }
  exists (fun i t phi => rsum (nmodes p) (fun m => U m i t * cos (INR m * (p_phi0 p - phi))) + missing p (lay p t) (nth i (po_mu out) 0) phi * G i t), W, W'.
  split; [exact A8|]. split; [exact B8|]. split; [exact A9|]. destruct (rf_beam _ _ _ RF) as (_ & _ & E3).
  apply (nt_is_ext q _ _ _ (fun i t phi => rsum (nmodes p) (fun m => U m i t * cos (INR m * (p_phi0 p - phi))) + missing p (lay p t) (nth i (po_mu out) 0) phi * G i t + W' i t phi)) in B9.
  - intros tau phi Ha. rewrite <- Es. apply B9. apply (rf_args p q g V V' RF). exact Ha.
  - intros i t phi Hi Ht. rewrite Es in Hi. rewrite Eb in Ht. destruct (rf_lay p q g V V' RF t Ht) as (L1 & L2).
    rewrite (rf_missing p q g RF Hcol Hph) by auto. rewrite L2, En, E3, EG by auto. f_equal. f_equal. apply rsum_ext. intros m Hm. rewrite EU by auto. reflexivity.
Qed.

(** If the layer averages are not changed, nothing is. *)
Theorem call_refine_avg p q g lg la la' jk jk' out out' : linalg_ok la -> linalg_ok la' -> linalg_unique la' -> leggauss_ok (half p) (lg (half p)) ->
  refines p q g -> ncol (p_Leg q) = ncol (p_Leg p) -> (forall l k, (l < nlayers q)%nat -> (k < ncol (p_Leg p))%nat -> phase q l k = phase p (g l) k) ->
  pydisort p lg la jk = Ok out -> pydisort q lg la' jk' = Ok out' ->
  (forall m, (m < length (p_BDRF p))%nat -> exists rho, mode_is (nth m (p_BDRF p) (MScal 0)) rho) ->
  forall u u', po_u out = Some u -> po_u out' = Some u' -> nt_finite p (po_mu out) -> nt_finite q (po_mu out') ->
  wavg q = wavg p -> favg q = favg p -> (forall k, (k < ncol (p_Leg p))%nat -> gavg q k = gavg p k) ->
  forall tau phi, nt_args p tau phi -> same_ret (u tau phi false false false) (u' tau phi false false false).
Proof.
  intros Hla Hla' Hlu Hlg RF Hcol Hph Hok Hok' HB u u' Hu Hu' HF HF' Ew Ef Eg tau phi Ha. assert (V : valid p) by apply (pydisort_parts _ _ _ _ _ Hok).
  destruct (call_refine_nt p q g lg la la' jk jk' out out' Hla Hla' Hlu Hlg RF Hcol Hph Hok Hok' HB u u' Hu Hu' HF HF') as (f & W & W' & S & S' & N & N').
  destruct (N tau phi Ha) as (A & -> & HA). destruct (N' tau phi Ha) as (A' & -> & HA'). cbn. apply (squeezed_same _ _ _ _ _ HA HA').
  intros idx Hi. apply inb_3 in Hi as (i & k & m & -> & Hi & Hk & Hm). cbn [nth]. f_equal. assert (Ht : 0 <= nth k tau 0 <= bottom p) by (apply Ha; apply nth_In; auto). rewrite (streams_eq p V) in Hi.
  assert (SS : forall j, (j < half p)%nat -> W j (nth k tau 0) (nth m phi 0) = W' j (nth k tau 0) (nth m phi 0) /\ W (half p + j)%nat (nth k tau 0) (nth m phi 0) = W' (half p + j)%nat (nth k tau 0) (nth m phi 0)).
  { intros j Hj. destruct (S j (nth k tau 0) (nth m phi 0) Hj Ht) as (-> & ->). destruct (S' j (nth k tau 0) (nth m phi 0)) as (-> & E2).
    - rewrite (rf_half p q g RF). exact Hj.
    - rewrite (rf_bottom _ _ _ RF). exact Ht.
    - split; [reflexivity|]. rewrite (rf_half p q g RF) in E2. rewrite E2. destruct (rf_beam _ _ _ RF) as (E3 & E4 & E5). unfold ims_factor, mu0_s, scat_cos. rewrite Hcol, E3, E4, E5, Ew, Ef.
      f_equal. f_equal. apply rsum_ext. intros n Hn. rewrite Eg by auto. reflexivity. }
  destruct (Nat.lt_ge_cases i (half p)) as [H|H]; [apply SS; auto|]. replace i with (half p + (i - half p))%nat by lia. apply SS. lia.
Qed.

(** ** Two weakly scattering layers with different forward peaks *)
Lemma chi_doc_pos mu m t : 0 < mu -> 0 < m -> 0 < t -> 0 < chi_doc mu m m t.
Proof.
  intros Hmu Hm Ht. unfold chi_doc. apply Rmult_lt_0_compat.
  - apply Rdiv_lt_0_compat; [apply exp_pos|apply Rmult_lt_0_compat; auto].
  - assert (E : forall s, RInt (fun s' => exp (s' / m - s' / m)) 0 s = s).
    { intros s. rewrite (RInt_ext _ (fun _ => 1)). 2:{ intros x _. rewrite Rminus_diag_eq by reflexivity. apply exp_0. }
      rewrite RInt_const. unfold scal; cbn; unfold mult; cbn. ring. }
    apply RInt_gt_0; [exact Ht| |].
    + intros s Hs. rewrite E. apply Rmult_lt_0_compat; [apply exp_pos|lra].
    + intros s Hs. apply (continuous_ext (fun s => exp (s / mu - s / m) * s)); [intros x; rewrite E; reflexivity|].
      apply (ex_derive_continuous (V := R_NormedModule)). eexists.
      apply (der_mult (fun s => exp (s / mu - s / m)) (fun s => s)); [|apply der_id].
      apply (der_exp (fun s => s / mu - s / m)). apply der_minus; apply (der_div (fun s => s)); apply der_id.
Qed.

Definition p_cut : py_in := p_abs [1; 2] [2 / 1000000000; 1 / 1000000000] [1 / 4; 1 / 2] 1 1 0 0 [] true.
Definition q_cut : py_in := split p_cut 1 (3 / 2).
Lemma cut_valid : valid p_cut.
Proof.
  apply abs_valid; cbn; try lra; try lia.
  - intros [|[|l]] Hl; unfold bot_of, top_of; cbn; try lra; lia.
  - split; auto. intros w [<-|[<-|[]]]; lra.
  - split; auto. intros w [<-|[<-|[]]]; lra.
Qed.
Lemma cut_lt : (1 < nlayers p_cut)%nat. Proof. cbn. lia. Qed.
Lemma cut_in : top_of p_cut 1 < 3 / 2 < bot_of p_cut 1. Proof. cbn. lra. Qed.
Lemma cut_valid' : valid q_cut.
Proof. apply split_valid; [exact cut_lt|exact cut_in|exact cut_valid]. Qed.
Lemma cut_neg l : (l < 2)%nat -> forall m, negligible (albedo_s p_cut l) (wphase_s p_cut l) (ncoeffs p_cut) m.
Proof.
  intros Hl m k Hk. change (ncoeffs p_cut) with 2%nat in Hk. unfold albedo_s, scl, wphase_s, phase_s, phase, albedo, fwd.
  destruct l as [|[|l]]; [| |lia]; destruct k as [|[|k]]; try lia; cbn [p_cut p_abs p_Leg p_omega p_f at2 nth Nat.eqb INR].
  all: match goal with |- context[Rabs ?x] => first [rewrite (Rabs_pos_eq x) by lra|rewrite (Rabs_left x) by lra] end; lra.
Qed.
Lemma cut_refines : refines p_cut q_cut (under 1).
Proof. apply split_refines; [exact cut_lt|exact cut_in|exact cut_valid]. Qed.
Lemma cut_under l : (l < 3)%nat -> (under 1 l < 2)%nat.
Proof. intros Hl. unfold under. destruct (Nat.leb_spec l 1); lia. Qed.
Lemma cut_ok jk : exists out, pydisort p_cut lg_12 la_id jk = Ok out.
Proof.
  apply negligible_ok.
  - exact cut_valid.
  - exact leggauss1_ok.
  - apply la_id_complete.
  - intros m l Hm Hl. apply cut_neg. exact Hl.
  - exists (fun _ => 0). apply bc_scal; auto.
  - exists (fun _ => 0). apply bc_scal; auto.
  - intros m Hm. cbn in Hm. lia.
  - intros _. right. reflexivity.
  - intros (i & j & _ & Hj & _). cbn in Hj. lia.
  - intros _ x Hx. cbn in Hx. destruct Hx as [<-|[]]. unfold transform_interval. cbn. rewrite Rabs_right; lra.
Qed.
Lemma cut_ok' jk : exists out, pydisort q_cut lg_12 la_id jk = Ok out.
Proof.
  apply negligible_ok.
  - exact cut_valid'.
  - exact leggauss1_ok.
  - apply la_id_complete.
  - intros m l Hm Hl k Hk. change (nlayers q_cut) with 3%nat in Hl. change (ncoeffs q_cut) with 2%nat in Hk. rewrite (rf_albedo_s _ _ _ cut_refines), (rf_wphase _ _ _ cut_refines) by (auto; cbn; lia).
    apply (cut_neg (under 1 l) (cut_under l Hl) m). exact Hk.
  - exists (fun _ => 0). apply bc_scal; auto.
  - exists (fun _ => 0). apply bc_scal; auto.
  - intros m Hm. cbn in Hm. lia.
  - intros _. right. reflexivity.
  - intros (i & j & _ & Hj & _). cbn in Hj. lia.
  - intros _ x Hx. cbn in Hx. destruct Hx as [<-|[]]. unfold transform_interval. cbn. rewrite Rabs_right; lra.
Qed.
Lemma cut_mu jk out : pydisort p_cut lg_12 la_id jk = Ok out -> po_mu out = [1 / 2; - (1 / 2)].
Proof.
  intros H. destruct (pydisort_parts _ _ _ _ _ H) as (V & ss & r & sv & Hss & Hr & Hsv & -> & _).
  unfold mu_arr, quad_mu. change (pN p_cut) with 1%nat. cbn [seq map app Gauss_Legendre_quad fst lg_12 of_list nth].
  unfold transform_interval. cbn [map nth]. replace ((0 - -1) * (1 - 0) / (1 - -1) + 0) with (1 / 2) by field. reflexivity.
Qed.
Lemma cut_mu' jk out : pydisort q_cut lg_12 la_id jk = Ok out -> po_mu out = [1 / 2; - (1 / 2)].
Proof.
  intros H. destruct (pydisort_parts _ _ _ _ _ H) as (V & ss & r & sv & Hss & Hr & Hsv & -> & _).
  unfold mu_arr, quad_mu. change (pN q_cut) with 1%nat. cbn [seq map app Gauss_Legendre_quad fst lg_12 of_list nth].
  unfold transform_interval. cbn [map nth]. replace ((0 - -1) * (1 - 0) / (1 - -1) + 0) with (1 / 2) by field. reflexivity.
Qed.
(** The average of the product is the same, the average residual coefficients are not. *)
Lemma cut_wf : wavg p_cut * favg p_cut = 5 / 10000000000.
Proof. unfold wavg, favg, fwd, albedo, bot_of. cbn. field. Qed.
Lemma cut_wf' : wavg q_cut * favg q_cut = 5 / 10000000000.
Proof. unfold wavg, favg, fwd, albedo, bot_of. cbn. field. Qed.
Lemma cut_mu0 : mu0_s p_cut = 1 / 4 / (1 - 5 / 10000000000) /\ mu0_s q_cut = 1 / 4 / (1 - 5 / 10000000000).
Proof. unfold mu0_s. rewrite cut_wf, cut_wf'. split; reflexivity. Qed.
Lemma cut_g : gavg p_cut 0 = 1 /\ gavg p_cut 1 = 1 /\ gavg p_cut 2 = 4 / 15.
Proof. unfold gavg, fwd, albedo, bot_of, phase. cbn. change (Pos.to_nat 2) with 2%nat. cbn. repeat split; field. Qed.
Lemma cut_g' : gavg q_cut 0 = 1 /\ gavg q_cut 1 = 1 /\ gavg q_cut 2 = 11 / 45.
Proof. unfold gavg, fwd, albedo, bot_of, phase. cbn. change (Pos.to_nat 2) with 2%nat. cbn. repeat split; field. Qed.
Lemma cut_finite : nt_finite p_cut [1 / 2; - (1 / 2)].
Proof.
  split; [|split].
  - split; [reflexivity|]. split; [reflexivity|]. split; [cbn; lra|]. split; [exists (1 / 2); split; [right; left; reflexivity|lra]|].
    split; [cbn; lia|]. exists (1 / 1000000000). split; [right; left; reflexivity|lra].
  - exists 0%nat. split; [cbn; lia|]. unfold fwd, albedo. cbn. lra.
  - intros [|i] Hi; [|cbn in Hi; lia]. cbn [nth]. rewrite (proj1 cut_mu0). lra.
Qed.
Lemma cut_finite' : nt_finite q_cut [1 / 2; - (1 / 2)].
Proof.
  split; [|split].
  - split; [reflexivity|]. split; [reflexivity|]. split; [cbn; lra|]. split; [exists (1 / 2); split; [right; left; reflexivity|lra]|].
    split; [cbn; lia|]. exists (1 / 1000000000). split; [right; left; reflexivity|lra].
  - exists 0%nat. split; [cbn; lia|]. unfold fwd, albedo. cbn. lra.
  - intros [|i] Hi; [|cbn in Hi; lia]. cbn [nth]. rewrite (proj2 cut_mu0). lra.
Qed.
Lemma cut_factor : ims_factor p_cut (- (1 / 2)) (PI / 2) <> ims_factor q_cut (- (1 / 2)) (PI / 2).
Proof.
  unfold ims_factor. rewrite cut_wf, cut_wf'. change (ncol (p_Leg p_cut)) with 3%nat. change (ncol (p_Leg q_cut)) with 3%nat. change (p_I0 q_cut) with (p_I0 p_cut).
  change (scat_cos q_cut) with (scat_cos p_cut).
  assert (E : scat_cos p_cut (- (1 / 2)) (PI / 2) = 1 / 8).
  { unfold scat_cos, dot3, unit_vec. change (p_mu0 p_cut) with (1 / 4). change (p_phi0 p_cut) with 0. rewrite cos_PI2, sin_PI2, cos_0, sin_0. field. }
  rewrite E. destruct cut_g as (G0 & G1 & G2). destruct cut_g' as (H0 & H1 & H2). cbn [rsum]. rewrite G0, G1, G2, H0, H1, H2. change (p_I0 p_cut) with 1. pose proof PI_RGT_0.
  cbn [legendre INR]. intros K. apply Rmult_eq_reg_l in K; [cbn in K; lra|]. apply Rmult_integral_contrapositive. split; [|lra].
  apply Rgt_not_eq. apply Rdiv_lt_0_compat; lra.
Qed.
Theorem cut_differs jk jk' out out' u u' : pydisort p_cut lg_12 la_id jk = Ok out -> pydisort q_cut lg_12 la_id jk' = Ok out' -> po_u out = Some u -> po_u out' = Some u' ->
  depths_ok p_cut [1 / 2] /\ ~ same_ret (u [1 / 2] [PI / 2] false false false) (u' [1 / 2] [PI / 2] false false false).
Proof.
  intros H H' Hu Hu'. pose proof (cut_mu jk out H) as M. pose proof (cut_mu' jk' out' H') as M'.
  assert (D : depths_ok p_cut [1 / 2]) by (intros t [<-|[]]; change (bottom p_cut) with 2; lra). split; [exact D|].
  destruct (call_refine_nt p_cut q_cut (under 1) lg_12 la_id la_id jk jk' out out') with (u := u) (u' := u') as (f & W & W' & S & S' & N & N'); auto.
  - apply la_id_ok.
  - apply la_id_ok.
  - apply la_id_unique.
  - exact leggauss1_ok.
  - exact cut_refines.
  - intros m Hm. cbn in Hm. lia.
  - rewrite M. exact cut_finite.
  - rewrite M'. exact cut_finite'.
  - assert (A : nt_args p_cut [1 / 2] [PI / 2]).
    { split; [discriminate|]. split; [exact D|]. split; [|right; reflexivity]. intros t [<-|[]]. unfold lay, fwd. cbn. rewrite !Rltb_f by lra. cbn. lra. }
    destruct (N _ _ A) as (T & -> & HT). destruct (N' _ _ A) as (T' & -> & HT'). cbn [same_ret pret_eq pv_eq]. intros E.
    assert (Q : teq (tsqueeze (mkT [2%nat; 1%nat; 1%nat] (fun idx => f (nth 0 idx 0%nat) (nth (nth 1 idx 0%nat) [1 / 2] 0) (nth (nth 2 idx 0%nat) [PI / 2] 0) + W (nth 0 idx 0%nat) (nth (nth 1 idx 0%nat) [1 / 2] 0) (nth (nth 2 idx 0%nat) [PI / 2] 0))))
                    (tsqueeze (mkT [2%nat; 1%nat; 1%nat] (fun idx => f (nth 0 idx 0%nat) (nth (nth 1 idx 0%nat) [1 / 2] 0) (nth (nth 2 idx 0%nat) [PI / 2] 0) + W' (nth 0 idx 0%nat) (nth (nth 1 idx 0%nat) [1 / 2] 0) (nth (nth 2 idx 0%nat) [PI / 2] 0))))).
    { apply (teq_trans _ T); [apply teq_sym; exact HT|]. apply (teq_trans _ T'); [exact E|exact HT']. }
    destruct Q as [_ Q]. specialize (Q [1%nat] ltac:(cbn; lia)). cbn in Q.
    destruct (S 0%nat (1 / 2) (PI / 2)) as (_ & E1); [cbn; lia|change (bottom p_cut) with 2; lra|]. destruct (S' 0%nat (1 / 2) (PI / 2)) as (_ & E2); [cbn; lia|change (bottom q_cut) with 2; lra|].
    cbn [half] in E1, E2. change (half p_cut + 0)%nat with 1%nat in E1. change (half q_cut + 0)%nat with 1%nat in E2. rewrite E1, E2 in Q. rewrite M in Q. cbn [nth] in Q.
    destruct cut_mu0 as [Z1 Z2]. rewrite Z1, Z2 in Q. apply Rplus_eq_reg_l in Q. apply Rmult_eq_reg_r in Q; [exact (cut_factor Q)|].
    apply Rgt_not_eq. apply chi_doc_pos; lra.
Qed.

(** Two equal layers. *)
Definition p_same : py_in := p_tms (1 / 1000000000) (1 / 1000000000).
Definition q_same : py_in := split p_same 1 (3 / 2).
Lemma same_range : 0 < 1 / 1000000000 <= 2 / 1000000000. Proof. lra. Qed.
Lemma same_lt : (1 < nlayers p_same)%nat. Proof. cbn. lia. Qed.
Lemma same_in : top_of p_same 1 < 3 / 2 < bot_of p_same 1. Proof. cbn. lra. Qed.
Lemma same_refines : refines p_same q_same (under 1).
Proof. apply split_refines; [exact same_lt|exact same_in|exact (tms_valid _ _ same_range same_range)]. Qed.
Lemma same_ok jk : exists out, pydisort p_same lg_12 la_id jk = Ok out.
Proof. exact (tms_ok _ _ same_range same_range jk). Qed.
Lemma same_ok' jk : exists out, pydisort q_same lg_12 la_id jk = Ok out.
Proof.
  apply negligible_ok.
  - apply split_valid; [exact same_lt|exact same_in|exact (tms_valid _ _ same_range same_range)].
  - exact leggauss1_ok.
  - apply la_id_complete.
  - intros m l Hm Hl k Hk. change (nlayers q_same) with 3%nat in Hl. change (ncoeffs q_same) with 2%nat in Hk. rewrite (rf_albedo_s _ _ _ same_refines), (rf_wphase _ _ _ same_refines) by (auto; cbn; lia).
    pose proof (cut_under l Hl) as Hu. unfold p_same. rewrite (tms_phase _ _ same_range same_range) by lia. pose proof (tms_albedo_s _ _ same_range same_range (under 1 l) Hu).
    destruct k as [|k]; [rewrite Rabs_pos_eq; lra|]. rewrite Rabs_left; lra.
  - exists (fun _ => 0). apply bc_scal; auto.
  - exists (fun _ => 0). apply bc_scal; auto.
  - intros m Hm. cbn in Hm. lia.
  - intros _. right. reflexivity.
  - intros (i & j & _ & Hj & _). cbn in Hj. lia.
  - intros _ x Hx. cbn in Hx. destruct Hx as [<-|[]]. unfold transform_interval. cbn. rewrite Rabs_right; lra.
Qed.
Lemma same_avg : wavg q_same = wavg p_same /\ favg q_same = favg p_same /\ forall k, (k < ncol (p_Leg p_same))%nat -> gavg q_same k = gavg p_same k.
Proof.
  split; [|split].
  - unfold wavg, albedo, bot_of. cbn. field.
  - unfold favg, fwd, albedo, bot_of. cbn. field.
  - intros k Hk. change (ncol (p_Leg p_same)) with 3%nat in Hk. destruct k as [|[|[|k]]]; [| | |lia]; unfold gavg, fwd, albedo, bot_of, phase; cbn; change (Pos.to_nat 2) with 2%nat; cbn; field.
Qed.
Lemma same_finite jk jk' out out' : pydisort p_same lg_12 la_id jk = Ok out -> pydisort q_same lg_12 la_id jk' = Ok out' -> nt_finite p_same (po_mu out) /\ nt_finite q_same (po_mu out').
Proof.
  intros H H'. pose proof (tms_finite _ _ same_range same_range jk out H) as F. split; [exact F|].
  assert (E : po_mu out' = po_mu out).
  { destruct (pydisort_parts _ _ _ _ _ H) as (_ & ss & r & sv & _ & _ & _ & -> & _). destruct (pydisort_parts _ _ _ _ _ H') as (_ & ss' & r' & sv' & _ & _ & _ & -> & _). reflexivity. }
  rewrite E. destruct F as (_ & _ & F). split; [|split].
  - split; [reflexivity|]. split; [reflexivity|]. split; [cbn; lra|]. split; [exists (1 / 2); split; [left; reflexivity|lra]|].
    split; [cbn; lia|]. exists (1 / 1000000000). split; [left; reflexivity|lra].
  - exists 0%nat. split; [cbn; lia|]. unfold fwd, albedo. cbn. lra.
  - intros i Hi. unfold mu0_s. destruct same_avg as (-> & -> & _). apply (F i Hi).
Qed.
