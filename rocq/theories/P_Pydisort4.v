(** Whole-call statements: the returned functions report the solution of the boundary-value problem. *)
From Coq Require Import String Reals Lra Lia List Bool Arith ZArith.
From Coquelicot Require Import Coquelicot.
From Verif Require Import Base Tensor Spec M_LinAlg Spec_RTE Calc M_Subroutines M_GenPart M_MathscrV M_Coeffs M_Assemble M_Pydisort
  P_Sub P_GenPart3 P_Tensor P_Coeffs2 P_Coeffs3 P_Assemble P_Solve Spec_Sol P_Valid P_Pydisort P_Pydisort2 P_Pydisort3 P_Fourier.
Import ListNotations.
Local Open Scope R_scope.

(** np.squeeze loses no entry. *)
Fixpoint sqx (s idx : list nat) : list nat :=
  match s, idx with
  | n :: s', i :: idx' => if Nat.eqb n 1 then sqx s' idx' else i :: sqx s' idx'
  | _, _ => []
  end.
Lemma sqx_inb s : forall idx, inb s idx -> inb (sq_shape s) (sqx s idx) /\ unsq s (sqx s idx) = idx.
Proof.
  induction s as [|n s IH]; intros [|i idx] H; cbn in H; try (destruct H; fail); try (split; [exact I|reflexivity]).
  destruct H as [H1 H2]. destruct (IH idx H2) as [A B]. unfold sq_shape in *. cbn [sqx filter unsq]. destruct (Nat.eqb_spec n 1) as [->|E]; cbn [negb].
  - split; auto. rewrite B. f_equal. lia.
  - cbn [inb hd tl]. rewrite B. split; auto.
Qed.
Lemma squeezed_inj A s f g : squeezed A s f -> squeezed A s g -> forall idx, inb s idx -> f idx = g idx.
Proof.
  intros [S1 E1] [S2 E2] idx Hi. destruct (sqx_inb s idx Hi) as [H1 H2].
  unfold tsqueeze in *. cbn [shp elt] in *. specialize (E1 (sqx s idx)). specialize (E2 (sqx s idx)).
  rewrite S1 in E1, E2. rewrite H2 in E1, E2. rewrite <- E1, <- E2; auto.
Qed.
Lemma squeezed_ext A s f g : squeezed A s f -> (forall idx, inb s idx -> f idx = g idx) -> squeezed A s g.
Proof.
  intros [S1 E1] H. split; [exact S1|]. intros idx Hi. rewrite E1 by auto. unfold tsqueeze in *; cbn [shp elt] in *.
  rewrite S1 in Hi. apply H. apply inb_unsq; auto.
Qed.

(** Continuity is glued at interfaces. *)
Lemma cont_on_glue a b c f : a <= b <= c -> cont_on a b f -> cont_on b c f -> cont_on a c f.
Proof.
  intros Hab H1 H2 x Hx e He.
  destruct (Rtotal_order x b) as [H|[->|H]].
  - destruct (H1 x ltac:(lra) e He) as (d & Hd & Hc). exists (Rmin d (b - x)). split; [apply Rmin_glb_lt; lra|].
    intros y Hy Hyx. apply Hc; [|eapply Rlt_le_trans; [exact Hyx|apply Rmin_l]].
    pose proof (Rlt_le_trans _ _ _ Hyx (Rmin_r _ _)) as H3. apply Rabs_def2 in H3. lra.
  - destruct (H1 b ltac:(lra) e He) as (d & Hd & Hc). destruct (H2 b ltac:(lra) e He) as (d' & Hd' & Hc').
    exists (Rmin d d'). split; [apply Rmin_glb_lt; lra|]. intros y Hy Hyx.
    destruct (Rle_lt_dec y b); [apply Hc|apply Hc']; try lra; eapply Rlt_le_trans; try exact Hyx; [apply Rmin_l|apply Rmin_r].
  - destruct (H2 x ltac:(lra) e He) as (d & Hd & Hc). exists (Rmin d (x - b)). split; [apply Rmin_glb_lt; lra|].
    intros y Hy Hyx. apply Hc; [|eapply Rlt_le_trans; [exact Hyx|apply Rmin_l]].
    pose proof (Rlt_le_trans _ _ _ Hyx (Rmin_r _ _)) as H3. apply Rabs_def2 in H3. lra.
Qed.
Lemma cont_on_ext a b f g : (forall x, a <= x <= b -> f x = g x) -> cont_on a b f -> cont_on a b g.
Proof.
  intros E H x Hx e He. destruct (H x Hx e He) as (d & Hd & Hc). exists d. split; auto. intros y Hy Hyx. rewrite <- !E by auto. auto.
Qed.
Lemma cont_on_derive a b f : (forall x, a <= x <= b -> exists l, is_derive f x l) -> cont_on a b f.
Proof.
  intros H x Hx e He. destruct (H x Hx) as (l & Hl).
  assert (C : continuous f x) by (apply (ex_derive_continuous (K:=R_AbsRing) (V:=R_NormedModule)); exists l; exact Hl).
  destruct (proj1 (filterlim_locally (F:=locally x) f (f x)) C (mkposreal e He)) as (d & Hd).
  exists d. split; [apply cond_pos|]. intros y _ Hy. exact (Hd y Hy).
Qed.

Section Call.
  Variables (p : py_in) (lg : leggauss_t) (la : linalg) (jk : junk) (out : py_out).
  Hypothesis Hla : linalg_ok la.
  Hypothesis Hlg : leggauss_ok (half p) (lg (half p)).
  Hypothesis Hok : pydisort p lg la jk = Ok out.

  Theorem solution_exists : exists w U F,
    double_gauss (half p) (po_mu out) w /\ modes_of p out U /\
    (forall m l i t, (m < nmodes p)%nat -> (l < nlayers p)%nat -> (i < streams p)%nat -> top_of p l <= t <= bot_of p l -> U m i t = F m l i t) /\
    (forall m l i wg t, (m < nmodes p)%nat -> (l < nlayers p)%nat -> (i < streams p)%nat ->
      is_cutoff (albedo_s p l) (wphase_s p l) (ncoeffs p) m wg ->
      is_derive (F m l i) t (rte p (po_mu out) w wg m l i t (fun j => F m l j t) / nth i (po_mu out) 0)) /\
    (nonneg (p_bneg p) \/ some_source p -> top_condition p U) /\ (nonneg (p_bpos p) \/ some_source p -> bottom_condition p (po_mu out) w U) /\
    (forall tau, depths_ok p tau -> exists A, po_flux_up out tau false false = Ok (PVal (PT A)) /\
       squeezed A [length tau] (fun idx => 2 * PI * rsum (half p) (fun i => w i * nth i (po_mu out) 0 * U 0%nat i (nth (nth 0 idx 0%nat) tau 0)))) /\
    (forall tau, depths_ok p tau -> exists A B, po_flux_down out tau false false = Ok (PTup [PT A; PT B]) /\
       (forall lay, (forall t, In t tau -> layer_at p t (lay t)) ->
        squeezed A [length tau] (fun idx => let t := nth (nth 0 idx 0%nat) tau 0 in
          2 * PI * rsum (half p) (fun i => w i * nth i (po_mu out) 0 * U 0%nat (half p + i)%nat t)
          + p_mu0 p * p_I0 p * exp (- depth_s p (lay t) t / p_mu0 p) - p_mu0 p * p_I0 p * exp (- t / p_mu0 p))) /\
       (0 < p_I0 p -> squeezed B [length tau] (fun idx => p_mu0 p * p_I0 p * exp (- nth (nth 0 idx 0%nat) tau 0 / p_mu0 p))) /\
       (p_I0 p = 0 -> squeezed B [] (fun _ => 0))).
  Proof.
    destruct (pydisort_parts _ _ _ _ _ Hok) as (V & ss & r & sv & Hss & Hr & Hsv & Emu & Eup & Edn & Eu0 & Eu).
    exists (quad_W p lg), (Umode p lg ss r sv), (Flay p lg ss r sv). rewrite Emu.
    split; [apply (mu_arr_gauss p lg Hlg)|]. split; [split|split; [|split; [|split; [|split; [|split]]]]].
    - intros tau Ht. rewrite Eu0. apply (u0_reports p V lg Hlg ss r la Hla jk sv Hsv tau false Ht).
    - intros u Hu HN tau phi Ht. rewrite Eu in Hu. destruct (p_only_flux p); [discriminate|].
      destruct (NT_active p) eqn:EN; [exfalso; apply HN, NT_iff; auto|]. injection Hu as <-.
      apply (u_reports p V lg Hlg ss r la Hla jk sv Hsv tau phi false Ht).
    - intros m l i t Hm Hl Hi Ht. apply (Umode_Flay p V lg Hlg ss r la Hla jk sv Hsv); auto.
    - intros m l i wg t Hm Hl Hi Hc. apply (Flay_ode p V lg Hlg ss r Hss Hr la Hla jk sv Hsv); auto.
    - intros Hn v Hv m i Hm Hi. apply (top_bc p V lg Hlg ss r Hr la Hla jk sv Hsv); auto.
    - intros Hn v rho Hv Hrho m i Hm Hi. apply (bottom_bc p V lg Hlg ss r Hr la Hla jk sv Hsv); auto.
    - intros tau Ht. rewrite Eup. apply (flux_up_reports p V lg Hlg ss r la Hla jk sv Hsv tau false Ht).
    - intros tau Ht. rewrite Edn. destruct (flux_down_reports p V lg Hlg ss r Hr la Hla jk sv Hsv tau false Ht) as (A & B & E & HA & HB & HB').
      exists A, B. split; [exact E|]. split; [|auto]. intros lay Hlay. refine (squeezed_ext _ _ _ _ HA _).
      intros idx Hi. apply inb_1 in Hi as (k & -> & Hk). cbn [nth]. set (t := nth k tau 0).
      assert (Hin : In t tau) by (apply nth_In; auto). pose proof (Hlay t Hin) as [Hl HH].
      replace (layer_of (assemble_args p lg r ss) t) with (lay t); [reflexivity|]. symmetry.
      pose proof (a_good p V lg Hlg ss r) as Ga.
      apply (layer_of_spec _ (g_NL _ Ga) eq_refl (g_inc _ Ga) t (lay t) (Ht t Hin) Hl).
      change (lay_bot (assemble_args p lg r ss) (lay t)) with (bot_of p (lay t)). change (lay_top (assemble_args p lg r ss) (lay t)) with (top_of p (lay t)).
      destruct HH as [HH|[HH1 HH2]]; [split; [left|]; lra|]. rewrite HH1, HH2. cbn [top_of].
      split; [right; auto|]. apply Rlt_le, (v_tau p V 0). rewrite HH1 in Hl. exact Hl.
  Qed.

  Lemma call_valid : valid p.
  Proof. apply (pydisort_parts _ _ _ _ _ Hok). Qed.
  Lemma call_u : p_only_flux p = false -> exists u, po_u out = Some u.
  Proof.
    intros E. destruct (pydisort_parts _ _ _ _ _ Hok) as (_ & ss & r & sv & _ & _ & _ & _ & _ & _ & _ & Eu). rewrite E in Eu. eauto.
  Qed.

  (** The modes are determined by what the functions return. *)
  Lemma modes_unique U V : modes_of p out U -> modes_of p out V ->
    forall m i t, (m < nmodes p)%nat -> (m = 0%nat \/ ~ nt_applies p) -> (i < streams p)%nat -> 0 <= t <= bottom p -> U m i t = V m i t.
  Proof.
    intros [U0 U1] [V0 V1] m i t Hm HN Hi Ht.
    assert (Ht1 : depths_ok p [t]) by (intros x [<-|[]]; auto).
    destruct (Nat.eq_dec m 0) as [->|Hm0].
    - destruct (U0 [t] Ht1) as (A & E & SA). destruct (V0 [t] Ht1) as (B & E' & SB). rewrite E in E'. injection E' as <-.
      apply (squeezed_inj _ _ _ _ SA SB [i; 0%nat]). cbn. auto.
    - assert (HN' : ~ nt_applies p) by tauto.
      assert (Ho : p_only_flux p = false) by (unfold nmodes in Hm; destruct (p_only_flux p); auto; lia).
      destruct (call_u Ho) as (u & Hu).
      apply (series_unique (nmodes p) (fun m => U m i t) (fun m => V m i t) (p_phi0 p)); [|auto]. intros x.
      destruct (U1 u Hu HN' [t] [x] Ht1) as (A & E & SA). destruct (V1 u Hu HN' [t] [x] Ht1) as (B & E' & SB). rewrite E in E'. injection E' as <-.
      apply (squeezed_inj _ _ _ _ SA SB [i; 0%nat; 0%nat]). cbn. auto.
  Qed.

  Lemma bottom_nonneg : 0 < bottom p.
  Proof.
    pose proof call_valid as V. rewrite (bottom_eq p). apply (v_tau p V). pose proof (v_ne p V). unfold nlayers in *. lia.
  Qed.
  Lemma layer_in_range l t : (l < nlayers p)%nat -> top_of p l <= t <= bot_of p l -> 0 <= t <= bottom p.
  Proof.
    intros Hl Ht. pose proof call_valid as V. pose proof (v_inc p V) as Hi.
    assert (Hd : pydisort p lg la jk = Ok out) by exact Hok.
    destruct (pydisort_parts _ _ _ _ _ Hok) as (_ & ss & r & sv & _).
    pose proof (a_good p V lg Hlg ss r) as Ga.
    pose proof (lay_top_nonneg _ (g_NL _ Ga) eq_refl (g_inc _ Ga) l Hl) as H1.
    split; [change (lay_top (assemble_args p lg r ss) l) with (top_of p l) in H1; lra|].
    rewrite (bottom_eq p). assert (H2 : bot_of p l <= bot_of p (nlayers p - 1)); [|lra].
    apply (lay_bot_le _ (g_NL _ Ga) eq_refl (g_inc _ Ga)); cbn; unfold pNL, nlayers in *; lia.
  Qed.

  Section Modes.
    Variable U : nat -> nat -> R -> R.
    Hypothesis HU : modes_of p out U.

    Theorem call_top v : (nonneg (p_bneg p) \/ some_source p) -> bc_values (p_bneg p) (half p) v ->
      forall m i, seen p m -> (i < half p)%nat -> U m (half p + i)%nat 0 = if Nat.eqb m 0 then v i else 0.
    Proof.
      intros Hn Hv m i [Hm HN] Hi. destruct solution_exists as (w & W & F & _ & HW & _ & _ & HT & _).
      rewrite (modes_unique U W HU HW m _ 0 Hm HN).
      - apply (HT Hn v Hv m i Hm Hi).
      - rewrite (streams_eq p call_valid). lia.
      - pose proof bottom_nonneg. lra.
    Qed.
    Theorem call_bottom : (nonneg (p_bpos p) \/ some_source p) -> exists w, double_gauss (half p) (po_mu out) w /\
      forall v rho, bc_values (p_bpos p) (half p) v ->
      (forall m, (m < length (p_BDRF p))%nat -> mode_is (nth m (p_BDRF p) (MScal 0)) (rho m)) ->
      forall m i, seen p m -> (i < half p)%nat ->
      U m i (bottom p) = (if Nat.eqb m 0 then v i else 0) +
      (if Nat.ltb m (length (p_BDRF p)) then
         (if Nat.eqb m 0 then 2 else 1)
           * rsum (half p) (fun j => rho m (nth i (po_mu out) 0) (nth j (po_mu out) 0) * nth j (po_mu out) 0 * w j * U m (half p + j)%nat (bottom p))
         + p_mu0 p * p_I0 p / PI * rho m (nth i (po_mu out) 0) (p_mu0 p) * exp (- depth_s p (nlayers p - 1) (bottom p) / p_mu0 p)
       else 0).
    Proof.
      intros Hn. destruct solution_exists as (w & W & F & Hw & HW & _ & _ & _ & HB & _). exists w. split; [exact Hw|].
      intros v rho Hv Hrho m i [Hm HN] Hi. pose proof bottom_nonneg as Hb.
      assert (E : forall k, (k < streams p)%nat -> U m k (bottom p) = W m k (bottom p)) by (intros k Hk; apply (modes_unique U W HU HW m k); auto; lra).
      rewrite (streams_eq p call_valid) in E. rewrite E by lia. rewrite (HB Hn v rho Hv Hrho m i Hm Hi). f_equal.
      destruct (Nat.ltb m (length (p_BDRF p))); [|reflexivity]. f_equal. f_equal. apply rsum_ext. intros j Hj. rewrite E by lia. reflexivity.
    Qed.
    Lemma call_layers m i : seen p m -> (i < streams p)%nat -> exists F, forall l, (l < nlayers p)%nat ->
      (forall t, top_of p l <= t <= bot_of p l -> U m i t = F l t) /\ forall t, exists d, is_derive (F l) t d.
    Proof.
      intros [Hm HN] Hi. destruct solution_exists as (w & W & F & Hw & HW & HF & HO & _).
      exists (fun l => F m l i). intros l Hl. split.
      - intros t Ht. rewrite (modes_unique U W HU HW m i t Hm HN Hi). apply HF; auto. apply (layer_in_range l); auto.
      - intros t. destruct (cutoff_ex (albedo_s p l) (wphase_s p l) (ncoeffs p) m) as (wg & Hwg).
        eexists. apply (HO m l i wg t Hm Hl Hi Hwg).
    Qed.
    Theorem call_continuous m i : seen p m -> (i < streams p)%nat -> cont_on 0 (bottom p) (U m i).
    Proof.
      intros Hs Hi. destruct (call_layers m i Hs Hi) as (F & HF).
      assert (C1 : forall l, (l < nlayers p)%nat -> cont_on (top_of p l) (bot_of p l) (U m i)).
      { intros l Hl. destruct (HF l Hl) as [E D]. apply (cont_on_ext _ _ (F l)); [intros x Hx; symmetry; auto|]. apply cont_on_derive. intros x _. apply D. }
      pose proof call_valid as V.
      assert (C2 : forall l, (l < nlayers p)%nat -> 0 <= top_of p l /\ cont_on 0 (bot_of p l) (U m i)).
      { induction l; intros Hl; [split; [cbn; lra|apply (C1 0%nat Hl)]|].
        specialize (IHl ltac:(lia)) as [I1 I2]. pose proof (v_inc p V l ltac:(unfold nlayers in *; lia)) as H1. pose proof (v_inc p V (S l) Hl) as H2.
        change (top_of p l < bot_of p l) in H1. change (top_of p (S l) < bot_of p (S l)) in H2. change (top_of p (S l)) with (bot_of p l) in *.
        split; [lra|]. apply (cont_on_glue 0 (bot_of p l)); [lra|exact I2|]. apply (C1 (S l) Hl). }
      rewrite (bottom_eq p). apply C2. pose proof (v_ne p V). unfold nlayers in *. lia.
    Qed.
    Theorem call_rte : exists w, double_gauss (half p) (po_mu out) w /\
      forall m l i wg t, seen p m -> (l < nlayers p)%nat -> (i < streams p)%nat -> top_of p l < t < bot_of p l ->
      is_cutoff (albedo_s p l) (wphase_s p l) (ncoeffs p) m wg ->
      is_derive (U m i) t (rte p (po_mu out) w wg m l i t (fun j => U m j t) / nth i (po_mu out) 0).
    Proof.
      destruct solution_exists as (w & W & F & Hw & HW & HF & HO & _). exists w. split; [exact Hw|].
      intros m l i wg t [Hm HN] Hl Hi Ht Hc.
      assert (E : forall k x, (k < streams p)%nat -> top_of p l <= x <= bot_of p l -> U m k x = F m l k x).
      { intros k x Hk Hx. rewrite (modes_unique U W HU HW m k x Hm HN Hk). apply HF; auto. apply (layer_in_range l); auto. }
      apply (is_derive_ext_loc (F m l i)).
      - assert (Hd : 0 < Rmin (t - top_of p l) (bot_of p l - t)) by (apply Rmin_glb_lt; lra).
        exists (mkposreal _ Hd). intros y Hy. symmetry. apply E; auto. cbv [ball AbsRing_ball] in Hy. simpl in Hy.
        unfold AbsRing_ball, abs, minus, plus, opp in Hy; simpl in Hy.
        pose proof (Rlt_le_trans _ _ _ Hy (Rmin_l _ _)) as H1. pose proof (Rlt_le_trans _ _ _ Hy (Rmin_r _ _)) as H2.
        apply Rabs_def2 in H1. apply Rabs_def2 in H2. lra.
      - refine (der_eq _ _ _ _ _ (HO m l i wg t Hm Hl Hi Hc)). f_equal. unfold rte.
        rewrite (E i t Hi) by lra. f_equal. f_equal. f_equal. f_equal. apply rsum_ext. intros j Hj. rewrite E by (auto; lra). reflexivity.
    Qed.
  End Modes.
End Call.
