(** The corrected intensity: whole calls. *)
From Coq Require Import String Reals Lra Lia List Bool Arith ZArith.
From Coquelicot Require Import Coquelicot.
From Verif Require Import Base Tensor Spec M_LinAlg Spec_RTE Calc M_Subroutines M_GenPart M_MathscrV M_Coeffs M_Assemble M_Pydisort
  P_Sub P_GenPart3 P_Tensor P_Teq P_Coeffs2 P_Coeffs3 P_Assemble P_Solve Spec_Sol Spec_Valid P_Valid P_Pydisort P_Pydisort2 P_Pydisort3 P_Pydisort4 P_Pydisort5
  P_Whole Spec_NT P_NT P_NT2 Spec_Anti P_Anti.
Import ListNotations.
Local Open Scope R_scope.

Lemma cont_on_plus a b f g : cont_on a b f -> cont_on a b g -> cont_on a b (fun x => f x + g x).
Proof.
  intros Hf Hg x Hx e He. destruct (Hf x Hx (e / 2) ltac:(lra)) as (d & Hd & H). destruct (Hg x Hx (e / 2) ltac:(lra)) as (d' & Hd' & H').
  exists (Rmin d d'). split; [apply Rmin_glb_lt; auto|]. intros y Hy Hyx.
  pose proof (H y Hy (Rlt_le_trans _ _ _ Hyx (Rmin_l _ _))) as H1. pose proof (H' y Hy (Rlt_le_trans _ _ _ Hyx (Rmin_r _ _))) as H2.
  replace (f y + g y - (f x + g x)) with ((f y - f x) + (g y - g x)) by ring. eapply Rle_lt_trans; [apply Rabs_triang|]. lra.
Qed.
Lemma cont_on_scal a b c f : cont_on a b f -> cont_on a b (fun x => c * f x).
Proof.
  intros Hf x Hx e He. assert (Hc : 0 < Rabs c + 1) by (pose proof (Rabs_pos c); lra).
  destruct (Hf x Hx (e / (Rabs c + 1)) ltac:(apply Rdiv_lt_0_compat; lra)) as (d & Hd & H). exists d. split; auto. intros y Hy Hyx.
  specialize (H y Hy Hyx). replace (c * f y - c * f x) with (c * (f y - f x)) by ring. rewrite Rabs_mult.
  apply Rle_lt_trans with ((Rabs c + 1) * Rabs (f y - f x)); [apply Rmult_le_compat_r; [apply Rabs_pos|lra]|].
  apply Rmult_lt_reg_r with (/ (Rabs c + 1)); [apply Rinv_0_lt_compat; lra|].
  replace ((Rabs c + 1) * Rabs (f y - f x) * / (Rabs c + 1)) with (Rabs (f y - f x)) by (field; lra). exact H.
Qed.
Lemma cont_on_const a b c : cont_on a b (fun _ => c).
Proof. intros x _ e He. exists 1. split; [lra|]. intros. unfold Rminus. rewrite Rplus_opp_r, Rabs_R0. exact He. Qed.
Lemma cont_on_sum a b n (f : nat -> R -> R) : (forall i, (i < n)%nat -> cont_on a b (f i)) -> cont_on a b (fun x => rsum n (fun i => f i x)).
Proof.
  induction n as [|n IH]; intros H; [exact (cont_on_const a b 0)|]. cbn [rsum]. apply cont_on_plus; [apply IH; intros i Hi; apply H; lia|apply H; lia].
Qed.
Lemma cont_on_sub a b c d f : a <= c -> d <= b -> cont_on a b f -> cont_on c d f.
Proof. intros H1 H2 H x Hx e He. destruct (H x ltac:(lra) e He) as (k & Hk & HH). exists k. split; auto. intros y Hy. apply HH. lra. Qed.
Lemma cont_on_zero a b f : a < b -> cont_on a b f -> (forall x, a < x <= b -> f x = 0) -> f a = 0.
Proof.
  intros Hab Hc Hz. destruct (Req_dec (f a) 0) as [E|E]; [exact E|]. exfalso. assert (He : 0 < Rabs (f a)) by (apply Rabs_pos_lt; auto).
  destruct (Hc a ltac:(lra) _ He) as (d & Hd & H). set (y := a + Rmin (d / 2) (b - a)). assert (H1 : 0 < Rmin (d / 2) (b - a)) by (apply Rmin_glb_lt; lra).
  pose proof (Rmin_l (d / 2) (b - a)). pose proof (Rmin_r (d / 2) (b - a)).
  specialize (H y ltac:(unfold y; lra)). rewrite (Hz y ltac:(unfold y; lra)) in H. unfold Rminus in H at 1 2. rewrite Rplus_0_l, Rabs_Ropp in H.
  assert (Rabs (y + - a) < d) by (unfold y; rewrite Rabs_pos_eq; lra). specialize (H H3). lra.
Qed.

Lemma scat_cos_sym p x y : scat_cos p x (p_phi0 p + y) = scat_cos p x (p_phi0 p - y).
Proof.
  unfold scat_cos, dot3, unit_vec. set (A := sqrt (1 - x ^ 2)). set (B := sqrt (1 - (- p_mu0 p) ^ 2)).
  replace (A * cos (p_phi0 p + y) * (B * cos (p_phi0 p)) + A * sin (p_phi0 p + y) * (B * sin (p_phi0 p))) with (A * B * (cos (p_phi0 p + y) * cos (p_phi0 p) + sin (p_phi0 p + y) * sin (p_phi0 p))) by ring.
  replace (A * cos (p_phi0 p - y) * (B * cos (p_phi0 p)) + A * sin (p_phi0 p - y) * (B * sin (p_phi0 p))) with (A * B * (cos (p_phi0 p - y) * cos (p_phi0 p) + sin (p_phi0 p - y) * sin (p_phi0 p))) by ring.
  rewrite <- !cos_minus. replace (p_phi0 p + y - p_phi0 p) with y by ring. replace (p_phi0 p - y - p_phi0 p) with (- y) by ring. rewrite cos_neg. reflexivity.
Qed.
Lemma scat_cos_period p x y : scat_cos p x (y + 2 * PI) = scat_cos p x y.
Proof. unfold scat_cos, unit_vec. rewrite cos_plus, sin_plus, cos_2PI, sin_2PI, !Rmult_0_r, !Rmult_1_r, Rminus_0_r, Rplus_0_r. reflexivity. Qed.

Section Call.
  Variables (p : py_in) (lg : leggauss_t) (la : linalg) (jk : junk) (out : py_out).
  Hypothesis Hla : linalg_ok la.
  Hypothesis Hlg : leggauss_ok (half p) (lg (half p)).
  Hypothesis Hok : pydisort p lg la jk = Ok out.
  Variable u : list R -> list R -> bool -> bool -> bool -> res pret.
  Hypothesis Hu : po_u out = Some u.
  Hypothesis HF : nt_finite p (po_mu out).
  Local Notation mu0 := (p_mu0 p).
  Local Notation nu q := (nth q (po_mu out) 0).

  (** Intensity from a unit source in all layers. *)
  Definition Gu (i : nat) (t : R) : R := mu0 / (mu0 + nu i) * psi p lg false i t (lay p t).
  Definition Vc (i : nat) (t phi : R) : R := if Nat.ltb i (half p) then 0 else ims_factor p (nu i) phi * chi p lg false (i - half p) t.

  Lemma mu_eq : po_mu out = mu_arr p lg.
  Proof. destruct (pydisort_parts _ _ _ _ _ Hok) as (V & ss & r & sv & Hss & Hr & Hsv & Emu & _). exact Emu. Qed.
  Lemma angle : NT_angle_ok p lg = true.
  Proof. exact (angle_ok p lg la jk out Hok). Qed.
  Lemma HF' : nt_finite p (mu_arr p lg).
  Proof. rewrite <- mu_eq. exact HF. Qed.
  Lemma Vp : valid p. Proof. exact (call_valid p lg la jk out Hok). Qed.
  Lemma ne_mu0 i : (i < half p)%nat -> quad_mu p lg i <> mu0.
  Proof. apply (nt_ne p lg HF' angle). Qed.
  Lemma I0_pos : 0 < p_I0 p. Proof. apply HF. Qed.

  Lemma lay_closed l t : (l < nlayers p)%nat -> top_of p l <= t <= bot_of p l -> forall i, (i < streams p)%nat ->
    psi p lg false i t (lay p t) = psi p lg false i t l.
  Proof.
    intros Hl Ht i Hi. rewrite (streams_eq p Vp) in Hi. assert (Hr : 0 <= t <= bottom p) by (apply (layer_in_range p lg la jk out Hlg Hok l); auto).
    destruct l as [|l].
    - replace (lay p t) with 0%nat; [reflexivity|]. symmetry. apply (lay_of_at p Vp). split; [auto|]. destruct (Req_dec t 0); [right|left]; auto. cbn [top_of] in *. lra.
    - destruct (Req_dec t (top_of p (S l))) as [E|E].
      + assert (El : lay p t = l).
        { apply (lay_of_at p Vp). split; [lia|]. left. rewrite E. cbn [top_of]. fold (bot_of p l). pose proof (v_inc p Vp l ltac:(lia)). lra. }
        rewrite El. rewrite E. cbn [top_of]. fold (bot_of p l). apply (psi_interface p Vp lg Hlg I0_pos); auto.
      + replace (lay p t) with (S l); [reflexivity|]. symmetry. apply (lay_of_at p Vp). split; [auto|]. left. lra.
  Qed.
  Lemma lay_open l t : (l < nlayers p)%nat -> top_of p l < t <= bot_of p l -> lay p t = l.
  Proof. intros Hl Ht. apply (lay_of_at p Vp). split; [auto|]. left. exact Ht. Qed.

  Lemma Gu_once : scattered_once p (po_mu out) (fun _ _ _ => 1) (fun i t _ => Gu i t).
  Proof.
    pose proof Vp as V. pose proof (mu0_pos p V I0_pos) as H0. rewrite mu_eq.
    assert (HD : forall l i t, (l < nlayers p)%nat -> (i < streams p)%nat ->
      is_derive (fun x => mu0 / (mu0 + nu i) * psi p lg false i x l) t (scl p l * (mu0 / (mu0 + nu i) * psi p lg false i t l - 1 * exp (- depth_s p l t / mu0)) / nu i)).
    { intros l i t Hl Hi. rewrite (streams_eq p V) in Hi. rewrite mu_eq. pose proof (sum_ne p V lg Hlg I0_pos ne_mu0 i Hi). pose proof (nu_ne p lg Hlg i Hi).
      eapply der_eq; [|apply der_scal; apply (psi_der p V lg Hlg I0_pos i l t Hi Hl)]. field. repeat split; auto; lra. }
    split; [|split].
    - intros l i t phi Hl Hi Ht.
      apply (der_ext_loc (fun x => mu0 / (mu0 + nu i) * psi p lg false i x l) _ t _ (top_of p l) (bot_of p l)); [exact Ht| |].
      + intros y Hy. unfold Gu. rewrite (lay_open l y); auto. lra.
      + refine (der_eq _ _ _ _ _ (HD l i t Hl Hi)). unfold Gu. rewrite (lay_open l t) by (auto; lra). rewrite mu_eq. reflexivity.
    - intros i _ Hi. apply (cont_layers p V). intros l Hl.
      apply (cont_on_ext _ _ (fun x => mu0 / (mu0 + nu i) * psi p lg false i x l)); [intros x Hx; unfold Gu; rewrite (lay_closed l x) by auto; reflexivity|].
      apply cont_on_derive. intros x _. eexists. apply HD; auto.
    - intros i _ Hi. unfold Gu. split.
      + assert (E : lay p 0 = 0%nat) by (apply (lay_of_at p V); split; [apply (v_ne p V)|right; auto]). rewrite E, (psi_in_top p V lg Hlg I0_pos i Hi). ring.
      + pose proof (v_ne p V) as Hn. change (1 <= nlayers p)%nat in Hn. pose proof (v_inc p V (nlayers p - 1) ltac:(unfold nlayers in *; lia)) as Hi1.
        rewrite (bottom_eq p). fold (bot_of p (nlayers p - 1)). rewrite (lay_open (nlayers p - 1)); [|lia|lra].
        rewrite (psi_in_bottom p V lg Hlg I0_pos i Hi). ring.
  Qed.
  Lemma Gu_interface i l : (i < streams p)%nat -> (S l < nlayers p)%nat -> Gu i (bot_of p l) <> 0.
  Proof.
    intros Hi Hl. pose proof Vp as V. pose proof (mu0_pos p V I0_pos). unfold Gu. rewrite (lay_open l); [|lia|pose proof (v_inc p V l ltac:(lia)); lra].
    rewrite (streams_eq p V) in Hi. pose proof (psi_interface_ne p V lg Hlg I0_pos ne_mu0 i l Hi Hl). rewrite mu_eq. pose proof (sum_ne p V lg Hlg I0_pos ne_mu0 i Hi).
    apply Rmult_integral_contrapositive_currified; [|auto]. unfold Rdiv. apply Rmult_integral_contrapositive_currified; [lra|]. apply Rinv_neq_0_compat; auto.
  Qed.

  Lemma Vc_second : second_order p (po_mu out) Vc.
  Proof.
    pose proof Vp as V. intros i t phi Hi Ht. unfold Vc. rewrite (proj2 (Nat.ltb_lt i (half p))) by auto. rewrite (proj2 (Nat.ltb_ge (half p + i) (half p))) by lia.
    split; [reflexivity|]. replace (half p + i - half p)%nat with i by lia. f_equal.
    rewrite mu_eq, (nu_low p lg i Hi). rewrite (chi_doc_eq (quad_mu p lg i) (mu0_s p)); [reflexivity| | |].
    - apply (mu_pos p lg Hlg i Hi).
    - apply (mu0_s_pos p V lg HF').
    - rewrite <- (nu_low p lg i Hi). apply HF'; auto.
  Qed.
  Lemma Vc_cont i phi : cont_on 0 (bottom p) (fun t => Vc i t phi).
  Proof.
    unfold Vc. destruct (Nat.ltb i (half p)); [apply cont_on_const|]. apply cont_on_scal. apply cont_on_derive. intros x _.
    apply (chi_der_ex (quad_mu p lg (i - half p)) (mu0_s p)).
  Qed.

  Lemma missing_sym l x y : missing p l x (p_phi0 p + y) = missing p l x (p_phi0 p - y).
  Proof. unfold missing. rewrite scat_cos_sym. reflexivity. Qed.
  Lemma missing_period l x y : missing p l x (y + 2 * PI) = missing p l x y.
  Proof. unfold missing. rewrite scat_cos_period. reflexivity. Qed.

  Theorem nt_solution : exists w U G W,
    double_gauss (half p) (po_mu out) w /\ modes_of p out U /\ solves_rte p (po_mu out) w U /\
    (forall m i, (m < nmodes p)%nat -> (i < streams p)%nat -> cont_on 0 (bottom p) (U m i)) /\
    top_condition p U /\ bottom_condition p (po_mu out) w U /\
    scattered_once p (po_mu out) (fun _ _ _ => 1) (fun i t _ => G i t) /\
    (forall i l, (i < streams p)%nat -> (S l < nlayers p)%nat -> G i (bot_of p l) <> 0) /\
    second_order p (po_mu out) W /\ (forall i phi, cont_on 0 (bottom p) (fun t => W i t phi)) /\
    nt_is p u false (fun i t phi => rsum (nmodes p) (fun m => U m i t * cos (INR m * (p_phi0 p - phi)))
                                    + missing p (lay p t) (nu i) phi * G i t + W i t phi).
  Proof.
    destruct (pydisort_parts _ _ _ _ _ Hok) as (V & ss & r & sv & Hss & Hr & Hsv & Emu & Eup & Edn & Eu0 & Eu).
    exists (quad_W p lg), (Umode p lg ss r sv), Gu, Vc.
    assert (Hsrc : some_source p) by (left; exact I0_pos).
    split; [rewrite mu_eq; apply (mu_arr_gauss p lg Hlg)|].
    assert (HM : modes_of p out (Umode p lg ss r sv)).
    { split.
      - intros tau Ht. rewrite Eu0. apply (u0_reports p V lg Hlg ss r la Hla jk sv Hsv tau false Ht).
      - intros v Hv HN. exfalso. apply HN, HF. }
    split; [exact HM|].
    assert (HFl : forall m l i t, (m < nmodes p)%nat -> (l < nlayers p)%nat -> (i < streams p)%nat -> top_of p l <= t <= bot_of p l -> Umode p lg ss r sv m i t = Flay p lg ss r sv m l i t).
    { intros. apply (Umode_Flay p V lg Hlg ss r la Hla jk sv Hsv); auto. }
    assert (HO : forall m l i wg t, (m < nmodes p)%nat -> (l < nlayers p)%nat -> (i < streams p)%nat -> is_cutoff (albedo_s p l) (wphase_s p l) (ncoeffs p) m wg ->
      is_derive (Flay p lg ss r sv m l i) t (rte p (po_mu out) (quad_W p lg) wg m l i t (fun j => Flay p lg ss r sv m l j t) / nu i)).
    { intros m l i wg t Hm Hl Hi Hc. rewrite mu_eq. apply (Flay_ode p V lg Hlg ss r Hss Hr la Hla jk sv Hsv); auto. }
    split.
    { intros m l i wg t Hm Hl Hi Ht Hc. apply (der_ext_loc (Flay p lg ss r sv m l i) _ t _ (top_of p l) (bot_of p l)); [exact Ht|intros y Hy; symmetry; apply HFl; auto; lra|].
      refine (der_eq _ _ _ _ _ (HO m l i wg t Hm Hl Hi Hc)). unfold rte. rewrite (HFl m l i t) by (auto; lra). do 5 f_equal. apply rsum_ext. intros j Hj. rewrite (HFl m l j t) by (auto; lra). reflexivity. }
    split.
    { intros m i Hm Hi. apply (cont_layers p V). intros l Hl. apply (cont_on_ext _ _ (Flay p lg ss r sv m l i)); [intros x Hx; symmetry; auto|].
      apply cont_on_derive. intros x _. destruct (cutoff_ex (albedo_s p l) (wphase_s p l) (ncoeffs p) m) as (wg & Hwg). eexists. apply (HO m l i wg x); auto. }
    split; [intros v Hv m i Hm Hi; apply (top_bc p V lg Hlg ss r Hr la Hla jk sv Hsv); auto|].
    split; [rewrite mu_eq; intros v rho Hv Hrho m i Hm Hi; apply (bottom_bc p V lg Hlg ss r Hr la Hla jk sv Hsv); auto|].
    split; [exact Gu_once|]. split; [exact Gu_interface|]. split; [exact Vc_second|]. split; [exact Vc_cont|].
    intros tau phi HA. pose proof HA as (_ & Ht & _). pose proof Hu as Hu1. rewrite Eu in Hu1. assert (Eo : p_only_flux p = false) by apply HF. rewrite Eo in Hu1.
    rewrite (proj2 (NT_iff p) (proj1 HF)) in Hu1. injection Hu1 as <-.
    pose proof (a_good p V lg Hlg ss r) as Ha. set (a := assemble_args p lg r ss) in *.
    pose proof (HKne p V lg Hlg ss r la Hla jk sv Hsv) as HK. fold a in HK.
    destruct (um_all_val a sv (g_NL a Ha) (g_len a Ha) HK tau Ht (g_NF a Ha)) as (C & HC & SC & EC).
    destruct (uc_val p V lg Hlg ss r Hr HF' sv (mode_at a sv) tau phi false C HA HC SC EC) as (A & EA & SA).
    exists A. split; [exact EA|]. apply (squeezed_ext _ _ _ _ SA). intros idx Hi. cbv zeta. set (i := nth 0 idx 0%nat). set (t := nth (nth 1 idx 0%nat) tau 0). set (ph := nth (nth 2 idx 0%nat) phi 0).
    unfold corr, Bc, Vc, Gu, Umode. rewrite mu_eq, <- Rplus_assoc. fold a. f_equal. f_equal. ring.
  Qed.

  (** Uniqueness of what is reported. *)
  Lemma nt_is_ext anti f g : nt_is p u anti f -> nt_is p u anti g -> forall i t phi, (i < streams p)%nat -> 0 <= t <= bottom p -> fwd p (lay p t) <> 1 -> f i t phi = g i t phi.
  Proof.
    intros Hf Hg i t phi Hi Ht H1.
    assert (HA : nt_args p [t] [phi]).
    { split; [discriminate|]. split; [intros x [<-|[]]; auto|]. split; [intros x [<-|[]]; auto|right; reflexivity]. }
    destruct (Hf _ _ HA) as (A & EA & SA). destruct (Hg _ _ HA) as (B & EB & SB). rewrite EA in EB. injection EB as <-.
    apply (squeezed_inj _ _ _ _ SA SB [i; 0%nat; 0%nat]). cbn. auto.
  Qed.

  Theorem nt_jump f i l phi : nt_is p u false f -> (i < streams p)%nat -> (S l < nlayers p)%nat -> fwd p l <> 1 -> fwd p (S l) <> 1 ->
    missing p l (nu i) phi <> missing p (S l) (nu i) phi -> ~ cont_on 0 (bottom p) (fun t => f i t phi).
  Proof.
    intros Hf Hi Hl F1 F2 Hm Hc. destruct nt_solution as (w & U & G & W & HW & HM & HS & HU & _ & _ & HG & HGn & HW2 & HWc & HN).
    pose proof Vp as V. pose proof (v_inc p V l ltac:(lia)) as I1. pose proof (v_inc p V (S l) ltac:(lia)) as I2. cbn [top_of] in I2. fold (bot_of p l) in I2.
    assert (R1 : 0 <= bot_of p l <= bottom p) by (apply (layer_in_range p lg la jk out Hlg Hok l); [lia|lra]).
    assert (R2 : 0 <= bot_of p (S l) <= bottom p) by (apply (layer_in_range p lg la jk out Hlg Hok (S l)); [lia|cbn [top_of]; fold (bot_of p l); lra]).
    set (H := fun t => rsum (nmodes p) (fun m => U m i t * cos (INR m * (p_phi0 p - phi)))).
    assert (CH : cont_on 0 (bottom p) H).
    { unfold H. apply cont_on_sum. intros m Hm'. apply (cont_on_ext _ _ (fun x => cos (INR m * (p_phi0 p - phi)) * U m i x)); [intros; ring|].
      apply cont_on_scal. apply HU; auto. }
    set (D := fun t => f i t phi + ((-1) * (H t + missing p (S l) (nu i) phi * G i t + W i t phi))).
    assert (CD : cont_on 0 (bottom p) D).
    { unfold D. apply cont_on_plus; [exact Hc|]. apply cont_on_scal. apply cont_on_plus; [|apply HWc]. apply cont_on_plus; [exact CH|].
      apply cont_on_scal. apply (proj1 (proj2 HG) i 0 Hi). }
    assert (Z : D (bot_of p l) = 0).
    { apply (cont_on_zero _ (bot_of p (S l))); [lra|apply (cont_on_sub 0 (bottom p)); [lra|lra|exact CD]|].
      intros x Hx. assert (El : lay p x = S l) by (apply lay_open; [lia|cbn [top_of]; fold (bot_of p l); lra]). unfold D.
      rewrite (nt_is_ext false _ _ Hf HN i x phi Hi) by (try lra; rewrite El; auto). rewrite El. unfold H. ring. }
    assert (El : lay p (bot_of p l) = l) by (apply lay_open; [lia|lra]).
    unfold D in Z. rewrite (nt_is_ext false _ _ Hf HN i (bot_of p l) phi Hi) in Z by (try lra; rewrite El; auto). rewrite El in Z. unfold H in Z.
    assert (Z' : (missing p l (nu i) phi - missing p (S l) (nu i) phi) * G i (bot_of p l) = 0) by (clear - Z; lra).
    apply Rmult_integral in Z' as [Z'|Z']; [apply Hm; lra|exact (HGn i l Hi Hl Z')].
  Qed.

  Lemma once_scaled G : scattered_once p (po_mu out) (fun _ _ _ => 1) (fun i t _ => G i t) ->
    (forall l i phi, (l < nlayers p)%nat -> (i < streams p)%nat -> missing p l (nu i) phi = missing p 0 (nu i) phi) ->
    scattered_once p (po_mu out) (missing p) (fun i t phi => missing p (lay p t) (nu i) phi * G i t).
  Proof.
    intros (H1 & H2 & H3) HM. pose proof Vp as V. split; [|split].
    - intros l i t phi Hl Hi Ht.
      apply (der_ext_loc (fun x => missing p l (nu i) phi * G i x) _ t _ (top_of p l) (bot_of p l)); [exact Ht|intros y Hy; rewrite (lay_open l y) by (auto; lra); reflexivity|].
      refine (der_eq _ _ _ _ _ (der_scal _ _ _ _ (H1 l i t phi Hl Hi Ht))). rewrite (lay_open l t) by (auto; lra). unfold Rdiv. ring.
    - intros i phi Hi. apply (cont_on_ext _ _ (fun x => missing p 0 (nu i) phi * G i x)); [|apply cont_on_scal; apply (H2 i phi Hi)].
      intros x Hx. rewrite (HM (lay p x) i phi); auto. apply (lay_at p V x Hx).
    - intros i phi Hi. destruct (H3 i phi Hi) as [E1 E2]. rewrite E1, E2. split; ring.
  Qed.

  Section Anti.
  Hypothesis Hone : nlayers p = 1%nat \/ ~ has_source p.
  Lemma iso_one ss r : a_iso (assemble_args p lg r ss) = true -> a_NLayers (assemble_args p lg r ss) = 1%nat.
  Proof. intros Hi. destruct Hone as [E|E]; [exact E|]. exfalso. apply E, has_iso_iff, Hi. Qed.

  (** What the flagged function reports. *)
  Lemma nt_flag : exists H A : nat -> R -> R -> R,
    (forall i phi l t, (i < streams p)%nat -> (l < nlayers p)%nat -> top_of p l < t < bot_of p l -> is_derive (fun x => A i x phi) t (H i t phi)) /\ nt_is p u false (fun i t phi => H i t phi + corr p lg false i t phi) /\ nt_is p u true (fun i t phi => A i t phi + corr p lg true i t phi).
  Proof.
    destruct (pydisort_parts _ _ _ _ _ Hok) as (V & ss & r & sv & Hss & Hr & Hsv & Emu & Eup & Edn & Eu0 & Eu).
    pose proof (a_good p V lg Hlg ss r) as Ha. set (a := assemble_args p lg r ss) in *.
    pose proof Hu as Hu1. rewrite Eu in Hu1. assert (Eo : p_only_flux p = false) by apply HF. rewrite Eo in Hu1.
    rewrite (proj2 (NT_iff p) (proj1 HF)) in Hu1. injection Hu1 as Hu1.
    assert (Hmu0 : a_beam a = true -> a_mu0 a <> 0).
    { intros Hb. apply Rltb_iff in Hb. pose proof (v_mu0 p V). change (a_mu0 a) with (p_mu0 p). lra. }
    pose proof (HKne p V lg Hlg ss r la Hla jk sv Hsv) as HK. fold a in HK.
    exists (fun i t phi => rsum (nmodes p) (fun m => r * mode_at a sv m i t * cos (INR m * (p_phi0 p - phi)))),
      (fun i t phi => rsum (nmodes p) (fun m => r * amode a sv m i t * cos (INR m * (p_phi0 p - phi)))).
    split; [|split].
    - intros i phi l t Hi Hl Ht. apply der_sum. intros m Hm. apply der_scal_r. apply der_scal.
      rewrite (nmodes_eq p) in Hm. rewrite (streams_eq p V) in Hi. apply (amode_der a Ha la jk sv Hla Hsv Hmu0 (iso_one ss r) m i l t Hm Hi Hl Ht).
    - intros tau phi HA. pose proof HA as (_ & Ht & _). subst u.
      destruct (um_all_val a sv (g_NL a Ha) (g_len a Ha) HK tau Ht (g_NF a Ha)) as (C & HC & SC & EC).
      exact (uc_val p V lg Hlg ss r Hr HF' sv (mode_at a sv) tau phi false C HA HC SC EC).
    - intros tau phi HA. pose proof HA as (_ & Ht & _). subst u.
      destruct (um_anti_val a Ha la jk sv Hla Hsv (iso_one ss r) tau Ht) as (C & HC & SC & EC).
      exact (uc_val p V lg Hlg ss r Hr HF' sv (amode a sv) tau phi true C HA HC SC EC).
  Qed.

  Lemma corr_der i phi l t c : (i < streams p)%nat -> (l < nlayers p)%nat -> top_of p l < t < bot_of p l -> c <> 0 ->
    (forall r, (r < nlayers p)%nat -> r <> l -> if Nat.ltb i (half p) then (l < r)%nat -> scl p r = c else (r < l)%nat -> scl p r = c) ->
    is_derive (fun x => corr p lg true i x phi) t (corr p lg false i t phi + Bc p lg l i phi * (scl p l / c - 1) * oth p lg false i t l).
  Proof.
    intros Hi Hl Ht Hc HC. pose proof Vp as V. pose proof Hi as Hi'. rewrite (streams_eq p V) in Hi'.
    apply (der_ext_loc (fun x => Bc p lg l i phi * psi p lg true i x l + (if Nat.ltb i (half p) then 0 else ims_factor p (nth i (mu_arr p lg) 0) phi * chi p lg true (i - half p) x)) _ t _ (top_of p l) (bot_of p l)); [exact Ht| |].
    - intros y Hy. unfold corr. rewrite (lay_open l y) by (auto; lra). reflexivity.
    - pose proof (psi_anti_der p V lg Hlg I0_pos i l t c Hi' Hl Hc HC) as D1. unfold corr. rewrite (lay_open l t) by (auto; lra).
      assert (D2 : is_derive (fun x => if Nat.ltb i (half p) then 0 else ims_factor p (nth i (mu_arr p lg) 0) phi * chi p lg true (i - half p) x) t
        (if Nat.ltb i (half p) then 0 else ims_factor p (nth i (mu_arr p lg) 0) phi * chi p lg false (i - half p) t)).
      { destruct (Nat.ltb i (half p)) eqn:EL; [apply der_const|]. apply der_scal. apply Nat.ltb_ge in EL. assert (Hj : (i - half p < half p)%nat) by lia.
        refine (chi_anti_der (quad_mu p lg (i - half p)) (mu0_s p) (mu_pos p lg Hlg _ Hj) (mu0_s_pos p V lg HF') _ t).
        rewrite <- (nu_low p lg _ Hj). apply HF'; auto. }
      refine (der_eq _ _ _ _ _ (der_plus _ _ _ _ _ (der_scal _ (Bc p lg l i phi) _ _ D1) D2)). unfold psi, Rdiv. match goal with |- ?x = ?y => change (@eq R x y) end. destruct (Nat.ltb i (half p)); ring.
  Qed.

  Theorem nt_anti : (forall l k, (l < nlayers p)%nat -> (k < nlayers p)%nat -> scl p l = scl p k) ->
    exists f F, nt_is p u false f /\ nt_is p u true F /\ forall i phi, (i < streams p)%nat -> Spec_Anti.antiderivative p (fun t => F i t phi) (fun t => f i t phi).
  Proof.
    intros Hs. pose proof Vp as V. destruct nt_flag as (H & A & HD & N1 & N2). eexists _, _. split; [exact N1|]. split; [exact N2|].
    intros i phi Hi l t Hl Ht. apply der_plus; [apply (HD i phi l t); auto|].
    refine (der_eq _ _ _ _ _ (corr_der i phi l t (scl p l) Hi Hl Ht _ _)).
    - unfold Rdiv. rewrite Rinv_r by (apply Rgt_not_eq, (scl_pos p V); auto). ring.
    - apply Rgt_not_eq, (scl_pos p V); auto.
    - intros r Hr Hne. destruct (Nat.ltb i (half p)); intros _; apply Hs; auto.
  Qed.

  Theorem nt_anti_wrong f F i phi l : nt_is p u false f -> nt_is p u true F -> (i < half p)%nat -> S (S l) = nlayers p ->
    scl p l <> scl p (S l) -> fwd p l <> 1 -> missing p l (nu i) phi <> 0 -> ~ Spec_Anti.antiderivative p (fun t => F i t phi) (fun t => f i t phi).
  Proof.
    intros Hf HF1 Hi El Hs F1 Hm HA. pose proof Vp as V. destruct nt_flag as (H & A & HD & N1 & N2).
    assert (Hi2 : (i < streams p)%nat) by (rewrite (streams_eq p V); lia). assert (Hl : (l < nlayers p)%nat) by lia.
    pose proof (v_inc p V l Hl) as I1. set (t := (top_of p l + bot_of p l) / 2). assert (Ht : top_of p l < t < bot_of p l) by (unfold t; lra).
    assert (Hc : scl p (S l) <> 0) by (apply Rgt_not_eq, (scl_pos p V); lia).
    pose proof (der_plus _ _ _ _ _ (HD i phi l t Hi2 Hl Ht) (corr_der i phi l t (scl p (S l)) Hi2 Hl Ht Hc ltac:(intros r Hr Hne; rewrite (proj2 (Nat.ltb_lt i (half p)) Hi); intros Hlr; f_equal; lia))) as D1.
    assert (HR : forall x, top_of p l < x < bot_of p l -> 0 <= x <= bottom p /\ fwd p (lay p x) <> 1).
    { intros x Hx. split; [apply (layer_in_range p lg la jk out Hlg Hok l); auto; lra|]. rewrite (lay_open l x) by (auto; lra). auto. }
    pose proof (HA l t Hl Ht) as D2.
    assert (D3 : is_derive (fun x => F i x phi) t (H i t phi + (corr p lg false i t phi + Bc p lg l i phi * (scl p l / scl p (S l) - 1) * oth p lg false i t l))).
    { apply (der_ext_loc (fun x => A i x phi + corr p lg true i x phi) _ t _ (top_of p l) (bot_of p l)); [exact Ht| |exact D1].
      intros y Hy. destruct (HR y Hy). apply (nt_is_ext true _ _ N2 HF1); auto. }
    apply is_derive_unique in D2. apply is_derive_unique in D3. pose proof (eq_trans (eq_sym D2) D3) as D4. clear D3. rename D4 into D3. cbv beta in D3. destruct (HR t Ht) as [Hr1 Hr2].
    rewrite (nt_is_ext false _ _ Hf N1 i t phi Hi2 Hr1 Hr2) in D3.
    assert (Z : Bc p lg l i phi * ((scl p l / scl p (S l) - 1) * oth p lg false i t l) = 0) by lra.
    apply Rmult_integral in Z as [Z|Z].
    - unfold Bc in Z. rewrite <- mu_eq in Z. apply Rmult_integral in Z as [Z|Z]; [auto|]. pose proof (mu0_pos p V I0_pos). rewrite mu_eq in Z.
      pose proof (sum_ne p V lg Hlg I0_pos ne_mu0 i ltac:(lia)). unfold Rdiv in Z. apply Rmult_integral in Z as [Z|Z]; [lra|]. exact (Rinv_neq_0_compat _ H1 Z).
    - apply Rmult_integral in Z as [Z|Z]; [|exact (oth_pos_ne p V lg Hlg I0_pos i l t Hi ltac:(lia) Z)].
      apply Hs. assert (scl p l / scl p (S l) = 1) by lra. apply (Rmult_eq_reg_r (/ scl p (S l))); [|apply Rinv_neq_0_compat; auto]. rewrite Rinv_r by auto. exact H0.
  Qed.
  End Anti.

  Theorem nt_two_streams tau phi : half p = 1%nat -> (2 <= length phi)%nat -> tau <> [] -> depths_ok p tau -> (forall t, In t tau -> fwd p (lay p t) <> 1) ->
    u tau phi false false false = Err EShape.
  Proof.
    intros HN Hp Hne Ht Hf.
    destruct (pydisort_parts _ _ _ _ _ Hok) as (V & ss & r & sv & Hss & Hr & Hsv & Emu & Eup & Edn & Eu0 & Eu).
    pose proof (a_good p V lg Hlg ss r) as Ha. set (a := assemble_args p lg r ss) in *.
    pose proof Hu as Hu1. rewrite Eu in Hu1. assert (Eo : p_only_flux p = false) by apply HF. rewrite Eo in Hu1.
    rewrite (proj2 (NT_iff p) (proj1 HF)) in Hu1. injection Hu1 as <-.
    pose proof (HKne p V lg Hlg ss r la Hla jk sv Hsv) as HK. fold a in HK.
    rewrite (one_outcome p lg a HN sv tau phi false false false Hp eq_refl).
    - destruct (um_all_val a sv (g_NL a Ha) (g_len a Ha) HK tau Ht (g_NF a Ha)) as (C & HC & SC & EC).
      assert (EU : exists x, cl_u a sv tau phi false false false true = Ok x).
      { unfold cl_u, tau_check. unfold a at 1. rewrite (range_ok p lg ss r) by auto. cbn [check bind]. rewrite HC. cbn [bind orb]. eauto. }
      destruct EU as (x & ->). destruct (TMS_val0 p V lg Hlg ss r Hr tau phi false Hne Ht Hf) as (f & Ef & _). fold a in Ef. rewrite Ef.
      destruct (IMS_ok1 p V lg Hlg ss r HF' tau phi false HN) as (W & EW). fold a in EW. rewrite EW. reflexivity.
    - intros A Hc HA. rewrite (um_shape p lg la Hla Hlg ss r jk sv tau A V Hsv Hc HA). fold a. change (a_N a) with (half p). rewrite HN. reflexivity.
  Qed.

  (** Azimuthal dependence and boundary values of the reported intensity. *)
  Theorem nt_azimuth f : nt_is p u false f -> forall i t, (i < streams p)%nat -> 0 <= t <= bottom p -> fwd p (lay p t) <> 1 ->
    forall y, f i t (y + 2 * PI) = f i t y /\ f i t (p_phi0 p + y) = f i t (p_phi0 p - y).
  Proof.
    intros Hf i t Hi Ht H1 y. destruct nt_solution as (w & U & G & W & HW & HM & HS & HU & _ & _ & HG & HGn & HW2 & HWc & HN).
    pose proof Vp as V.
    assert (EW : forall x z, ims_factor p (nu i) x = ims_factor p (nu i) z -> W i t x = W i t z).
    { intros x z E. rewrite (streams_eq p V) in Hi. destruct (lt_dec i (half p)) as [L|L].
      - destruct (HW2 i t x L Ht) as [-> _]. destruct (HW2 i t z L Ht) as [-> _]. reflexivity.
      - replace i with (half p + (i - half p))%nat in * by lia. destruct (HW2 (i - half p)%nat t x ltac:(lia) Ht) as [_ ->].
        destruct (HW2 (i - half p)%nat t z ltac:(lia) Ht) as [_ ->]. rewrite E. reflexivity. }
    rewrite !(nt_is_ext false _ _ Hf HN i t _ Hi Ht H1). rewrite missing_period, missing_sym.
    rewrite (EW (y + 2 * PI) y) by (unfold ims_factor; rewrite scat_cos_period; reflexivity).
    rewrite (EW (p_phi0 p + y) (p_phi0 p - y)) by (unfold ims_factor; rewrite scat_cos_sym; reflexivity).
    split; f_equal; f_equal; apply rsum_ext; intros m Hm; f_equal.
    - replace (INR m * (p_phi0 p - (y + 2 * PI))) with (INR m * (p_phi0 p - y) - 2 * INR m * PI) by ring.
      replace (INR m * (p_phi0 p - y)) with (INR m * (p_phi0 p - y) - 2 * INR m * PI + 2 * INR m * PI) at 2 by ring. rewrite cos_period. reflexivity.
    - replace (INR m * (p_phi0 p - (p_phi0 p + y))) with (- (INR m * (p_phi0 p - (p_phi0 p - y)))) by ring. apply cos_neg.
  Qed.

  Lemma one_mode c (w : R) phi0 phi : (1 <= c)%nat -> rsum c (fun m => (if Nat.eqb m 0 then w else 0) * cos (INR m * (phi0 - phi))) = w.
  Proof.
    intros Hc. rewrite (rsum_single c 0%nat); [|lia|].
    - cbn [Nat.eqb INR]. rewrite Rmult_0_l, cos_0. ring.
    - intros m Hm Hne. rewrite (proj2 (Nat.eqb_neq m 0) Hne). ring.
  Qed.
  Theorem nt_top f v : nt_is p u false f -> bc_values (p_bneg p) (half p) v -> fwd p 0 <> 1 ->
    forall i phi, (i < half p)%nat -> f (half p + i)%nat 0 phi = v i.
  Proof.
    intros Hf Hv F1 i phi Hi. destruct nt_solution as (w & U & G & W & HW & HM & HS & HU & HT & _ & HG & HGn & HW2 & HWc & HN).
    pose proof Vp as V. assert (Hi2 : (half p + i < streams p)%nat) by (rewrite (streams_eq p V); lia).
    assert (E0 : lay p 0 = 0%nat) by (apply (lay_of_at p V); split; [apply (v_ne p V)|right; auto]).
    assert (R0 : 0 <= 0 <= bottom p) by (pose proof (bottom_nonneg p lg la jk out Hok); lra).
    rewrite (nt_is_ext false _ _ Hf HN _ 0 phi Hi2 R0) by (rewrite E0; auto).
    destruct (HG) as (_ & _ & HG0). destruct (HG0 i phi Hi) as [-> _]. destruct (HW2 i 0 phi Hi R0) as [_ ->].
    assert (Q1 : 0 < quad_mu p lg i) by apply (mu_pos p lg Hlg i Hi). assert (Q2 : 0 < mu0_s p) by apply (mu0_s_pos p V lg HF').
    assert (Q3 : quad_mu p lg i <> mu0_s p) by (rewrite <- (nu_low p lg i Hi); apply HF'; auto).
    rewrite mu_eq, (nu_low p lg i Hi), (chi_doc_eq (quad_mu p lg i) (mu0_s p) Q1 Q2 Q3), (chi_0 (quad_mu p lg i) (mu0_s p) Q1 Q2 Q3).
    rewrite !Rmult_0_r, !Rplus_0_r. rewrite <- (one_mode (nmodes p) (v i) (p_phi0 p) phi (nmodes_pos p V)).
    apply rsum_ext. intros m Hm. rewrite (HT v Hv m i Hm Hi). reflexivity.
  Qed.
  Theorem nt_bottom f v : nt_is p u false f -> bc_values (p_bpos p) (half p) v -> p_BDRF p = [] -> fwd p (nlayers p - 1) <> 1 ->
    forall i phi, (i < half p)%nat -> f i (bottom p) phi = v i.
  Proof.
    intros Hf Hv HB F1 i phi Hi. destruct nt_solution as (w & U & G & W & HW & HM & HS & HU & _ & HT & HG & HGn & HW2 & HWc & HN).
    pose proof Vp as V. assert (Hi2 : (i < streams p)%nat) by (rewrite (streams_eq p V); lia).
    assert (R0 : 0 <= bottom p <= bottom p) by (pose proof (bottom_nonneg p lg la jk out Hok); lra).
    assert (E0 : lay p (bottom p) = (nlayers p - 1)%nat).
    { pose proof (v_ne p V) as Hn. change (1 <= nlayers p)%nat in Hn. pose proof (v_inc p V (nlayers p - 1) ltac:(unfold nlayers in *; lia)) as Hi1.
      rewrite (bottom_eq p). apply lay_open; [lia|lra]. }
    rewrite (nt_is_ext false _ _ Hf HN _ (bottom p) phi Hi2 R0) by (rewrite E0; auto).
    destruct (HG) as (_ & _ & HG0). destruct (HG0 i phi Hi) as [_ ->]. destruct (HW2 i (bottom p) phi Hi R0) as [-> _].
    rewrite Rmult_0_r, !Rplus_0_r. rewrite <- (one_mode (nmodes p) (v i) (p_phi0 p) phi (nmodes_pos p V)).
    apply rsum_ext. intros m Hm. rewrite (HT v (fun _ _ _ => 0) Hv); [|rewrite HB; cbn; lia|exact Hm|exact Hi].
    rewrite HB. cbn [length Nat.ltb Nat.leb]. rewrite Rplus_0_r. reflexivity.
  Qed.
  Theorem nt_second : exists f W, nt_is p u false (fun i t phi => f i t phi + W i t phi) /\ second_order p (po_mu out) W /\
    (forall i phi, (i < streams p)%nat -> W i 0 phi = 0) /\
    (exists U G, modes_of p out U /\ forall i t phi, f i t phi =
       rsum (nmodes p) (fun m => U m i t * cos (INR m * (p_phi0 p - phi))) + missing p (lay p t) (nu i) phi * G i t).
  Proof.
    destruct nt_solution as (w & U & G & W & HW & HM & HS & HU & HT & _ & HG & HGn & HW2 & HWc & HN). eexists _, W. split; [exact HN|]. split; [exact HW2|].
    split; [|exists U, G; split; [exact HM|reflexivity]].
    pose proof Vp as V. intros i phi Hi. assert (R0 : 0 <= 0 <= bottom p) by (pose proof (bottom_nonneg p lg la jk out Hok); lra).
    rewrite (streams_eq p V) in Hi. destruct (lt_dec i (half p)) as [L|L]; [exact (proj1 (HW2 i 0 phi L R0))|].
    replace i with (half p + (i - half p))%nat by lia. set (j := (i - half p)%nat). assert (Hj : (j < half p)%nat) by (unfold j; lia).
    destruct (HW2 j 0 phi Hj R0) as [_ ->].
    assert (Q1 : 0 < quad_mu p lg j) by apply (mu_pos p lg Hlg j Hj). assert (Q2 : 0 < mu0_s p) by apply (mu0_s_pos p V lg HF').
    assert (Q3 : quad_mu p lg j <> mu0_s p) by (rewrite <- (nu_low p lg j Hj); apply HF'; auto).
    rewrite mu_eq, (nu_low p lg j Hj), (chi_doc_eq (quad_mu p lg j) (mu0_s p) Q1 Q2 Q3), (chi_0 (quad_mu p lg j) (mu0_s p) Q1 Q2 Q3). ring.
  Qed.
End Call.
