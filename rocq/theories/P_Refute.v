(** Accepted arguments for which a call does not do what its documentation says, and what it
    does instead. *)
From Coq Require Import String Reals Lra Lia List Bool Arith ZArith.
From Coquelicot Require Import Coquelicot.
From Verif Require Import Base Tensor Spec M_LinAlg Spec_RTE Calc M_Subroutines M_GenPart M_MathscrV M_Coeffs M_Assemble M_Pydisort
  P_Sub P_Sub3 P_GenPart P_GenPart3 P_Tensor P_Coeffs P_Coeffs2 P_Coeffs3 P_Assemble P_Solve
  Spec_Sol Spec_Valid Spec_Calls P_Valid P_Pydisort P_Pydisort2 P_Pydisort3 P_Pydisort4 P_Pydisort5 P_Whole P_Actinic P_Absorb Examples.
Import ListNotations.
Local Open Scope R_scope.

(** ** Sources without a positive value *)
Lemma no_source_r p ss r : valid p -> ~ some_source p -> rescale p ss = Ok r -> r = 0.
Proof.
  intros V Hn Hr. assert (HI : p_I0 p = 0). { pose proof (v_I0 p V). destruct (Rle_lt_or_eq_dec _ _ H); [|lra]. exfalso. apply Hn. left. auto. }
  assert (Hi : has_iso p = false).
  { apply not_true_is_false. intros E. apply has_iso_iff in E. apply Hn. right. right. destruct E as (i & j & ?). exists i, j. tauto. }
  assert (X : forall b x, b = p_bpos p \/ b = p_bneg p -> tmax (norm_b b) = Ok x -> x <= 0).
  { intros b x Hb E. apply (tmax_le (norm_b b) x 0 E). intros idx Hx. destruct (norm_b_or b) as [[-> _]|Eb]; [cbn; lra|]. rewrite Eb in *.
    apply Rnot_lt_le. intros H. apply Hn. right. left. exists b, idx. auto. }
  unfold rescale in Hr. apply bind_Ok in Hr as (mp & Ep & Hr). apply bind_Ok in Hr as (mn & En & Hr). rewrite Hi, HI in Hr.
  pose proof (X _ _ (or_introl eq_refl) Ep). pose proof (X _ _ (or_intror eq_refl) En).
  assert (E := f_equal (fun x => match x with Ok r => r | _ => 0 end) Hr). cbn beta iota in E. rewrite <- E. apply Rle_antisym.
  - apply lmax_le. intros y [<-|[<-|[<-|[]]]]; lra.
  - apply P_Valid.lmax_ge. left. reflexivity.
Qed.
Theorem no_source_zero p lg la jk out : linalg_ok la -> leggauss_ok (half p) (lg (half p)) -> pydisort p lg la jk = Ok out ->
  ~ some_source p -> forall U, modes_of p out U -> forall m i t, seen p m -> (i < streams p)%nat -> 0 <= t <= bottom p -> U m i t = 0.
Proof.
  intros Hla Hlg Hok Hn U HU m i t [Hm Hs] Hi Ht.
  destruct (call_Umode p lg la jk out Hla Hlg Hok) as (ss & r & sv & _ & Hr & _ & HW).
  rewrite (modes_unique p lg la jk out Hok U _ HU HW m i t Hm Hs Hi Ht). unfold Umode.
  rewrite (no_source_r p ss r (call_valid _ _ _ _ _ Hok) Hn Hr). ring.
Qed.

(** ** Two streams and nothing that scatters after delta-M scaling *)
Definition p_abs (tau om f : list R) (g0 I0 bp bn : R) (s : list R) (NT : bool) : py_in := {|
  p_tau := tau; p_omega := om; p_NQuad := 2; p_Leg := mkA2 (length tau) 3 (fun _ k => match k with 0%nat => g0 | _ => 1/10 end);
  p_mu0 := 1/4; p_I0 := I0; p_phi0 := 0; p_NLeg := None; p_NFourier := None;
  p_bpos := t0 bp; p_bneg := t0 bn; p_only_flux := false; p_f := f; p_NT := NT;
  p_BDRF := []; p_s := mkA2 (length tau) (length s) (fun _ j => nth j s 0); p_banded := 3; p_autograd := false |}.
Section Abs.
  Variables (tau om f : list R) (g0 I0 bp bn : R) (s : list R) (NT : bool).
  Let p := p_abs tau om f g0 I0 bp bn s NT.
  Hypothesis Hne : (1 <= length tau)%nat.
  Hypothesis Hinc : forall l, (l < length tau)%nat -> top_of p l < bot_of p l.
  Hypothesis Hom : length om = length tau /\ forall w, In w om -> 0 <= w < 1.
  Hypothesis Hf : length f = length tau /\ forall x, In x f -> 0 <= x <= 1.
  Hypothesis HI : 0 <= I0.

  Lemma abs_top l : (l <= length tau)%nat -> 0 <= top_of p l.
  Proof.
    induction l as [|l IH]; intros Hl; [cbn; lra|]. change (top_of p (S l)) with (bot_of p l). pose proof (Hinc l ltac:(lia)). specialize (IH ltac:(lia)). lra.
  Qed.
  Lemma abs_valid : valid p.
  Proof.
    destruct Hom as [Ho1 Ho2]. destruct Hf as [Hf1 Hf2].
    constructor; cbn -[Rlt Rle PI map nth top_of bot_of]; auto; try lra; try lia.
    - intros l Hl. pose proof (Hinc l Hl). pose proof (abs_top l ltac:(cbn in Hl; lia)). lra.
    - intros l [|k] _ Hk; [lia|]. lra.
    - pose proof PI_RGT_0. intros _. lra.
    - right. left. reflexivity.
    - right. left. reflexivity.
  Qed.
  Lemma abs_ok jk : (forall l, (l < length tau)%nat -> albedo p l = 0 \/ fwd p l = 1) ->
    ((exists j, (j < length s)%nat /\ nth j s 0 <> 0) -> 0 < I0 \/ 0 < bp \/ 0 < bn) ->
    exists out, pydisort p lg_12 la_id jk = Ok out.
  Proof.
    intros Ha Hs. apply absorbing_ok; auto.
    - apply abs_valid.
    - exact leggauss1_ok.
    - apply la_id_complete.
    - exists (fun _ => bp). apply bc_scal; auto.
    - exists (fun _ => bn). apply bc_scal; auto.
    - intros m Hm. cbn in Hm. lia.
    - intros (i & j & _ & Hj & Hn). cbn in Hj, Hn. destruct Hs as [H|[H|H]]; [eauto|left; exact H|right; left|right; right]; exists []; cbn; auto.
    - intros _ x Hx. cbn in Hx. destruct Hx as [<-|[]]. unfold transform_interval. cbn. rewrite Rabs_right; lra.
  Qed.
End Abs.

(** A negative boundary source and nothing else: all intensities are returned as 0. *)
Definition p_neg : py_in := p_abs [1] [0] [0] 1 0 0 (-1) [] false.
Lemma p_neg_ok jk : exists out, pydisort p_neg lg_12 la_id jk = Ok out.
Proof.
  apply abs_ok; cbn; try lra; try lia; auto.
  - intros [|l] Hl; cbn; [lra|lia].
  - split; auto. intros w [<-|[]]. lra.
  - split; auto. intros w [<-|[]]. lra.
  - intros [|l] Hl; [left; reflexivity|lia].
  - intros (j & Hj & _). lia.
Qed.
Lemma p_neg_nosource : ~ some_source p_neg.
Proof.
  intros [H|[(b & idx & Hb & Hi & H)|(l & j & _ & Hj & _)]]; cbn in *; [lra| |lia].
  destruct Hb as [-> | ->]; cbn in H; lra.
Qed.
Theorem negative_source_lost jk : exists p lg la out v, linalg_ok la /\ leggauss_ok (half p) (lg (half p)) /\ pydisort p lg la jk = Ok out /\
  bc_values (p_bneg p) (half p) v /\ v 0%nat = -1 /\
  (forall U, modes_of p out U -> U 0%nat (half p) 0 = 0) /\ (exists U, modes_of p out U).
Proof.
  destruct (p_neg_ok jk) as (out & H). exists p_neg, lg_12, la_id, out, (fun _ => -1).
  split; [exact la_id_ok|]. split; [exact leggauss1_ok|]. split; [exact H|]. split; [apply bc_scal; auto|]. split; [reflexivity|]. split.
  - intros U HU. apply (no_source_zero p_neg lg_12 la_id jk out la_id_ok leggauss1_ok H p_neg_nosource U HU).
    + split; [cbn; lia|]. left. reflexivity.
    + cbn. lia.
    + cbn. lra.
  - destruct (call_Umode p_neg lg_12 la_id jk out la_id_ok leggauss1_ok H) as (ss & r & sv & _ & _ & _ & HW). eauto.
Qed.

(** ** Division by zero *)
(** An isotropic source that vanishes at the top and at the bottom and no other source. *)
Definition p_div0 : py_in := p_abs [1] [0] [0] 1 0 0 0 [0; 1; -1] false.
Lemma p_div0_valid : valid p_div0.
Proof.
  apply abs_valid; cbn; try lra; try lia; auto.
  - intros [|l] Hl; cbn; [lra|lia].
  - split; auto. intros w [<-|[]]. lra.
  - split; auto. intros w [<-|[]]. lra.
Qed.
Theorem rescale_divides_by_zero lg la jk : pydisort p_div0 lg la jk = Err ENonFinite.
Proof.
  unfold pydisort. rewrite (proj2 (validate_iff _) p_div0_valid). cbn [bind].
  assert (E1 : NT_angle_ok p_div0 lg = true) by reflexivity. rewrite E1. cbn [check bind].
  assert (Hi : has_iso p_div0 = true). { apply has_iso_iff. exists 0%nat, 1%nat. cbn. repeat split; try lia. lra. }
  assert (Hd : delta_M p_div0 = false) by (unfold delta_M; cbn -[Rltb]; rewrite Rltb_f by lra; reflexivity).
  unfold scaled_s. rewrite Hi, Hd. cbn [bind]. unfold rescale. rewrite Hi.
  assert (Eb : norm_b (t0 0) = t0 0) by (unfold norm_b; destruct (all0 (t0 0)); reflexivity).
  unfold e_bpos, e_bneg. change (p_bpos p_div0) with (t0 0). change (p_bneg p_div0) with (t0 0). rewrite Eb. change (tmax (t0 0)) with (Ok 0). cbn [bind].
  change (p_I0 p_div0) with 0. unfold e_Ns. unfold has_iso, e_Ns in Hi. destruct (forall2b _ _ _); [discriminate|].
  unfold scaled_tau0. rewrite Hd. cbn -[Reqb Rmax Rmult pow].
  unfold omega_at, tau_at. cbn -[Reqb Rmax Rmult pow].
  replace (0 * (1 - 0)) with 0 by ring. replace (0 + 0 * 1 ^ 0 + 1 * (1 - 0) * 1 ^ 1 + -1 * (1 - 0) * 1 ^ 2) with 0 by ring.
  rewrite !(Rmax_left 0 0) by lra. rewrite Reqb_refl. reflexivity.
Qed.

(** A layer with forward fraction 1 (accepted) when the corrections take part. *)
Section NT1.
  Variable p : py_in.
  Variables (lg : leggauss_t) (la : linalg) (jk : junk) (out : py_out).
  Hypothesis Hla : linalg_ok la.
  Hypothesis Hlg : leggauss_ok (half p) (lg (half p)).
  Hypothesis Hok : pydisort p lg la jk = Ok out.
  Theorem nt_divides_by_zero u tau phi t : nt_applies p -> po_u out = Some u -> depths_ok p tau -> In t tau -> fwd p (lay p t) = 1 ->
    u tau phi false false false = Err ENonFinite.
  Proof.
    intros Hn Hu Ht Hin Hf. destruct (pydisort_parts _ _ _ _ _ Hok) as (V & ss & r & sv & Hss & Hr & Hsv & Emu & Eup & Edn & Eu0 & Eu).
    rewrite Hu in Eu. destruct Hn as (Hn1 & Hn2 & Hn). rewrite Hn2 in Eu.
    assert (EN : NT_active p = true) by (apply NT_iff; split; auto). rewrite EN in Eu. injection Eu as ->.
    set (a := assemble_args p lg r ss) in *. pose proof (a_good p V lg Hlg ss r) as Ha. fold a in Ha.
    unfold u_corrected, cl_u, tau_check.
    assert (HR : in_range a tau = true) by (apply in_range_iff; exact Ht). rewrite HR. cbn [check bind].
    destruct (um_all_val a sv (g_NL a Ha) (g_len a Ha) (HKne p V lg Hlg ss r la Hla jk sv Hsv) tau Ht (g_NF a Ha)) as (C & HC & SC & EC).
    rewrite HC. cbn [bind orb app ret].
    assert (E : NT_corrections p lg a tau phi false (layers a tau) = Err ENonFinite).
    { unfold NT_corrections, TMS_correction. destruct tau as [|t1 tau']; [destruct Hin|]. cbn [layers map].
      replace (existsb _ _) with true; [reflexivity|]. symmetry. apply existsb_exists. exists (layer_of a t). split.
      - change (In (layer_of a t) (map (layer_of a) (t1 :: tau'))). apply in_map. exact Hin.
      - assert (El : layer_of a t = lay p t). { apply (layer_of_lay p V lg r ss Hlg t). apply Ht; auto. }
        rewrite El. change (f_at p (lay p t)) with (fwd p (lay p t)). rewrite Hf. apply Reqb_iff. ring. }
    cbn [a assemble_args a_iso]. destruct (has_iso p); cbn [length Nat.sub nth]; rewrite E; reflexivity.
  Qed.
End NT1.

(** ** Boundary sources given as a matrix *)
Lemma ok_bc_values p lg la jk out : leggauss_ok (half p) (lg (half p)) -> pydisort p lg la jk = Ok out ->
  (exists v, bc_values (p_bneg p) (half p) v) /\ (exists v, bc_values (p_bpos p) (half p) v).
Proof.
  intros Hlg Hok. destruct (pydisort_parts _ _ _ _ _ Hok) as (V & ss & r & sv & Hss & Hr & Hsv & _).
  destruct (solve_parts _ (a_good p V lg Hlg ss r) la jk sv Hsv) as (o & Ho & _ & _ & _ & _ & HC).
  destruct (HC 0%nat) as (C & EC & _). { exact (g_NF _ (a_good p V lg Hlg ss r)). }
  unfold mode_coeffs in EC. apply bind_Ok in EC as (bd & _ & EC). apply bind_Ok in EC as (rr & EC & _).
  unfold mode_rhs in EC. apply bind_Ok in EC as (r0 & EC & _). unfold rhs_bc in EC. apply bind_Ok in EC as (bn & En & EC). apply bind_Ok in EC as (bp & Ep & _).
  split.
  - pose proof (b_mode_values p V (sc_of (assemble_args p lg r ss) o) eq_refl (p_bneg p) (v_bneg p V) (divisor r) 0 bn En) as (v & Hv & _). eauto.
  - pose proof (b_mode_values p V (sc_of (assemble_args p lg r ss) o) eq_refl (p_bpos p) (v_bpos p V) (divisor r) 0 bp Ep) as (v & Hv & _). eauto.
Qed.
Theorem matrix_boundary_fails p lg la jk b n : leggauss_ok (half p) (lg (half p)) -> (b = p_bpos p \/ b = p_bneg p) ->
  (2 <= half p)%nat -> shp b = [half p; n] -> (exists idx, inb (shp b) idx /\ elt b idx <> 0) ->
  forall out, pydisort p lg la jk <> Ok out.
Proof.
  intros Hlg Hb Hh Hs (idx & Hi & Hne) out Hok. destruct (ok_bc_values p lg la jk out Hlg Hok) as [H1 H2].
  assert (X : exists v, bc_values b (half p) v) by (destruct Hb as [-> | ->]; auto). destruct X as (v & Hv).
  destruct Hv as [Z _|S _|S _|S _|k S _ _]; try (rewrite Hs in S; discriminate).
  - apply Hne, Z, Hi.
  - rewrite Hs in S. injection S as E _. lia.
Qed.
(** When such a call succeeds the columns of the matrix are the prescribed modes. *)
Lemma matrix_values p lg la jk out b : leggauss_ok (half p) (lg (half p)) -> pydisort p lg la jk = Ok out -> (b = p_bpos p \/ b = p_bneg p) ->
  shp b = [half p; nmodes p] -> exists v, bc_values b (half p) v /\
    forall m i, (m < nmodes p)%nat -> (i < half p)%nat -> (if Nat.eqb m 0 then v i else 0) = elt b [i; m].
Proof.
  intros Hlg Hok Hb Hs. destruct (ok_bc_values p lg la jk out Hlg Hok) as [H1 H2]. pose proof (half_pos p (call_valid _ _ _ _ _ Hok)) as Hh.
  pose proof (nmodes_pos p (call_valid _ _ _ _ _ Hok)) as Hp.
  assert (X : exists v, bc_values b (half p) v) by (destruct Hb as [-> | ->]; auto). destruct X as (v & Hv). exists v. split; [exact Hv|].
  intros m i Hm Hi. destruct Hv as [Z Hz|S _|S _|S _|k S Hk Hz]; try (rewrite Hs in S; discriminate).
  - rewrite Hz, Z by (rewrite Hs; cbn; auto). destruct (Nat.eqb m 0); reflexivity.
  - rewrite Hs in S. injection S as E1 E2. assert (nmodes p = 1%nat) by (destruct Hk; lia). assert (m = 0%nat) as -> by lia. cbn [Nat.eqb].
    rewrite Hz by auto. assert (i = 0%nat) as -> by lia. f_equal. f_equal. unfold bi. destruct (Nat.eqb k 1); reflexivity.
Qed.
Definition p_mat : py_in := {|
  p_tau := [1]; p_omega := [1/2]; p_NQuad := 4; p_Leg := mkA2 1 4 (fun _ k => match k with 0%nat => 1 | _ => 1/10 end);
  p_mu0 := 1/4; p_I0 := 1; p_phi0 := 0; p_NLeg := None; p_NFourier := Some 2%Z;
  p_bpos := t0 0; p_bneg := mkT [2%nat; 2%nat] (fun _ => 1); p_only_flux := false; p_f := [0]; p_NT := false;
  p_BDRF := []; p_s := mkA2 1 1 (fun _ _ => 0); p_banded := 3; p_autograd := false |}.
Lemma p_mat_valid : valid p_mat.
Proof.
  constructor; cbn -[Rlt Rle PI map nth top_of bot_of]; auto; try lra; try lia.
  - intros [|l] Hl; cbn; [lra|lia].
  - intros [|l] Hl; cbn; [lra|lia].
  - intros w [<-|[]]. lra.
  - intros l [|k] _ Hk; [lia|]. lra.
  - pose proof PI_RGT_0. lra.
  - right. left. reflexivity.
  - right. right. exists 2%nat, [2%nat]. split; [reflexivity|right; reflexivity].
  - intros x [<-|[]]. lra.
Qed.

(** ** The caller's array of Legendre coefficients *)
Lemma leg_unchanged p lg la jk out : pydisort p lg la jk = Ok out ->
  nrow (po_Leg out) = nrow (p_Leg p) /\ ncol (po_Leg out) = ncol (p_Leg p) /\
  (forall l k, (1 <= k)%nat -> at2 (po_Leg out) l k = at2 (p_Leg p) l k) /\
  ((forall l, (l < nlayers p)%nat -> albedo p l = 0 \/ at2 (p_Leg p) l 0%nat = 1) -> po_Leg out = p_Leg p).
Proof.
  intros H. rewrite (po_Leg_eq lg la p jk out H). cbn [nrow ncol at2]. split; [reflexivity|]. split; [reflexivity|].
  assert (E : forall l k, (1 <= k)%nat -> Leg_all p l k = at2 (p_Leg p) l k).
  { intros l [|k] Hk; [lia|]. unfold Leg_all. destruct (leg0_bad p); reflexivity. }
  split; [exact E|]. intros Hl. unfold Leg_all. destruct (leg0_bad p) eqn:Eb; [|destruct (p_Leg p); reflexivity]. exfalso.
  unfold leg0_bad in Eb. apply negb_true_iff in Eb. rewrite <- not_true_iff_false in Eb. apply Eb. apply forallb_forall. intros l Hi. apply in_seq in Hi.
  apply Reqb_iff. change (omega_at p l) with (albedo p l). destruct (Hl l ltac:(unfold nlayers, pNL in *; lia)) as [-> | ->]; ring.
Qed.
Definition p_leg : py_in := p_abs [1] [1/2] [1] (1/2) 1 0 0 [] false.
Lemma p_leg_ok jk : exists out, pydisort p_leg lg_12 la_id jk = Ok out.
Proof.
  apply abs_ok; cbn; try lra; try lia; auto.
  - intros [|l] Hl; cbn; [lra|lia].
  - split; auto. intros w [<-|[]]. lra.
  - split; auto. intros w [<-|[]]. lra.
  - intros [|l] Hl; [right; reflexivity|lia].
Qed.
Theorem leg_overwritten jk : exists p lg la out, linalg_ok la /\ leggauss_ok (half p) (lg (half p)) /\ pydisort p lg la jk = Ok out /\
  at2 (p_Leg p) 0%nat 0%nat = 1/2 /\ at2 (po_Leg out) 0%nat 0%nat = 1.
Proof.
  destruct (p_leg_ok jk) as (out & H). exists p_leg, lg_12, la_id, out. split; [exact la_id_ok|]. split; [exact leggauss1_ok|]. split; [exact H|].
  split; [reflexivity|]. rewrite (po_Leg_eq _ _ _ _ _ H). cbn [at2]. unfold Leg_all.
  replace (leg0_bad p_leg) with true; [reflexivity|]. symmetry. unfold leg0_bad, omega_at. cbn -[Reqb]. rewrite Reqb_f by lra. reflexivity.
Qed.
