(** Layer lookup, scaled depth and the arrays behind the returned functions. *)
From Coq Require Import String Reals Lra Lia List Bool Arith ZArith.
From Coquelicot Require Import Coquelicot.
From Verif Require Import Base Tensor Spec M_LinAlg Spec_RTE Calc M_Subroutines M_GenPart M_MathscrV M_Coeffs M_Assemble
  P_GenPart P_Tensor P_MathscrV P_Coeffs P_Coeffs2.
Import ListNotations.
Local Open Scope R_scope.

(** ** np.unique *)
Lemma index_of_nth i u : In i u -> nth (index_of i u) u 0%nat = i /\ (index_of i u < length u)%nat.
Proof.
  induction u as [|x u IH]; intros H; [destruct H|]. cbn. destruct (Nat.eqb_spec x i) as [->|Hne]; [split; [auto|lia]|].
  destruct H as [->|H]; [tauto|]. destruct (IH H). split; auto. lia.
Qed.
Lemma uniq_In n l i : (forall j, In j l -> (j < n)%nat) -> In i (uniq n l) <-> In i l.
Proof.
  intros Hb. unfold uniq. rewrite filter_In, existsb_exists. split.
  - intros [_ (x & Hx & E)]. apply Nat.eqb_eq in E. subst; auto.
  - intros H. split; [apply in_seq; specialize (Hb i H); lia|]. exists i. split; auto. apply Nat.eqb_refl.
Qed.
Lemma uniq_lt n l i : In i (uniq n l) -> (i < n)%nat.
Proof. unfold uniq. rewrite filter_In. intros [H _]. apply in_seq in H. lia. Qed.
Lemma uniq_inv_len n l : length (uniq_inv n l) = length l.
Proof. unfold uniq_inv. apply map_length. Qed.
Lemma uniq_inv_nth n l t : (forall j, In j l -> (j < n)%nat) -> (t < length l)%nat ->
  nth (nth t (uniq_inv n l) 0%nat) (uniq n l) 0%nat = nth t l 0%nat.
Proof.
  intros Hb Ht. unfold uniq_inv. rewrite (nth_map_d _ _ _ 0%nat) by auto.
  apply index_of_nth. apply uniq_In; auto. apply nth_In; auto.
Qed.
Lemma uniq_inv_lt n l i : (forall j, In j l -> (j < n)%nat) -> In i (uniq_inv n l) -> (i < length (uniq n l))%nat.
Proof.
  intros Hb. unfold uniq_inv. rewrite in_map_iff. intros (x & <- & Hx). apply index_of_nth. apply uniq_In; auto.
Qed.

(** ** Layers *)
Section Geo.
  Variable a : as_in.
  Let NL := a_NLayers a.
  Definition lay_top (l : nat) : R := match l with O => 0 | S k => nth k (a_tau a) 0 end.
  Definition lay_bot (l : nat) : R := nth l (a_tau a) 0.
  Definition tau_bot : R := last (a_tau a) 0.

  Hypothesis HNL : (1 <= NL)%nat.
  Hypothesis Hlen : length (a_tau a) = NL.
  Hypothesis Hinc : forall l, (l < NL)%nat -> lay_top l < lay_bot l.

  Lemma last_nth (l : list R) : last l 0 = nth (length l - 1) l 0.
  Proof.
    induction l as [|x l IH]; auto. destruct l; auto.
    change (last (x :: r :: l) 0) with (last (r :: l) 0). rewrite IH. cbn [length]. cbn. rewrite Nat.sub_0_r. reflexivity.
  Qed.
  Lemma tau_bot_eq : tau_bot = lay_bot (NL - 1).
  Proof. unfold tau_bot, lay_bot. rewrite last_nth, Hlen. reflexivity. Qed.

  Lemma lay_top_S l : lay_top (S l) = lay_bot l. Proof. reflexivity. Qed.
  Lemma lay_bot_mono i j : (i < j < NL)%nat -> lay_bot i < lay_bot j.
  Proof.
    intros [H1 H2]. induction j; [lia|]. specialize (Hinc (S j) H2) as H. rewrite lay_top_S in H.
    destruct (Nat.eq_dec i j) as [->|]; auto. apply Rlt_trans with (lay_bot j); auto. apply IHj; lia.
  Qed.
  Lemma lay_bot_le i j : (i <= j < NL)%nat -> lay_bot i <= lay_bot j.
  Proof. intros H. destruct (Nat.eq_dec i j) as [->|]; [lra|]. left. apply lay_bot_mono; lia. Qed.
  Lemma lay_bot_pos l : (l < NL)%nat -> 0 < lay_bot l.
  Proof.
    intros H. apply Rlt_le_trans with (lay_bot 0); [apply (Hinc 0); lia|]. apply lay_bot_le; lia.
  Qed.
  Lemma lay_top_nonneg l : (l < NL)%nat -> 0 <= lay_top l.
  Proof. intros H. destruct l; cbn; [lra|]. left. apply (lay_bot_pos l). lia. Qed.

  Lemma layer_of_iff t l : (l < NL)%nat -> t <= tau_bot ->
    (layer_of a t = l <-> t <= lay_bot l /\ forall j, (j < l)%nat -> lay_bot j < t).
  Proof.
    intros Hl Ht. unfold layer_of, argmax_bool.
    set (f := fun b => Rleb t b).
    assert (Hn : forall j, (j < NL)%nat -> nth j (map f (a_tau a)) false = Rleb t (lay_bot j)).
    { intros j Hj. rewrite (nth_map_d _ _ _ 0) by lia. reflexivity. }
    destruct (first_true (map f (a_tau a))) as [i|] eqn:E.
    - apply first_true_Some in E. rewrite map_length, Hlen in E. destruct E as (E1 & E2 & E3).
      rewrite Hn in E2 by auto. apply Rleb_iff in E2.
      assert (E3' : forall j, (j < i)%nat -> lay_bot j < t).
      { intros j Hj. specialize (E3 j Hj). rewrite Hn in E3 by lia. apply Rleb_false; auto. }
      split; [intros <-; auto|]. intros [H1 H2].
      destruct (Nat.lt_trichotomy i l) as [H|[H|H]]; auto.
      + specialize (H2 i H). lra.
      + specialize (E3' l H). lra.
    - exfalso. apply first_true_None with (i := (NL - 1)%nat) in E; [|rewrite map_length; lia].
      rewrite Hn in E by lia. apply Rleb_false in E. rewrite tau_bot_eq in Ht. lra.
  Qed.

  Lemma layer_of_total t : t <= tau_bot -> exists l, (l < NL)%nat /\ layer_of a t = l.
  Proof.
    intros Ht. exists (layer_of a t). split; auto. unfold layer_of, argmax_bool.
    destruct (first_true _) as [i|] eqn:E; [|lia]. apply first_true_Some in E. rewrite map_length in E. lia.
  Qed.
  Lemma layer_of_lt t : t <= tau_bot -> (layer_of a t < NL)%nat.
  Proof. intros Ht. destruct (layer_of_total t Ht) as (l & H & <-). auto. Qed.

  (** The half-open interval characterisation. *)
  Lemma layer_of_spec t l : 0 <= t <= tau_bot -> (l < NL)%nat ->
    (layer_of a t = l <-> (lay_top l < t \/ (l = 0%nat /\ t = 0)) /\ t <= lay_bot l).
  Proof.
    intros [H0 H1] Hl. rewrite layer_of_iff by auto. split.
    - intros [A B]. split; auto. destruct l; [destruct H0; [left; auto|right; auto]|]. left. apply (B l). lia.
    - intros [A B]. split; auto. intros j Hj. destruct A as [A|[-> _]]; [|lia].
      destruct l; [lia|]. apply Rle_lt_trans with (lay_bot l); auto. apply lay_bot_le. lia.
  Qed.
  Lemma layer_of_bounds t : 0 <= t <= tau_bot -> lay_top (layer_of a t) <= t <= lay_bot (layer_of a t).
  Proof.
    intros H. destruct (proj1 (layer_of_spec t _ H (layer_of_lt t (proj2 H))) eq_refl) as [[A|[A B]] C]; [lra|].
    rewrite A in *. cbn [lay_top]. lra.
  Qed.

  Lemma in_range_iff tau : in_range a tau = true <-> forall t, In t tau -> 0 <= t <= tau_bot.
  Proof.
    unfold in_range. rewrite negb_true_iff, orb_false_iff. split.
    - intros [A B] t Ht. split.
      + destruct (Rle_dec 0 t); auto. exfalso.
        assert (existsb (fun t => Rltb t 0) tau = true) by (apply existsb_exists; exists t; split; auto; apply Rltb_iff; lra). congruence.
      + destruct (Rle_dec t tau_bot); auto. exfalso.
        assert (existsb (fun t => Rltb (last (a_tau a) 0) t) tau = true)
          by (apply existsb_exists; exists t; split; auto; apply Rltb_iff; unfold tau_bot in *; lra). congruence.
    - intros H. split.
      + destruct (existsb _ tau) eqn:E; auto. apply existsb_exists in E as (t & Ht & E). apply Rltb_iff in E. specialize (H t Ht). lra.
      + destruct (existsb _ tau) eqn:E; auto. apply existsb_exists in E as (t & Ht & E). apply Rltb_iff in E. specialize (H t Ht).
        unfold tau_bot in H. lra.
  Qed.

  (** ** Scaled depth *)
  Hypothesis Hst0 : a_stau0 a 0%nat = 0.
  Hypothesis HstS : forall l, (l < NL)%nat -> a_stau0 a (S l) = a_stau0 a l + a_scale a l * (lay_bot l - lay_top l).

  Lemma stau0_unscaled : any_scaled a = false -> forall l, (l <= NL)%nat -> a_stau0 a l = lay_top l.
  Proof.
    intros H. assert (Hs : forall l, (l < NL)%nat -> a_scale a l = 1).
    { intros l Hl. unfold any_scaled in H. destruct (Req_EM_T (a_scale a l) 1) as [E|E]; auto. exfalso.
      assert (existsb (fun l => negb (Reqb (a_scale a l) 1)) (seq 0 (a_NLayers a)) = true).
      { apply existsb_exists. exists l. split; [apply in_seq; fold NL; lia|]. rewrite Reqb_f; auto. }
      congruence. }
    induction l; intros Hl; [cbn; auto|]. rewrite HstS, IHl, Hs by lia. rewrite lay_top_S. lra.
  Qed.
  (** Scaled depth relative to the top of the layer. *)
  Lemma scaled_of_eq t : t <= tau_bot ->
    scaled_of a t = a_stau0 a (layer_of a t) + a_scale a (layer_of a t) * (t - lay_top (layer_of a t)).
  Proof.
    intros Ht. pose proof (layer_of_lt t Ht) as Hl. unfold scaled_of. destruct (any_scaled a) eqn:E.
    - rewrite HstS by auto. change (nth (layer_of a t) (a_tau a) 0) with (lay_bot (layer_of a t)). ring.
    - rewrite stau0_unscaled by (auto; lia). destruct (Req_EM_T (a_scale a (layer_of a t)) 1) as [->|Hne]; [ring|].
      exfalso. assert (any_scaled a = true); [|congruence]. unfold any_scaled. apply existsb_exists.
      exists (layer_of a t). split; [apply in_seq; fold NL; lia|]. rewrite Reqb_f; auto.
  Qed.
End Geo.

(** ** The field of one mode *)
Section Field.
  Variable a : as_in.
  Variable sv : solved.
  Let N := a_N a.
  Let NQ := (2 * a_N a)%nat.
  Let NL := a_NLayers a.
  Let NF := a_NFourier a.

  Definition ref_top (l k : nat) : R := if Nat.ltb k N then a_stau0 a l else a_stau0 a (S l).
  Definition fld_hb (m l q : nat) (x : R) : R :=
    rsum NQ (fun k => sv_GC sv m l q k * exp (sv_K sv m l k * (x - ref_top l k)))
    + (if a_beam a then sv_B sv m l q * exp (- x / a_mu0 a) else 0).
  Definition fld_iso (l q : nat) (x : R) : R :=
    vsol NQ (a_Ns a) (a_s a l) (sv_G sv 0%nat l) (sv_K sv 0%nat l) (sv_gmi sv l) q x.
  Definition fld (m l q : nat) (x : R) : R :=
    fld_hb m l q x + (if (Nat.eqb m 0 && a_iso a)%bool then fld_iso l q x else 0).
  (** The mode at a depth of the user's axis. *)
  Definition mode_at (m q : nat) (t : R) : R := fld m (layer_of a t) q (scaled_of a t).

  Lemma hom_beam m q t : hom a sv false m q t + beam_part a sv false m q t = fld_hb m (layer_of a t) q (scaled_of a t).
  Proof.
    unfold hom, beam_part, fld_hb. cbv zeta. f_equal.
    apply rsum_ext. intros k Hk. unfold exponent, ref_top. cbv zeta. fold N. destruct (Nat.ltb k N); reflexivity.
  Qed.

  Hypothesis HNL : (1 <= NL)%nat.
  Hypothesis Hlen : length (a_tau a) = NL.
  Hypothesis HK : a_iso a = true -> forall l k, (l < NL)%nat -> (k < NQ)%nat -> sv_K sv 0%nat l k <> 0.
  Variable tau : list R.
  Hypothesis Htau : forall t, In t tau -> 0 <= t <= tau_bot a.
  Let nt := length tau.

  Lemma layers_lt i : In i (layers a tau) -> (i < NL)%nat.
  Proof. unfold layers. rewrite in_map_iff. intros (t & <- & Ht). apply layer_of_lt; auto. apply Htau; auto. Qed.
  Lemma layers_nth t : (t < nt)%nat -> nth t (layers a tau) 0%nat = layer_of a (nth t tau 0).
  Proof. intros H. unfold layers. rewrite (nth_map_d _ _ _ 0) by auto. reflexivity. Qed.
  Lemma staus_nth t : (t < nt)%nat -> nth t (scaled_taus a tau) 0 = scaled_of a (nth t tau 0).
  Proof. intros H. unfold scaled_taus. rewrite (nth_map_d _ _ _ 0) by auto. reflexivity. Qed.

  Lemma iso_part_val r0 nr : a_iso a = true ->
    exists C, iso_part a sv false r0 nr tau = Ok C /\
      T2 C nr nt (fun q t => fld_iso (layer_of a (nth t tau 0)) (r0 + q) (scaled_of a (nth t tau 0))).
  Proof.
    intros Hiso. unfold iso_part.
    match goal with |- exists C, mathscr_v _ _ ?n ?ta ?sc ?l _ ?s ?G ?K ?gm _ = _ /\ _ =>
      destruct (mathscr_v_sampled nr NQ n ta sc l (a_Ns a) s G K gm) as (C & HC & SC & EC) end.
    - rewrite uniq_inv_len. unfold layers, scaled_taus. rewrite !map_length. reflexivity.
    - intros i. apply uniq_inv_lt. exact layers_lt.
    - intros ll k Hll Hk. apply HK; auto. eapply uniq_lt. apply nth_In. exact Hll.
    - exists C. split; [exact HC|]. split; [rewrite SC; unfold scaled_taus; rewrite map_length; reflexivity|].
      assert (Ln : length (scaled_taus a tau) = nt) by (unfold scaled_taus; rewrite map_length; auto).
      intros q t Hq Ht. rewrite EC by (auto; rewrite Ln; auto). rewrite staus_nth by auto.
      rewrite uniq_inv_nth by (try exact layers_lt; unfold layers; rewrite map_length; auto).
      rewrite layers_nth by auto. reflexivity.
  Qed.

  Lemma mode_at_split m q t : mode_at m q t = fld_hb m (layer_of a t) q (scaled_of a t)
    + (if (Nat.eqb m 0 && a_iso a)%bool then fld_iso (layer_of a t) q (scaled_of a t) else 0).
  Proof. reflexivity. Qed.

  Lemma um_core_val : T3 (um_core a sv false tau) NF NQ nt (fun m q t => fld_hb m (layer_of a (nth t tau 0)) q (scaled_of a (nth t tau 0))).
  Proof. split; [reflexivity|]. intros m q t Hm Hq Ht. unfold um_core, at_tau. cbn [elt nth]. rewrite hom_beam. reflexivity. Qed.

  Hypothesis HNF : (1 <= NF)%nat.
  Theorem um_all_val : exists C, um_all a sv false tau = Ok C /\ T3 C NF NQ nt (fun m q t => mode_at m q (nth t tau 0)).
  Proof.
    unfold um_all. assert (Ei : a_iso a = true \/ a_iso a = false) by (destruct (a_iso a); auto).
    destruct Ei as [Ei|Ei]; rewrite Ei.
    2:{ eexists. split; [reflexivity|]. refine (T3_ext _ _ _ _ _ _ _ um_core_val). intros m q t _ _ _.
        unfold mode_at, fld. rewrite Ei, andb_false_r. ring. }
    destruct (iso_part_val 0 NQ Ei) as (v & Hv & Sv & Ev). fold NQ. rewrite Hv. cbn [bind].
    destruct um_core_val as [Su Eu]. unfold um_add. fold NF.
    destruct (Nat.eqb_spec NF 1) as [E1|E1].
    - unfold tadd. destruct (bcast2_32 Rplus (um_core a sv false tau) v NF NQ nt NQ nt NQ nt Su Sv (bc_same _) (bc_same _)) as (C & HC & SC & EC).
      rewrite HC. exists C. split; [reflexivity|]. split; [exact SC|]. intros m q t Hm Hq Ht.
      rewrite EC, !bi_lt by auto. rewrite Eu, Ev by auto. rewrite mode_at_split, Ei. replace m with 0%nat by lia. reflexivity.
    - destruct (a_autograd a).
      + set (s0 := tslice 0 0 1 (um_core a sv false tau)).
        assert (S0 : shp s0 = [1%nat; NQ; nt]) by reflexivity.
        unfold tadd. destruct (bcast2_32 Rplus s0 v 1 NQ nt NQ nt NQ nt S0 Sv (bc_same _) (bc_same _)) as (C & HC & SC & EC).
        rewrite HC. cbn [bind]. unfold tconcat. rewrite SC. cbn [tslice shp firstn skipn nth]. rewrite Su. cbn [firstn skipn nth].
        rewrite !list_eqb_refl. cbn [andb app]. eexists. split; [reflexivity|]. split; [cbn; f_equal; lia|].
        intros m q t Hm Hq Ht. cbn [elt nth]. destruct (Nat.ltb_spec m 1).
        * replace m with 0%nat by lia. rewrite EC, !bi_lt by (auto; lia). unfold s0, tslice; cbn [elt firstn nth skipn app].
          rewrite Eu, Ev by (auto; lia). rewrite mode_at_split, Ei. reflexivity.
        * unfold tslice; cbn [elt firstn nth skipn app]. replace (1 + (m - 1))%nat with m by lia. rewrite Eu by auto.
          rewrite mode_at_split. rewrite (proj2 (Nat.eqb_neq m 0)) by lia. cbn [andb]. ring.
      + unfold iop.
        set (s0 := mkT (tl (shp (um_core a sv false tau))) (fun idx => elt (um_core a sv false tau) (0%nat :: idx))).
        assert (T0' : T2 s0 NQ nt (fun q t => fld_hb 0 (layer_of a (nth t tau 0)) q (scaled_of a (nth t tau 0)))).
        { split; [reflexivity|]. intros q t Hq Ht. cbn [elt s0]. apply Eu; auto. }
        destruct (T2_op Rplus s0 v NQ nt _ _ T0' (conj Sv Ev)) as (C & HC & SC & EC).
        rewrite HC. cbn [bind]. rewrite SC, (proj1 T0'), list_eqb_refl. cbn [bind]. eexists. split; [reflexivity|].
        split; [exact Su|]. intros m q t Hm Hq Ht. cbn [elt]. destruct m.
        * rewrite EC by auto. rewrite mode_at_split, Ei. reflexivity.
        * rewrite Eu by auto. rewrite mode_at_split. cbn [Nat.eqb andb]. ring.
  Qed.

  Theorem u0_all_val : exists C, u0_all a sv false tau = Ok C /\ T2 C NQ nt (fun q t => mode_at 0 q (nth t tau 0)).
  Proof.
    unfold u0_all.
    assert (T : T2 (u0_core a sv false tau) NQ nt (fun q t => fld_hb 0 (layer_of a (nth t tau 0)) q (scaled_of a (nth t tau 0)))).
    { split; [reflexivity|]. intros q t Hq Ht. unfold u0_core, at_tau. cbn [elt nth andb]. rewrite hom_beam. reflexivity. }
    assert (Ei : a_iso a = true \/ a_iso a = false) by (destruct (a_iso a); auto).
    destruct Ei as [Ei|Ei]; rewrite Ei.
    - destruct (iso_part_val 0 NQ Ei) as (v & Hv & Tv). fold NQ. rewrite Hv. cbn [bind].
      destruct (T2_op Rplus _ v NQ nt _ _ T Tv) as (C & HC & TC). exists C. split; [exact HC|].
      refine (T2_ext _ _ _ _ _ _ TC). intros q t _ _. rewrite mode_at_split, Ei. reflexivity.
    - eexists. split; [reflexivity|]. refine (T2_ext _ _ _ _ _ _ T). intros q t _ _. rewrite mode_at_split, Ei. cbn [andb Nat.eqb]. ring.
  Qed.

  Lemma half_val r0 : 
    exists S, tadd (half_hom a sv r0 false tau) (if a_beam a then half_beam a sv r0 false tau else t0 0) = Ok S /\
      T2 S N nt (fun q t => fld_hb 0 (layer_of a (nth t tau 0)) (r0 + q) (scaled_of a (nth t tau 0))).
  Proof.
    assert (T : T2 (half_hom a sv r0 false tau) N nt (fun q t => hom a sv false 0 (r0 + q) (nth t tau 0))) by (split; reflexivity).
    destruct (a_beam a) eqn:Eb.
    - assert (Tb : T2 (half_beam a sv r0 false tau) N nt (fun q t => beam_part a sv false 0 (r0 + q) (nth t tau 0))) by (split; reflexivity).
      destruct (T2_op Rplus _ _ _ _ _ _ T Tb) as (C & HC & TC). exists C. split; [exact HC|].
      refine (T2_ext _ _ _ _ _ _ TC). intros q t _ _. apply hom_beam.
    - destruct T as [ST ET]. destruct (bcast2_20 Rplus (half_hom a sv r0 false tau) (t0 0) N nt ST eq_refl) as (C & HC & SC & EC).
      exists C. split; [exact HC|]. split; [exact SC|]. intros q t Hq Ht. rewrite EC, !bi_lt, ET by auto.
      rewrite <- hom_beam. unfold beam_part. rewrite Eb. reflexivity.
  Qed.

  Lemma add_v_val r0 S : (r0 + N <= NQ)%nat ->
    T2 S N nt (fun q t => fld_hb 0 (layer_of a (nth t tau 0)) (r0 + q) (scaled_of a (nth t tau 0))) ->
    exists v U, (if a_iso a then iso_part a sv false r0 N tau else Ok (t0 0)) = Ok v /\ tadd S v = Ok U /\
      T2 U N nt (fun q t => mode_at 0 (r0 + q) (nth t tau 0)).
  Proof.
    intros Hr T. assert (Ei : a_iso a = true \/ a_iso a = false) by (destruct (a_iso a); auto).
    destruct Ei as [Ei|Ei]; rewrite Ei.
    - destruct (iso_part_val r0 N Ei) as (v & Hv & Tv). exists v.
      destruct (T2_op Rplus _ _ _ _ _ _ T Tv) as (C & HC & TC). exists C. split; [exact Hv|]. split; [exact HC|].
      refine (T2_ext _ _ _ _ _ _ TC). intros q t _ _. rewrite mode_at_split, Ei. reflexivity.
    - destruct T as [ST ET]. destruct (bcast2_20 Rplus S (t0 0) N nt ST eq_refl) as (C & HC & SC & EC).
      exists (t0 0), C. split; [reflexivity|]. split; [exact HC|]. split; [exact SC|]. intros q t Hq Ht.
      rewrite EC, !bi_lt, ET by auto. rewrite mode_at_split, Ei. reflexivity.
  Qed.

  Theorem flux_up_val : exists C, flux_up_arr a sv false tau = Ok C /\
    T1 C nt (fun t => rsum N (fun i => 2 * PI * muW a i * mode_at 0 i (nth t tau 0))).
  Proof.
    unfold flux_up_arr. destruct (half_val 0) as (S & HS & TS). fold N.
    destruct (add_v_val 0 S ltac:(unfold NQ, N; lia) TS) as (v & U & Hv & HU & [SU EU]).
    rewrite Hv. cbn [bind]. rewrite HS. cbn [bind]. rewrite HU. cbn [bind]. unfold tvm. rewrite SU, Nat.eqb_refl.
    eexists. split; [reflexivity|]. split; [reflexivity|]. intros t Ht. cbn [elt hd]. apply rsum_ext. intros i Hi.
    rewrite EU by auto. reflexivity.
  Qed.

  (** Direct beam at a depth, unscaled and scaled. *)
  Definition dirb (t : R) : R := if a_beam a then a_I0 a * a_mu0 a * exp (- t / a_mu0 a) else 0.
  Definition dirb_s (t : R) : R := if a_beam a then a_I0 a * a_mu0 a * exp (- scaled_of a t / a_mu0 a) else 0.

  Theorem flux_down_val : exists C, flux_down_arr a sv false tau = Ok C /\
    T1 C nt (fun t => rsum N (fun i => 2 * PI * muW a i * mode_at 0 (N + i) (nth t tau 0)) + dirb_s (nth t tau 0) - dirb (nth t tau 0)).
  Proof.
    unfold flux_down_arr. destruct (half_val N) as (S & HS & TS). fold N.
    destruct (add_v_val N S ltac:(unfold NQ, N; lia) TS) as (v & U & Hv & HU & [SU EU]).
    rewrite Hv. cbn [bind].
    replace (if a_beam a then Ok (half_beam a sv N false tau) else Ok (t0 0))
      with (Ok (if a_beam a then half_beam a sv N false tau else t0 0)) by (destruct (a_beam a); reflexivity).
    cbn [bind]. rewrite HS. cbn [bind]. rewrite HU. cbn [bind]. unfold tvm. rewrite SU, Nat.eqb_refl. cbn [bind].
    match goal with |- context [tadd ?f _] => set (F := f) end.
    assert (TF : T1 F nt (fun t => rsum N (fun i => 2 * PI * muW a i * mode_at 0 (N + i) (nth t tau 0)))).
    { split; [reflexivity|]. intros t Ht. cbn [elt hd F]. apply rsum_ext. intros i Hi. rewrite EU by auto. reflexivity. }
    unfold direct_beam_scaled, direct_beam, dirb, dirb_s. destruct (a_beam a).
    - destruct (T1_op Rplus F _ nt _ _ TF (map_T1 tau (fun t => a_I0 a * a_mu0 a * exp (- scaled_of a t / a_mu0 a)))) as (C & HC & TC).
      unfold tadd. rewrite HC. cbn [bind].
      destruct (T1_op Rminus C _ nt _ _ TC (map_T1 tau (fun t => a_I0 a * a_mu0 a * exp (- t / a_mu0 a)))) as (D & HD & TD).
      exists D. split; [exact HD|]. exact TD.
    - destruct TF as [SF EF]. destruct (bcast2_10 Rplus F (t0 0) nt SF eq_refl) as (C & HC & SC & EC).
      unfold tadd. rewrite HC. cbn [bind].
      destruct (bcast2_10 Rminus C (t0 0) nt SC eq_refl) as (D & HD & SD & ED). exists D. split; [exact HD|].
      split; [exact SD|]. intros t Ht. rewrite ED, !bi_lt, EC, !bi_lt, EF by auto. cbn [elt t0]. ring.
  Qed.
End Field.
