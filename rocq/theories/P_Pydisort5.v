(** Whole-call statements: layers, scaled depth, rejected depths, fluxes, azimuth, energy. *)
From Coq Require Import String Reals Lra Lia List Bool Arith ZArith.
From Coquelicot Require Import Coquelicot.
From Verif Require Import Base Tensor Spec M_LinAlg Spec_RTE Calc M_Subroutines M_GenPart M_MathscrV M_Coeffs M_Assemble M_Pydisort
  P_Sub P_GenPart3 P_Tensor P_Coeffs2 P_Coeffs3 P_Assemble P_Solve Spec_Sol P_Valid P_Pydisort P_Pydisort2 P_Pydisort3 P_Pydisort4 P_Fourier P_Energy.
Import ListNotations.
Local Open Scope R_scope.

Lemma filter_count (L : list R) t : forall l, (l <= length L)%nat ->
  (forall k, (k < l)%nat -> nth k L 0 < t) -> (forall k, (l <= k < length L)%nat -> t <= nth k L 0) ->
  length (filter (fun b => Rltb b t) L) = l.
Proof.
  induction L as [|x L IH]; intros l Hl H1 H2; cbn in *; [lia|].
  destruct l as [|l].
  - replace (Rltb x t) with false by (symmetry; apply Rltb_false; exact (Rle_not_lt _ _ (H2 0%nat ltac:(lia))) || (specialize (H2 0%nat ltac:(lia)); cbn in H2; lra)).
    apply IH; [lia|intros; lia|]. intros k Hk. apply (H2 (S k)). lia.
  - rewrite (proj2 (Rltb_iff x t)) by exact (H1 0%nat ltac:(lia)). cbn. f_equal. apply IH; [lia| |].
    + intros k Hk. apply (H1 (S k)). lia.
    + intros k Hk. apply (H2 (S k)). lia.
Qed.

Section Lay.
  Variable p : py_in.
  Hypothesis V : valid p.
  Let NL := nlayers p.

  Lemma bots_mono j k : (j <= k)%nat -> (k < NL)%nat -> bot_of p j <= bot_of p k.
  Proof.
    intros Hjk Hk. induction Hjk as [|k Hjk IH]; [lra|]. specialize (IH ltac:(lia)).
    pose proof (v_inc p V (S k) Hk) as H. change (bot_of p k < bot_of p (S k)) in H. lra.
  Qed.
  Lemma lay_of_at t l : layer_at p t l -> lay p t = l.
  Proof.
    intros [Hl HH]. unfold lay. apply filter_count; [unfold nlayers in Hl; lia| |].
    - intros k Hk. change (bot_of p k < t). destruct HH as [[H _]|[-> _]]; [|lia].
      destruct l; [lia|]. cbn in H. apply Rle_lt_trans with (bot_of p l); [|exact H]. apply bots_mono; unfold NL, nlayers in *; lia.
    - intros k Hk. change (t <= bot_of p k). assert (H : t <= bot_of p l).
      { destruct HH as [[_ H]|[-> ->]]; [exact H|]. apply Rlt_le, (v_tau p V). exact Hl. }
      apply Rle_trans with (bot_of p l); auto. apply bots_mono; unfold NL, nlayers in *; lia.
  Qed.
  Lemma layer_at_ex t : 0 <= t <= bottom p -> exists l, layer_at p t l.
  Proof.
    intros Ht. pose proof (v_ne p V) as H1.
    assert (G : forall n, (n <= NL)%nat -> (exists l, (l < n)%nat /\ layer_at p t l) \/ (n = 0%nat \/ bot_of p (n - 1) < t)).
    { induction n; intros Hn; [right; auto|]. destruct (IHn ltac:(lia)) as [(l & Hl & H)|H]; [left; exists l; split; auto; lia|].
      replace (S n - 1)%nat with n by lia. destruct (Rle_lt_dec t (bot_of p n)) as [Hle|Hgt]; [|auto].
      left. exists n. split; [lia|]. split; [exact Hn|]. destruct n.
      - destruct (Req_EM_T t 0); [auto|]. left. cbn. lra.
      - left. destruct H as [H|H]; [lia|]. replace (S n - 1)%nat with n in H by lia. cbn. split; auto. }
    destruct (G NL ltac:(lia)) as [(l & _ & H)|[H|H]]; [eauto|unfold NL in *; lia|]. rewrite (bottom_eq p) in Ht. unfold NL in H. lra.
  Qed.
  Lemma lay_at t : 0 <= t <= bottom p -> layer_at p t (lay p t).
  Proof. intros Ht. destruct (layer_at_ex t Ht) as (l & Hl). rewrite (lay_of_at t l Hl). exact Hl. Qed.
  Lemma layer_at_unique t l l' : layer_at p t l -> layer_at p t l' -> l = l'.
  Proof. intros H H'. rewrite <- (lay_of_at t l H), <- (lay_of_at t l' H'). reflexivity. Qed.
  Lemma layer_at_range t l : layer_at p t l -> 0 <= t <= bottom p.
  Proof.
    intros [Hl HH]. rewrite (bottom_eq p). destruct HH as [HH|[-> ->]].
    - assert (0 <= top_of p l) by (destruct l; cbn; [lra|apply Rlt_le, (v_tau p V l); unfold nlayers in *; lia]).
      pose proof (bots_mono l (nlayers p - 1) ltac:(lia) ltac:(unfold NL; lia)). lra.
    - pose proof (v_tau p V (nlayers p - 1) ltac:(lia)). lra.
  Qed.

  (** Scaled depth. *)
  Lemma depth_s_join l : (S l < NL)%nat -> depth_s p (S l) (bot_of p l) = depth_s p l (bot_of p l).
  Proof. intros _. unfold depth_s. cbn [rsum top_of]. change (nth l (p_tau p) 0) with (bot_of p l). ring. Qed.
  Lemma depth_s_mono l x y : (l < NL)%nat -> x < y -> depth_s p l x < depth_s p l y.
  Proof. intros Hl H. pose proof (scl_pos p V l Hl). unfold depth_s. nra. Qed.
  Lemma sdepth_closed l t : (l < NL)%nat -> top_of p l <= t <= bot_of p l -> sdepth p t = depth_s p l t.
  Proof.
    intros Hl Ht. unfold sdepth. destruct (Req_EM_T t (top_of p l)) as [E|E].
    - destruct l.
      + rewrite (lay_of_at t 0); [reflexivity|]. split; [exact Hl|]. right. auto.
      + rewrite (lay_of_at t l).
        * cbn [top_of] in E. rewrite E. symmetry. apply depth_s_join. exact Hl.
        * split; [unfold NL in *; lia|]. left. cbn in E. rewrite E. pose proof (v_inc p V l ltac:(unfold NL in *; lia)). unfold bot_of in *. lra.
    - rewrite (lay_of_at t l); [reflexivity|]. split; [exact Hl|]. left. lra.
  Qed.
  Lemma bots_depth j k : (j <= k)%nat -> (k < NL)%nat -> depth_s p j (bot_of p j) <= depth_s p k (bot_of p k).
  Proof.
    intros Hjk Hk. induction Hjk as [|k Hjk IH]; [lra|]. specialize (IH ltac:(lia)).
    pose proof (v_inc p V (S k) Hk) as H. change (bot_of p k < bot_of p (S k)) in H.
    pose proof (depth_s_mono (S k) _ _ Hk H) as H2. rewrite depth_s_join in H2 by auto. lra.
  Qed.
  Lemma sdepth_mono x y : 0 <= x -> x < y -> y <= bottom p -> sdepth p x < sdepth p y.
  Proof.
    intros Hx Hxy Hy. pose proof (lay_at x ltac:(lra)) as [Hlx Ax]. pose proof (lay_at y ltac:(lra)) as [Hly Ay].
    unfold sdepth. set (l := lay p x) in *. set (k := lay p y) in *.
    assert (Hxb : x <= bot_of p l) by (destruct Ax as [Ax|[E ->]]; [lra|]; pose proof (v_tau p V l Hlx); lra).
    assert (Hyt : top_of p k <= y) by (destruct Ay as [Ay|[E E2]]; lra).
    assert (Hlk : (l <= k)%nat).
    { destruct (Nat.le_gt_cases l k) as [|Hgt]; auto. exfalso.
      assert (Hxt : bot_of p k <= top_of p l) by (destruct l; [lia|]; cbn; apply bots_mono; unfold NL in *; lia).
      assert (Hxl : top_of p l <= x) by (destruct Ax as [Ax|[E ->]]; [lra|]; rewrite E; cbn; lra).
      destruct Ay as [Ay|[E E2]]; lra. }
    destruct (Nat.eq_dec l k) as [E|E]; [rewrite <- E; apply depth_s_mono; auto|].
    assert (H1 : depth_s p l x <= depth_s p l (bot_of p l)) by (destruct Hxb as [H|H]; [apply Rlt_le, depth_s_mono; auto|rewrite <- H; lra]).
    destruct k as [|k]; [lia|].
    assert (Hyt' : bot_of p k < y) by (destruct Ay as [[Ay _]|[E2 _]]; [exact Ay|discriminate]).
    pose proof (bots_depth l k ltac:(lia) ltac:(unfold NL in *; lia)) as H2.
    pose proof (depth_s_mono (S k) _ _ Hly Hyt') as H3. rewrite depth_s_join in H3 by auto. lra.
  Qed.
  Lemma cont_layers f : (forall l, (l < NL)%nat -> cont_on (top_of p l) (bot_of p l) f) -> cont_on 0 (bottom p) f.
  Proof.
    intros C1.
    assert (C2 : forall l, (l < NL)%nat -> 0 <= top_of p l /\ cont_on 0 (bot_of p l) f).
    { induction l; intros Hl; [split; [cbn; lra|apply (C1 0%nat Hl)]|].
      specialize (IHl ltac:(lia)) as [I1 I2]. pose proof (v_inc p V l ltac:(unfold NL, nlayers in *; lia)) as H1. pose proof (v_inc p V (S l) Hl) as H2.
      change (top_of p (S l)) with (bot_of p l) in *.
      split; [lra|]. apply (cont_on_glue 0 (bot_of p l)); [lra|exact I2|]. apply (C1 (S l) Hl). }
    rewrite (bottom_eq p). apply C2. pose proof (v_ne p V). unfold NL in *. lia.
  Qed.
  Lemma depth_s_der l t : is_derive (fun t => depth_s p l t) t (scl p l).
  Proof. unfold depth_s. apply (der_eq _ _ (0 + scl p l * (1 - 0))); [ring|]. apply der_plus; [apply der_const|]. apply der_scal, der_minus; [apply der_id|apply der_const]. Qed.
  Lemma sdepth_cont : cont_on 0 (bottom p) (sdepth p).
  Proof.
    apply cont_layers. intros l Hl. apply (cont_on_ext _ _ (depth_s p l)); [intros x Hx; symmetry; apply sdepth_closed; auto|].
    apply cont_on_derive. intros x _. eexists. apply depth_s_der.
  Qed.
  Lemma sdepth_unscaled : (forall l, (l < NL)%nat -> albedo p l * fwd p l = 0) -> forall t, 0 <= t <= bottom p -> sdepth p t = t.
  Proof.
    intros H t Ht. pose proof (lay_at t Ht) as [Hl _]. unfold sdepth, depth_s, scl. rewrite H by auto.
    rewrite (rsum_ext _ _ (fun r => bot_of p r - top_of p r)) by (intros i Hi; rewrite H by (unfold NL in *; lia); ring).
    replace (rsum (lay p t) (fun r => bot_of p r - top_of p r)) with (top_of p (lay p t)); [ring|].
    induction (lay p t) as [|n IH]; [reflexivity|]. cbn [rsum]. rewrite <- IH by lia. cbn [top_of]. unfold bot_of. destruct n; cbn; ring.
  Qed.

  Variables (lg : leggauss_t) (r : R) (ss : nat -> vec).
  Hypothesis Hlg : leggauss_ok (half p) (lg (half p)).
  Let a := assemble_args p lg r ss.
  Lemma layer_of_lay t : 0 <= t <= bottom p -> layer_of a t = lay p t.
  Proof.
    intros Ht. pose proof (lay_at t Ht) as [Hl HH]. pose proof (a_good p V lg Hlg ss r) as Ga. fold a in Ga.
    apply (layer_of_spec a (g_NL _ Ga) eq_refl (g_inc _ Ga) t (lay p t) Ht Hl).
    change (lay_bot a (lay p t)) with (bot_of p (lay p t)). change (lay_top a (lay p t)) with (top_of p (lay p t)).
    destruct HH as [HH|[HH1 HH2]]; [split; [left|]; lra|]. rewrite HH1 in *. cbn [top_of].
    split; [right; auto|]. rewrite HH2. apply Rlt_le, (v_tau p V 0). exact Hl.
  Qed.
  Lemma layer_of_at t l : 0 <= t <= bottom p -> layer_of a t = l <-> layer_at p t l.
  Proof. intros Ht. rewrite layer_of_lay by auto. split; [intros <-; apply lay_at; auto|apply lay_of_at]. Qed.
  Lemma scaled_of_sdepth t : 0 <= t <= bottom p -> scaled_of a t = sdepth p t.
  Proof. intros Ht. unfold sdepth. rewrite <- layer_of_lay by auto. apply (scaled_of_depth p V lg Hlg ss r). lra. Qed.
End Lay.

(** ** Errors other than the rejection of the optical depth. *)
Definition tau_msg : string := "tau input outside the tau range given for the atmosphere (check `tau_arr`).".
Definition quiet {A} (x : res A) : Prop := x <> Err (EValue tau_msg).
Lemma quiet_ok {A} (x : A) : quiet (Ok x). Proof. discriminate. Qed.
Lemma quiet_bind {A B} (x : res A) (k : A -> res B) : quiet x -> (forall a, x = Ok a -> quiet (k a)) -> quiet (bind x k).
Proof. intros H1 H2. destruct x; cbn; [apply H2; auto|]. intros E. injection E as ->. apply H1. reflexivity. Qed.
Lemma quiet_bcast f A B : quiet (bcast2 f A B).
Proof. unfold bcast2. destruct (bshape _ _); discriminate. Qed.
Lemma quiet_take k l A : quiet (ttake k l A).
Proof. unfold ttake. destruct (forallb _ _); discriminate. Qed.
Lemma quiet_tvm n v A : quiet (tvm n v A).
Proof. unfold tvm. destruct (shp A) as [|? [|? [|]]]; try discriminate. destruct (Nat.eqb _ _); discriminate. Qed.
Lemma quiet_concat k A B : quiet (tconcat k A B).
Proof. unfold tconcat. destruct (_ && _)%bool; discriminate. Qed.
Lemma quiet_iop f A B : quiet (iop f A B).
Proof. unfold iop. apply quiet_bind; [apply quiet_bcast|]. intros C _. destruct (list_eqb _ _); discriminate. Qed.
Lemma quiet_tmax A : quiet (tmax A).
Proof. unfold tmax. destruct (entries A); discriminate. Qed.
Ltac quiet := repeat first
  [ apply quiet_ok | apply quiet_bcast | apply quiet_take | apply quiet_tvm | apply quiet_concat | apply quiet_iop | apply quiet_tmax
  | apply quiet_bind; [|intros ? _]
  | match goal with |- quiet (if ?c then _ else _) => destruct c end
  | discriminate ].
Lemma quiet_mathscr_v nr nq NL tau sc l Ns s G K gm anti : quiet (mathscr_v nr nq NL tau sc l Ns s G K gm anti).
Proof.
  unfold mathscr_v, v_branch1, v_branch2, v_branchN, tmul, tadd, tdiv. quiet.
Qed.
Lemma quiet_iso a sv anti r0 nr tau : quiet (iso_part a sv anti r0 nr tau).
Proof. apply quiet_mathscr_v. Qed.
Lemma quiet_um a sv anti tau : quiet (um_all a sv anti tau).
Proof. unfold um_all, um_add, tadd. quiet; apply quiet_iso. Qed.
Lemma quiet_u0 a sv anti tau : quiet (u0_all a sv anti tau).
Proof. unfold u0_all, tadd. quiet; apply quiet_iso. Qed.
Lemma quiet_act a anti tau : quiet (act_reclass a anti tau).
Proof. unfold act_reclass. quiet. Qed.
Lemma quiet_up a sv anti tau : quiet (flux_up_arr a sv anti tau).
Proof. unfold flux_up_arr, tadd. quiet; apply quiet_iso. Qed.
Lemma quiet_down a sv anti tau : quiet (flux_down_arr a sv anti tau).
Proof. unfold flux_down_arr, down_beam_anti, tadd, tsub, tdiv, tmul. quiet; apply quiet_iso. Qed.
Lemma quiet_ferr a sv anti tau phi u : quiet (Fourier_error a sv anti tau phi u).
Proof. unfold Fourier_error, ulast, err_beam, tadd, tmul, tdiv. quiet. Qed.
Lemma quiet_TMS p lg a tau phi anti ls : quiet (TMS_correction p lg a tau phi anti ls).
Proof.
  unfold TMS_correction. destruct ls; [discriminate|]. destruct (existsb _ _); [discriminate|].
  destruct (shp _) as [|? [|? [|]]]; try discriminate. destruct (Nat.eqb _ _); discriminate.
Qed.
Lemma quiet_IMS p lg a tau phi anti : quiet (IMS_correction p lg a tau phi anti).
Proof.
  unfold IMS_correction. destruct (_ || _)%bool; [discriminate|]. destruct (shp _) as [|? [|? [|]]]; try discriminate. apply quiet_bcast.
Qed.
Lemma quiet_NT p lg a tau phi anti ls : quiet (NT_corrections p lg a tau phi anti ls).
Proof. unfold NT_corrections, tadd. quiet; try apply quiet_TMS; apply quiet_IMS. Qed.

Ltac quiet2 := repeat first
  [ apply quiet_um | apply quiet_u0 | apply quiet_act | apply quiet_up | apply quiet_down | apply quiet_ferr | apply quiet_NT
  | apply quiet_ok | apply quiet_bcast | apply quiet_bind; [|intros ? _]
  | match goal with |- quiet (if ?c then _ else _) => destruct c end ].

Section Reject.
  Variable a : as_in.
  Variable sv : solved.
  Definition in_rng (tau : list R) : Prop := forall t, In t tau -> 0 <= t <= last (a_tau a) 0.
  Lemma in_rng_iff tau : in_range a tau = true <-> in_rng tau.
  Proof.
    unfold in_range, in_rng. rewrite negb_true_iff, orb_false_iff. split.
    - intros [H1 H2] t Ht. split.
      + destruct (Rlt_dec t 0) as [H|]; [|lra]. exfalso. assert (existsb (fun t => Rltb t 0) tau = true); [|congruence]. apply existsb_exists. exists t. rewrite Rltb_iff. auto.
      + destruct (Rlt_dec (last (a_tau a) 0) t) as [H|]; [|lra]. exfalso. assert (existsb (fun t => Rltb (last (a_tau a) 0) t) tau = true); [|congruence]. apply existsb_exists. exists t. rewrite Rltb_iff. auto.
    - intros H. split; apply not_true_is_false; intros E; apply existsb_exists in E as (t & Ht & E); apply Rltb_iff in E; specialize (H t Ht); lra.
  Qed.
  Lemma reject_gen {A} tau (k : unit -> res A) : (forall u, quiet (k u)) ->
    bind (tau_check a tau) k = Err (EValue tau_msg) <-> ~ in_rng tau.
  Proof.
    intros Hq. unfold tau_check, check. destruct (in_range a tau) eqn:E; cbn.
    - split; [intros H; exfalso; apply (Hq tt H)|]. intros H. exfalso. apply H, in_rng_iff. auto.
    - split; [|reflexivity]. intros _ H. apply in_rng_iff in H. congruence.
  Qed.
  Lemma reject_u tau phi anti e t l : cl_u a sv tau phi anti e t l = Err (EValue tau_msg) <-> ~ in_rng tau.
  Proof. apply reject_gen. intros _. quiet2. Qed.
  Lemma reject_u0 tau anti t l : cl_u0 a sv tau anti t l = Err (EValue tau_msg) <-> ~ in_rng tau.
  Proof. apply reject_gen. intros _. quiet2. Qed.
  Lemma reject_up tau anti t : cl_flux_up a sv tau anti t = Err (EValue tau_msg) <-> ~ in_rng tau.
  Proof. apply reject_gen. intros _. quiet2. Qed.
  Lemma reject_down tau anti t : cl_flux_down a sv tau anti t = Err (EValue tau_msg) <-> ~ in_rng tau.
  Proof. apply reject_gen. intros _. quiet2. Qed.
  Lemma reject_uc p lg tau phi anti e t : u_corrected p lg a (cl_u a sv) tau phi anti e t = Err (EValue tau_msg) <-> ~ in_rng tau.
  Proof.
    rewrite <- (reject_u tau phi anti e t true). unfold u_corrected. destruct (cl_u a sv tau phi anti e t true) as [r|er] eqn:E.
    - split; [|discriminate]. cbn [bind]. intros H. exfalso. revert H. destruct r as [|[|[u| | |] rest]]; try discriminate.
      destruct (nth _ rest (PR 0)); try discriminate. unfold tadd. change (quiet (let! c := NT_corrections p lg a tau phi anti l in
        let! v := bcast2 Rplus u (tscal (a_rescale a) (tsqueeze c)) in Ok (ret (e || t) (PT v :: firstn (length rest - (if has_iso p then 3 else 1)) rest)))).
      quiet2.
    - cbn [bind]. split; intros H; exact H.
  Qed.
End Reject.
