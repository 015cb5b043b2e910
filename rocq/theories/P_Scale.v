(** Multiplying all sources by a positive number. *)
From Coq Require Import String Reals Lra Lia List Bool Arith ZArith FunctionalExtensionality.
From Verif Require Import Base Tensor Spec M_LinAlg M_Subroutines M_GenPart M_MathscrV M_Coeffs M_Assemble M_Pydisort
  P_Tensor P_Teq P_Valid Spec_Sol Spec_Calls P_Same.
Import ListNotations.
Local Open Scope R_scope.

Lemma lmax_scal c l : 0 < c -> lmax (map (Rmult c) l) = c * lmax l.
Proof.
  intros Hc. induction l as [|x [|y l] IH]; [cbn; ring|reflexivity|].
  change (lmax (map (Rmult c) (x :: y :: l))) with (Rmax (c * x) (lmax (map (Rmult c) (y :: l)))). rewrite IH.
  change (lmax (x :: y :: l)) with (Rmax x (lmax (y :: l))). rewrite <- RmaxRmult by lra. reflexivity.
Qed.
Lemma Reqb_scal c x : 0 < c -> Reqb (c * x) 0 = Reqb x 0.
Proof.
  intros Hc. destruct (Req_dec x 0) as [->|H]; [rewrite Rmult_0_r; reflexivity|].
  rewrite !Reqb_f; auto. intros E. apply Rmult_integral in E. lra.
Qed.
Lemma Rltb_0_scal c x : 0 < c -> Rltb 0 (c * x) = Rltb 0 x.
Proof.
  intros Hc. apply eq_true_iff_eq. rewrite !Rltb_iff. split; intros H.
  - apply Rmult_lt_reg_l with c; lra.
  - apply Rmult_lt_0_compat; auto.
Qed.
Lemma Rltb_scal_0 c x : 0 < c -> Rltb (c * x) 0 = Rltb x 0.
Proof.
  intros Hc. apply eq_true_iff_eq. rewrite !Rltb_iff. split; intros H.
  - apply Rmult_lt_reg_l with c; lra.
  - replace 0 with (c * 0) by ring. apply Rmult_lt_compat_l; auto.
Qed.
Lemma entries_scal c b : entries (tscal c b) = map (Rmult c) (entries b).
Proof. unfold entries. cbn [tscal tmap shp elt]. rewrite map_map. reflexivity. Qed.
Lemma forallb_map {A B} (f : A -> B) g l : forallb g (map f l) = forallb (fun x => g (f x)) l.
Proof. induction l; cbn; congruence. Qed.
Lemma forallb_same {A} (f g : A -> bool) l : (forall x, In x l -> f x = g x) -> forallb f l = forallb g l.
Proof. intros H. induction l as [|x l IH]; cbn; [reflexivity|]. rewrite H, IH; cbn; auto. intros y Hy. apply H. cbn. auto. Qed.
Lemma all0_scal c b : 0 < c -> all0 (tscal c b) = all0 b.
Proof. intros Hc. unfold all0. rewrite entries_scal, forallb_map. apply forallb_same. intros x _. apply Reqb_scal; auto. Qed.
Lemma norm_scal c b : 0 < c -> norm_b (tscal c b) = tscal c (norm_b b).
Proof.
  intros Hc. unfold norm_b. rewrite all0_scal by auto. destruct (all0 b); [|reflexivity].
  unfold tscal, tmap, t0. cbn. f_equal. apply functional_extensionality. intros _. ring.
Qed.
Lemma tmax_scal c b : 0 < c -> tmax (tscal c b) = let! m := tmax b in Ok (c * m).
Proof.
  intros Hc. unfold tmax. rewrite entries_scal. destruct (entries b) as [|x l] eqn:E; [reflexivity|].
  change (map (Rmult c) (x :: l)) with (c * x :: map (Rmult c) l). cbn [bind]. f_equal.
  change (c * x :: map (Rmult c) l) with (map (Rmult c) (x :: l)). apply lmax_scal; auto.
Qed.

Definition set_rescale (a : as_in) (r : R) : as_in :=
  mkAS (a_omega a) (a_tau a) (a_stau0 a) (a_mu a) (a_M_inv a) (a_W a) (a_N a) (a_NLeg a) (a_NFourier a) (a_NLayers a) (a_multi a)
       (a_wLeg a) (a_BDRF a) (a_mu0 a) (a_I0 a) (a_I0_div_4pi a) r (a_phi0 a) (a_beam a) (a_bpos a) (a_bneg a)
       (a_bpos_scalar a) (a_bneg_scalar a) (a_bpos_vector a) (a_bneg_vector a) (a_Ns a) (a_s a) (a_iso a) (a_scale a)
       (a_only_flux a) (a_banded a) (a_autograd a).

(** The returned functions depend on the factor only through the final multiplication. *)
Section Out.
  Variables (c : R) (a : as_in) (sv : solved).
  Let a' := set_rescale a (c * a_rescale a).

  Lemma scaled_teq r A : teq (tscal c (tscal r A)) (tscal (c * r) A).
  Proof. split; [reflexivity|]. intros idx _. cbn. ring. Qed.
  Lemma pv_scaled_refl v : (forall A, v <> PT A) -> pv_scaled c v v.
  Proof. intros H. destruct v; cbn; auto. exfalso. eapply H. reflexivity. Qed.
  Lemma ret_scaled_ret b vs ws : Forall2 (pv_scaled c) vs ws -> vs <> [] -> pret_scaled c (ret b vs) (ret b ws).
  Proof. intros H Hne. destruct b; cbn; [exact H|]. destruct H; [congruence|]. exact H. Qed.
  Lemma pvs_plain vs : Forall (fun v => forall A, v <> PT A) vs -> Forall2 (pv_scaled c) vs vs.
  Proof. induction 1; constructor; auto using pv_scaled_refl. Qed.

  Lemma up_scaled tau anti rt : ret_scaled c (cl_flux_up a sv tau anti rt) (cl_flux_up a' sv tau anti rt).
  Proof.
    unfold cl_flux_up. change (tau_check a' tau) with (tau_check a tau). destruct (tau_check a tau); cbn [bind]; [|reflexivity].
    change (flux_up_arr a' sv anti tau) with (flux_up_arr a sv anti tau). destruct (flux_up_arr a sv anti tau) as [f|]; cbn [bind]; [|reflexivity].
    apply ret_scaled_ret; [|discriminate]. constructor; [apply scaled_teq|]. apply pvs_plain. destruct rt; repeat constructor. discriminate.
  Qed.
  Lemma down_scaled tau anti rt : ret_scaled c (cl_flux_down a sv tau anti rt) (cl_flux_down a' sv tau anti rt).
  Proof.
    unfold cl_flux_down. change (tau_check a' tau) with (tau_check a tau). destruct (tau_check a tau); cbn [bind]; [|reflexivity].
    change (flux_down_arr a' sv anti tau) with (flux_down_arr a sv anti tau). destruct (flux_down_arr a sv anti tau) as [f|]; cbn [bind]; [|reflexivity].
    constructor; [apply scaled_teq|]. constructor; [apply scaled_teq|]. apply pvs_plain. destruct rt; repeat constructor. discriminate.
  Qed.
  Lemma u0_scaled tau anti rt : ret_scaled c (cl_u0 a sv tau anti rt false) (cl_u0 a' sv tau anti rt false).
  Proof.
    unfold cl_u0. change (tau_check a' tau) with (tau_check a tau). destruct (tau_check a tau); cbn [bind]; [|reflexivity].
    change (u0_all a' sv anti tau) with (u0_all a sv anti tau). destruct (u0_all a sv anti tau) as [f|]; cbn [bind]; [|reflexivity].
    apply ret_scaled_ret; [|discriminate]. constructor; [apply scaled_teq|]. apply pvs_plain. destruct rt; repeat constructor. discriminate.
  Qed.
  Lemma u_scaled tau phi anti re rt rl : ret_scaled c (cl_u a sv tau phi anti re rt rl) (cl_u a' sv tau phi anti re rt rl).
  Proof.
    unfold cl_u. change (tau_check a' tau) with (tau_check a tau). destruct (tau_check a tau); cbn [bind]; [|reflexivity].
    change (um_all a' sv anti tau) with (um_all a sv anti tau). destruct (um_all a sv anti tau) as [um|]; cbn [bind]; [|reflexivity].
    change (u_full a' um phi) with (u_full a um phi).
    change (Fourier_error a' sv anti tau phi (u_full a um phi)) with (Fourier_error a sv anti tau phi (u_full a um phi)).
    match goal with |- ret_scaled _ (bind ?x _) _ => destruct x as [E|] eqn:EE; cbn [bind]; [|reflexivity] end.
    apply ret_scaled_ret; [|discriminate]. constructor; [apply scaled_teq|]. apply pvs_plain. apply Forall_app. split.
    - destruct re; [|injection EE as <-; constructor]. destruct (Fourier_error a sv anti tau phi (u_full a um phi)); cbn in EE; [|discriminate]. injection EE as <-.
      repeat constructor. discriminate.
    - apply Forall_app. split; [destruct rt; repeat constructor; discriminate|]. destruct rl; [|constructor].
      constructor; [discriminate|]. change (a_iso a') with (a_iso a). destruct (a_iso a); repeat constructor; discriminate.
  Qed.

  Lemma tadd_scal A B X Y : teq (tscal c A) X -> teq (tscal c B) Y -> rteq (let! C := tadd A B in Ok (tscal c C)) (tadd X Y).
  Proof.
    intros HA HB. assert (H : rteq (tadd (tscal c A) (tscal c B)) (tadd X Y)) by (apply bcast2_cong; auto).
    assert (G : rteq (let! C := tadd A B in Ok (tscal c C)) (tadd (tscal c A) (tscal c B))).
    { unfold tadd, bcast2. cbn [tscal tmap shp]. destruct (bshape _ _); cbn [bind rteq]; [|reflexivity]. split; [reflexivity|]. intros idx _. cbn. ring. }
    destruct (tadd A B); destruct (tadd (tscal c A) (tscal c B)); destruct (tadd X Y); cbn [bind rteq] in *; try tauto; try congruence.
    eapply teq_trans; eauto.
  Qed.
  Lemma scaled_nth k : forall vs ws, Forall2 (pv_scaled c) vs ws ->
    match nth k vs (PR 0), nth k ws (PR 0) with PI_ l, PI_ l' => l = l' | PI_ _, _ => False | _, PI_ _ => False | _, _ => True end.
  Proof.
    induction k; intros vs ws H; destruct H as [|x y vs ws Hx H]; cbn; auto; [|apply IHk; auto].
    destruct x, y; cbn in Hx; auto.
  Qed.
  Lemma scaled_firstn k : forall vs ws, Forall2 (pv_scaled c) vs ws -> Forall2 (pv_scaled c) (firstn k vs) (firstn k ws).
  Proof. induction k; intros vs ws H; destruct H; cbn; auto. Qed.
  Lemma corrected_scaled p p' lg tau phi anti re rt : has_iso p' = has_iso p ->
    (forall ls, NT_corrections p' lg a' tau phi anti ls = NT_corrections p lg a tau phi anti ls) ->
    ret_scaled c (u_corrected p lg a (cl_u a sv) tau phi anti re rt) (u_corrected p' lg a' (cl_u a' sv) tau phi anti re rt).
  Proof.
    intros Hi HN. unfold u_corrected. pose proof (u_scaled tau phi anti re rt true) as H.
    destruct (cl_u a sv tau phi anti re rt true) as [v|e], (cl_u a' sv tau phi anti re rt true) as [v'|e']; cbn [ret_scaled bind] in *; try tauto.
    destruct v as [v|vs], v' as [v'|vs']; cbn [pret_scaled] in H; try tauto; [reflexivity|].
    destruct H as [|x y vs ws Hxy H]; [reflexivity|].
    destruct x as [A| | |], y as [B| | |]; cbn [pv_scaled] in Hxy; try tauto; try reflexivity; [].
    assert (Hl : length vs = length ws) by (clear -H; induction H; cbn; auto). rewrite Hi, <- Hl.
    set (k := (length vs - _)%nat). pose proof (scaled_nth k vs ws H) as Hk.
    destruct (nth k vs (PR 0)) as [| | |ls], (nth k ws (PR 0)) as [| | |ls']; try tauto; try reflexivity. subst ls'.
    rewrite HN. destruct (NT_corrections p lg a tau phi anti ls) as [C|]; cbn [bind]; [|reflexivity].
    pose proof (tadd_scal A (tscal (a_rescale a) (tsqueeze C)) B (tscal (a_rescale a') (tsqueeze C)) Hxy (scaled_teq _ _)) as HT.
    destruct (tadd A _) as [X|]; destruct (tadd B _) as [Y|]; cbn [bind rteq] in HT |- *; try tauto; [].
    apply ret_scaled_ret; [|discriminate]. constructor; [exact HT|]. apply scaled_firstn. exact H.
  Qed.
End Out.

(** The arguments handed to the solver. *)
Section Call.
  Variables (c : R) (p : py_in).
  Hypothesis Hc : 0 < c.
  Let p' := times_sources c p.

  Lemma t_bpos : e_bpos p' = tscal c (e_bpos p). Proof. apply norm_scal; auto. Qed.
  Lemma t_bneg : e_bneg p' = tscal c (e_bneg p). Proof. apply norm_scal; auto. Qed.
  Lemma t_Ns : e_Ns p' = e_Ns p.
  Proof.
    unfold e_Ns. cbn [p' times_sources p_s nrow ncol at2]. replace (forall2b (nrow (p_s p)) (ncol (p_s p)) (fun i j => Reqb (c * at2 (p_s p) i j) 0))
      with (forall2b (nrow (p_s p)) (ncol (p_s p)) (fun i j => Reqb (at2 (p_s p) i j) 0)); [reflexivity|].
    unfold forall2b. apply forallb_same. intros i _. apply forallb_same. intros j _. symmetry. apply Reqb_scal; auto.
  Qed.
  Lemma t_iso : has_iso p' = has_iso p. Proof. unfold has_iso. rewrite t_Ns. reflexivity. Qed.
  Lemma t_beam : has_beam p' = has_beam p. Proof. apply Rltb_0_scal; auto. Qed.
  Lemma t_validate : validate p' = validate p.
  Proof.
    unfold validate. change (p_tau p') with (p_tau p). destruct (p_tau p) eqn:Et; [reflexivity|]. f_equal. unfold checks.
    rewrite t_iso, t_beam, t_bpos, t_bneg. change (p_I0 p') with (c * p_I0 p). rewrite Rltb_scal_0 by auto. reflexivity.
  Qed.
  Lemma t_row n row x b : affine_row n (map (Rmult c) row) x b = map (Rmult c) (affine_row n row x b).
  Proof.
    unfold affine_row. rewrite map_map. apply map_ext. intros i. rewrite <- rsum_scal. apply rsum_ext. intros j Hj.
    replace (nth j (map (Rmult c) row) 0) with (c * nth j row 0); [ring|]. replace 0 with (c * 0) at 2 by ring. symmetry. apply map_nth.
  Qed.
  Lemma t_rows n : forall rows aa bb, affine_rows n (map (map (Rmult c)) rows) aa bb = let! r := affine_rows n rows aa bb in Ok (map (map (Rmult c)) r).
  Proof.
    induction rows as [|r rows IH]; intros [|x aa] [|y bb]; try reflexivity. cbn [map affine_rows]. destruct (cdiv 1 x); cbn [bind]; [|reflexivity].
    rewrite IH. destruct (affine_rows n rows aa bb); cbn [bind]; [|reflexivity]. rewrite t_row. reflexivity.
  Qed.
  Lemma t_ss : scaled_s p' = let! ss := scaled_s p in Ok (fun l j => c * ss l j).
  Proof.
    unfold scaled_s. rewrite t_iso. change (delta_M p') with (delta_M p). change (pNL p') with (pNL p). change (nrow (p_s p')) with (nrow (p_s p)). change (ncol (p_s p')) with (ncol (p_s p)).
    destruct (has_iso p).
    - destruct (delta_M p).
      + replace (map (s_row p') (seq 0 (pNL p))) with (map (map (Rmult c)) (map (s_row p) (seq 0 (pNL p)))).
        2:{ rewrite map_map. apply map_ext. intros l. unfold s_row. rewrite map_map. reflexivity. }
        change (scale_tau p') with (scale_tau p). change (translation p') with (translation p).
        unfold affine_transform_poly_coeffs. destruct (forallb _ _); [reflexivity|]. rewrite t_rows.
        destruct (affine_rows _ _ _ _) as [r|]; cbn [bind]; [|reflexivity]. f_equal. apply functional_extensionality. intros l. apply functional_extensionality. intros j.
        change (omega_at p' l) with (omega_at p l).
        replace (nth j (nth l (map (map (Rmult c)) r) []) 0) with (c * nth j (nth l r []) 0); [unfold Rdiv; ring|].
        change (@nil R) with (map (Rmult c) []) at 2. rewrite map_nth. replace 0 with (c * 0) at 2 by ring. symmetry. apply map_nth.
      + cbn [bind]. f_equal. apply functional_extensionality. intros l. apply functional_extensionality. intros j. cbn. unfold omega_at. cbn. ring.
    - destruct (bdim _ _); cbn [bind]; [|reflexivity]. f_equal. apply functional_extensionality. intros l. apply functional_extensionality. intros j. ring.
  Qed.
  Lemma t_rescale ss : rescale p' (fun l j => c * ss l j) = let! r := rescale p ss in Ok (c * r).
  Proof.
    unfold rescale. rewrite t_bpos, t_bneg, !tmax_scal, t_iso, t_Ns by auto.
    destruct (tmax (e_bpos p)) as [mp|]; cbn [bind]; [|reflexivity]. destruct (tmax (e_bneg p)) as [mn|]; cbn [bind]; [|reflexivity].
    change (p_I0 p') with (c * p_I0 p). change (pNL p') with (pNL p). change (scaled_tau0 p') with (scaled_tau0 p).
    destruct (has_iso p).
    - set (S := rsum (e_Ns p) (fun j => ss (pNL p - 1)%nat j * scaled_tau0 p (pNL p) ^ j)).
      replace (rsum (e_Ns p) (fun j => c * ss (pNL p - 1)%nat j * scaled_tau0 p (pNL p) ^ j)) with (c * S).
      2:{ unfold S. rewrite <- rsum_scal. apply rsum_ext. intros; ring. }
      change [c * p_I0 p; c * mp; c * mn; c * ss 0%nat 0%nat; c * S] with (map (Rmult c) [p_I0 p; mp; mn; ss 0%nat 0%nat; S]).
      rewrite lmax_scal, Reqb_scal by auto. destruct (Reqb _ 0); reflexivity.
    - cbn [bind]. f_equal. change [c * p_I0 p; c * mp; c * mn] with (map (Rmult c) [p_I0 p; mp; mn]). apply lmax_scal; auto.
  Qed.

  Hypothesis Hbb : (nonneg (p_bpos p) /\ nonneg (p_bneg p)) \/ some_source p.
  Lemma lmax_ge l x : In x l -> x <= lmax l.
  Proof.
    induction l as [|y [|z l] IH]; intros H; [destruct H|destruct H as [->|[]]; cbn; lra|].
    change (lmax (y :: z :: l)) with (Rmax y (lmax (z :: l))). destruct H as [->|H]; [apply Rmax_l|]. eapply Rle_trans; [apply IH, H|apply Rmax_r].
  Qed.
  Lemma entry_le b m idx : tmax (norm_b b) = Ok m -> inb (shp b) idx -> 0 < elt b idx -> elt b idx <= m.
  Proof.
    intros Hm Hi Hp. assert (Hx : In (elt b idx) (entries b)) by (apply entries_In; eauto).
    assert (E : norm_b b = b).
    { unfold norm_b. destruct (all0 b) eqn:E; [|reflexivity]. exfalso. unfold all0 in E. pose proof (proj1 (forallb_forall _ _) E _ Hx) as E0. apply Reqb_iff in E0. lra. }
    rewrite E in Hm. unfold tmax in Hm. destruct (entries b) eqn:Ee; [destruct Hx|]. injection Hm as <-. exact (lmax_ge _ _ Hx).
  Qed.
  Lemma all_zero b m : nonneg b -> tmax (norm_b b) = Ok m -> m <= 0 -> norm_b b = t0 0.
  Proof.
    intros Hb Hm Hle. unfold norm_b in *. destruct (all0 b) eqn:E; [reflexivity|]. exfalso.
    unfold all0 in E. apply not_true_iff_false in E. apply E. apply forallb_forall. intros x Hx. apply Reqb_iff.
    unfold tmax in Hm. assert (x <= m). { destruct (entries b) eqn:Ee; [destruct Hx|]. injection Hm as <-. exact (lmax_ge _ _ Hx). }
    unfold entries in Hx. apply in_map_iff in Hx as (idx & <- & Hi). apply all_idx_inb in Hi. pose proof (Hb idx Hi). lra.
  Qed.
  Lemma t_args lg ss r : (has_iso p = true \/ ss = fun _ _ => 0) -> 0 <= p_I0 p -> rescale p ss = Ok r ->
    assemble_args p' lg (c * r) (fun l j => c * ss l j) = set_rescale (assemble_args p lg r ss) (c * r).
  Proof.
    intros Hss HI Hr. unfold assemble_args, set_rescale. cbn [a_omega a_tau a_stau0 a_mu a_M_inv a_W a_N a_NLeg a_NFourier a_NLayers a_multi a_wLeg a_BDRF a_mu0 a_I0 a_I0_div_4pi a_phi0 a_beam a_bpos a_bneg a_bpos_scalar a_bneg_scalar a_bpos_vector a_bneg_vector a_Ns a_s a_iso a_scale a_only_flux a_banded a_autograd].
    rewrite t_iso, t_beam, t_Ns, t_bpos, t_bneg. change (p_I0 p') with (c * p_I0 p).
    assert (X : c * p_I0 p / divisor (c * r) = p_I0 p / divisor r /\ tmap (fun x => x / divisor (c * r)) (tscal c (e_bpos p)) = tmap (fun x => x / divisor r) (e_bpos p) /\
      tmap (fun x => x / divisor (c * r)) (tscal c (e_bneg p)) = tmap (fun x => x / divisor r) (e_bneg p) /\ (fun l j => c * ss l j / divisor (c * r)) = (fun l j => ss l j / divisor r)).
    { unfold divisor. rewrite Reqb_scal by auto. destruct (Reqb r 0) eqn:Er.
      - apply Reqb_iff in Er. subst r. unfold rescale in Hr. destruct (tmax (e_bpos p)) as [mp|] eqn:E1; cbn [bind] in Hr; [|discriminate].
        destruct (tmax (e_bneg p)) as [mn|] eqn:E2; cbn [bind] in Hr; [|discriminate].
        destruct (has_iso p) eqn:Ei.
        { match type of Hr with (if Reqb ?x 0 then _ else _) = _ => destruct (Reqb x 0) eqn:E3; [discriminate|]; assert (Hr2 : x = 0) by congruence; rewrite Hr2 in E3 end. unfold Reqb in E3. destruct (Req_EM_T 0 0); [discriminate|lra]. }
        destruct Hss as [Hss|Hss]; [discriminate|]. injection Hr as Hr.
        assert (Hle : forall x, In x [p_I0 p; mp; mn] -> x <= 0) by (intros x Hx; rewrite <- Hr; exact (lmax_ge _ _ Hx)).
        assert (p_I0 p <= 0 /\ mp <= 0 /\ mn <= 0) as (L1 & L2 & L3) by (repeat split; apply Hle; cbn; auto).
        unfold e_bpos, e_bneg in *.
        assert (nonneg (p_bpos p) /\ nonneg (p_bneg p)) as [Hbp Hbn].
        { destruct Hbb as [H|[H|[(b & idx & Hpn & Hi & Hp)|H]]]; [exact H|lra| |apply has_iso_iff in H; congruence].
          exfalso. destruct Hpn as [-> | ->]; [pose proof (entry_le _ _ _ E1 Hi Hp)|pose proof (entry_le _ _ _ E2 Hi Hp)]; lra. }
        rewrite (all_zero _ _ Hbp E1 L2), (all_zero _ _ Hbn E2 L3). subst ss.
        assert (p_I0 p = 0) as -> by lra. repeat split; [f_equal; ring| | |].
        + unfold tmap, tscal, t0. cbn. f_equal. apply functional_extensionality. intros _. field.
        + unfold tmap, tscal, t0. cbn. f_equal. apply functional_extensionality. intros _. field.
        + apply functional_extensionality. intros l. apply functional_extensionality. intros j. field.
      - assert (Hr0 : r <> 0) by (intros ->; unfold Reqb in Er; destruct (Req_EM_T 0 0); [discriminate|lra]).
        repeat split; [field; lra| | |].
        + unfold tmap, tscal. cbn. f_equal. apply functional_extensionality. intros idx. unfold tmap. cbn. field. lra.
        + unfold tmap, tscal. cbn. f_equal. apply functional_extensionality. intros idx. unfold tmap. cbn. field. lra.
        + apply functional_extensionality. intros l. apply functional_extensionality. intros j. field. lra. }
    destruct X as (X1 & X2 & X3 & X4). rewrite X1, X2, X3, X4. reflexivity.
  Qed.

  Theorem sources_scale lg la jk :
    match pydisort p lg la jk, pydisort p' lg la jk with
    | Ok out, Ok out' => scaled_outputs c out out'
    | Err e, Err e' => e = e'
    | _, _ => False
    end.
  Proof.
    unfold pydisort. rewrite t_validate. destruct (validate p) as [[]|] eqn:Ev; cbn [bind]; [|reflexivity].
    change (NT_angle_ok p' lg) with (NT_angle_ok p lg). destruct (check (NT_angle_ok p lg) _); cbn [bind]; [|reflexivity].
    rewrite t_ss. destruct (scaled_s p) as [ss|] eqn:Es; cbn [bind]; [|reflexivity].
    rewrite t_rescale. destruct (rescale p ss) as [r|] eqn:Er; cbn [bind]; [|reflexivity].
    assert (Hss : has_iso p = true \/ ss = fun _ _ => 0).
    { unfold scaled_s in Es. destruct (has_iso p); [auto|]. destruct (bdim _ _); [|discriminate]. injection Es as <-. auto. }
    rewrite (t_args lg ss r Hss (v_I0 p (proj1 (validate_iff p) Ev)) Er).
    set (aa := assemble_args p lg r ss). change (solve_all (set_rescale aa (c * r)) la jk) with (solve_all aa la jk).
    destruct (solve_all aa la jk) as [sv|]; cbn [bind]; [|reflexivity].
    replace (set_rescale aa (c * r)) with (set_rescale aa (c * a_rescale aa)) by reflexivity. clearbody aa. constructor.
    - reflexivity.
    - intros. apply up_scaled.
    - intros. apply down_scaled.
    - intros. apply u0_scaled.
    - cbn [po_u]. change (p_only_flux p') with (p_only_flux p). destruct (p_only_flux p) eqn:Ef; [exact I|].
      assert (EN : NT_active p' = NT_active p) by (unfold NT_active; rewrite t_beam; reflexivity). rewrite EN.
      destruct (NT_active p); intros tau phi anti re rt; [|apply u_scaled].
      apply corrected_scaled; [apply t_iso|reflexivity].
  Qed.
End Call.
