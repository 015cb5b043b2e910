(** Two descriptions of the same atmosphere: whether they are solved, and examples. *)
From Coq Require Import Classical String Reals Lra Lia List Bool Arith ZArith.
From Coquelicot Require Import Coquelicot.
From Verif Require Import Base Tensor Spec M_LinAlg Spec_RTE M_Subroutines M_Assemble M_Pydisort P_Quad P_Sub Spec_Sol Spec_Valid P_Valid P_Pydisort P_Pydisort2 P_Pydisort5
  Spec_Calls Spec_Unique P_Unique P_Refine Spec_Phys Spec_Solved Spec_Rates Spec_Lossy P_Absorb P_NT3 P_Gauss P_Rates2 P_Lossy P_Lossy2 P_Lossy3 Spec_Physics P_Physics Examples6 Examples Examples2 Examples3 Examples5.
Import ListNotations.
Local Open Scope R_scope.

Theorem physics_solved p q g lg la la' jk jk' rho rho' : lossy_input p rho -> well_formed q rho' -> same_physics p q g rho rho' -> nmodes q = nmodes p ->
  leggauss_ok (half p) (lg (half p)) -> linalg_ok la -> linalg_unique la -> linalg_complete la -> linalg_total la -> linalg_ok la' -> linalg_unique la' -> linalg_complete la' -> linalg_total la' ->
  (exists out, pydisort p lg la jk = Ok out) <-> (exists out', pydisort q lg la' jk' = Ok out').
Proof.
  intros HP WF SP EM Hlg A1 A2 A3 A4 B1 B2 B3 B4. pose proof (wf_valid _ _ (proj1 HP)) as V. pose proof (wf_valid _ _ WF) as V'.
  assert (HQ : lossy_input q rho') by (split; [exact WF|]; intros mu w DG; rewrite (sp_half p q g rho rho' SP) in DG; apply (sp_lossy p q g rho rho' SP EM); auto; apply HP; exact DG).
  assert (Hlg' : leggauss_ok (half q) (lg (half q))) by (rewrite (sp_half p q g rho rho' SP); exact Hlg).
  rewrite (lossy_iff p rho lg la jk HP Hlg A1 A2 A3 A4), (lossy_iff q rho' lg la' jk' HQ Hlg' B1 B2 B3 B4). exact (sp_free p q g rho rho' V V' SP EM).
Qed.

Theorem physics_lossy p q g lg la la' jk jk' out out' rho rho' : lossy_input p rho -> well_formed q rho' -> same_physics p q g rho rho' -> nmodes q = nmodes p ->
  leggauss_ok (half p) (lg (half p)) -> linalg_ok la -> linalg_ok la' -> pydisort p lg la jk = Ok out -> pydisort q lg la' jk' = Ok out' ->
  ordinary_sources p -> ordinary_sources q -> same_reports (same_azimuths p q) out out'.
Proof.
  intros HP WF SP EM Hlg A1 B1 Hok Hok' Hs Hs'. pose proof (wf_valid _ _ (proj1 HP)) as V. pose proof (wf_valid _ _ WF) as V'.
  apply (physics_u p q g lg la la' jk jk' out out' rho rho'); auto; [exact (wf_rho _ _ (proj1 HP))|exact (wf_rho _ _ WF)| |].
  - intros w vn vp m A B DG Hm HA HB i t Hi Ht. exact (lossy_unique p _ w rho vn vp m A B V DG (proj2 HP _ _ DG) Hm HA HB i t Hi Ht).
  - intros w vn vp m A B DG Hm HA HB i t Hi Ht. refine (lossy_unique q _ w rho' vn vp m A B V' DG _ Hm HA HB i t Hi Ht).
    assert (DGp : double_gauss (half p) (po_mu out') w) by (rewrite <- (sp_half p q g rho rho' SP); exact DG). apply (sp_lossy p q g rho rho' SP EM); auto. apply HP. exact DGp.
Qed.

(** The atmosphere of [p_hgd], written differently: two layers, more coefficients than are used, the
    numbers of coefficients and modes given, an array instead of a number, a function instead of a
    number and a mode 0, a source array of zeros. *)
Definition p_hgd' : py_in := {|
  p_tau := [1/2; 1]; p_omega := [99/100; 99/100]; p_NQuad := 2;
  p_Leg := mkA2 2 4 (fun _ k => if Nat.leb k 1 then (9/10) ^ k else 1/7);
  p_mu0 := 3/5; p_I0 := 1; p_phi0 := 0; p_NLeg := Some 2%Z; p_NFourier := Some 2%Z;
  p_bpos := mkT [1%nat] (fun _ => 0); p_bneg := mkT [1%nat] (fun _ => 1); p_only_flux := false; p_f := [81/100; 81/100]; p_NT := false;
  p_BDRF := [pointwise_mode (fun _ _ => 3/4); MScal 0]; p_s := mkA2 2 3 (fun _ _ => 0); p_banded := 3; p_autograd := true |}.
Definition rho34_0 : nat -> R -> R -> R := fun m _ _ => if Nat.eqb m 0 then 3/4 else 0.
Lemma hgd'_valid : valid p_hgd'.
Proof.
  constructor; cbn -[Rlt Rle PI pow].
  - lia.
  - intros [|[|l]] Hl; cbn; [lra|lra|lia].
  - intros [|[|l]] Hl; cbn; [lra|lra|lia].
  - intros w [<-|[<-|[]]]; lra.
  - lia.
  - reflexivity.
  - reflexivity.
  - reflexivity.
  - reflexivity.
  - intros l [|[|k]] Hl Hk; [lia|cbn; lra|cbn; lra].
  - lia.
  - reflexivity.
  - lia.
  - lia.
  - lra.
  - intros _. lra.
  - intros _. pose proof PI_RGT_0. lra.
  - right; right. exists 1%nat, []. auto.
  - right; right. exists 1%nat, []. auto.
  - intros f [<-|[<-|[]]]; lra.
  - lia.
Qed.
Lemma hgd'_wf : well_formed p_hgd' rho34_0.
Proof.
  constructor.
  - exact hgd'_valid.
  - exists (fun _ => 0). apply bc_zero; auto.
  - exists (fun _ => 1). apply bc_one; auto.
  - intros [|[|m]] Hm; [right; reflexivity|left; exists 0; auto|cbn in Hm; lia].
  - intros _. right. reflexivity.
  - intros _. left. cbn. lra.
  - intros H. discriminate.
Qed.
Lemma hgd_same n : (2 <= n)%nat -> same_physics (p_hgd n) p_hgd' (fun _ => 0%nat) rho34 rho34_0.
Proof.
  intros Hn. constructor.
  - reflexivity.
  - intros [|[|l]] Hl; cbn in *; [repeat split; try lia; lra|repeat split; try lia; lra|lia].
  - intros [|[|l]] Hl; cbn in *; [reflexivity|reflexivity|lia].
  - intros [|[|l]] Hl _; cbn in *; [reflexivity|reflexivity|lia].
  - intros [|[|l]] k Hl _; [| |cbn in Hl; lia]; unfold coefficient, phase_s, phase, fwd; cbn [ncoeffs p_hgd p_hgd' p_f nth]; change (ncoeffs p_hgd') with 2%nat; change (ncoeffs (p_hgd n)) with 2%nat;
      (destruct k as [|[|k]]; [reflexivity|reflexivity|reflexivity]).
  - intros [|[|l]] t Hl _; [| |cbn in Hl; lia]; unfold source; cbn; ring.
  - reflexivity.
  - reflexivity.
  - reflexivity.
  - exists (fun _ => 1). split; [apply bc_scal; auto|apply bc_one; auto].
  - exists (fun _ => 0). split; apply bc_zero; auto.
  - intros m x y Hm Hm' _ _. unfold reflection, rho34, rho34_0. cbn [p_BDRF p_hgd p_hgd' length]. change (nmodes p_hgd') with 2%nat in Hm'. destruct m as [|[|m]]; [reflexivity|reflexivity|lia].
Qed.
Lemma hgd'_solved jk jk' : exists out out', pydisort (p_hgd 9) gauss_rule la_full jk = Ok out /\ pydisort p_hgd' gauss_rule la_full jk' = Ok out'.
Proof.
  assert (Hn : (2 <= 9)%nat) by lia. pose proof (proj1 (gauss_rule_ok (half (p_hgd 9)))) as Hlg.
  destruct (lossy_ok (p_hgd 9) rho34 gauss_rule la_full jk (hgd_lossy 9 Hn) (hgd_free 9 Hn) Hlg la_full_ok la_full_complete la_full_total) as (out & H).
  destruct (proj1 (physics_solved (p_hgd 9) p_hgd' (fun _ => 0%nat) gauss_rule la_full la_full jk jk' rho34 rho34_0 (hgd_lossy 9 Hn) hgd'_wf (hgd_same 9 Hn) eq_refl Hlg
    la_full_ok la_full_unique la_full_complete la_full_total la_full_ok la_full_unique la_full_complete la_full_total) (ex_intro _ out H)) as (out' & H').
  exists out, out'. auto.
Qed.

(** No beam, the corrections of Nakajima and Tanaka asked for: the elevation of the beam is not used. *)
Definition p_dark (x : R) : py_in := {|
  p_tau := [1]; p_omega := [0]; p_NQuad := 2; p_Leg := mkA2 1 2 (fun _ k => (1/2) ^ k);
  p_mu0 := x; p_I0 := 0; p_phi0 := 0; p_NLeg := None; p_NFourier := None;
  p_bpos := t0 0; p_bneg := t0 1; p_only_flux := false; p_f := [0]; p_NT := true;
  p_BDRF := []; p_s := mkA2 1 1 (fun _ _ => 0); p_banded := 10; p_autograd := false |}.
Lemma dark_valid x : valid (p_dark x).
Proof.
  constructor; cbn -[Rlt Rle PI pow].
  - lia.
  - intros [|l] Hl; cbn; [lra|lia].
  - intros [|l] Hl; cbn; [lra|lia].
  - intros w [<-|[]]. lra.
  - lia.
  - reflexivity.
  - reflexivity.
  - reflexivity.
  - reflexivity.
  - intros l [|[|k]] Hl Hk; [lia|cbn; lra|lia].
  - lia.
  - reflexivity.
  - lia.
  - lia.
  - lra.
  - intros H. lra.
  - intros H. lra.
  - right; left; reflexivity.
  - right; left; reflexivity.
  - intros f [<-|[]]. lra.
  - lia.
Qed.
Lemma dark_same x y : same_physics (p_dark x) (p_dark y) (fun l => l) (fun _ _ _ => 0) (fun _ _ _ => 0).
Proof.
  constructor; auto; try reflexivity.
  - intros l Hl. split; [exact Hl|]. split; apply Rle_refl.
  - intros H. cbn in H. lra.
  - exists (fun _ => 1). split; apply bc_scal; auto.
  - exists (fun _ => 0). split; apply bc_zero; auto.
Qed.
Lemma dark_node x lg : leggauss_ok (half (p_dark x)) (lg (half (p_dark x))) -> quad_mu (p_dark x) lg 0 = 1/2.
Proof.
  intros Hlg. pose proof (mu_arr_gauss (p_dark x) lg Hlg) as HD. change (half (p_dark x)) with 1%nat in HD. destruct (dg_one _ _ HD) as (E & _).
  pose proof (mu_arr_node (p_dark x) lg 0 (le_S _ _ (le_n 1))) as X. rewrite E in X. cbn in X. symmetry. exact X.
Qed.
Theorem dark_apart : exists p q, valid p /\ valid q /\ same_physics p q (fun l => l) (fun _ _ _ => 0) (fun _ _ _ => 0) /\ nmodes q = nmodes p /\ ordinary_sources p /\ ordinary_sources q /\
  (forall lg la jk, leggauss_ok (half p) (lg (half p)) -> linalg_complete la -> exists out, pydisort p lg la jk = Ok out) /\
  (forall lg la jk, leggauss_ok (half q) (lg (half q)) -> pydisort q lg la jk = Err (EValue "Some quadrature angles come too close to `mu0`. Perturb `NQuad` or `mu0` to rectify this error.")).
Proof.
  exists (p_dark 1), (p_dark (1/2)). split; [apply dark_valid|]. split; [apply dark_valid|]. split; [apply dark_same|]. split; [reflexivity|].
  assert (HS : forall x, ordinary_sources (p_dark x)) by (intros x; right; split; intros idx _; cbn; lra). split; [apply HS|]. split; [apply HS|]. split.
  - intros lg la jk Hlg Hc. apply absorbing_ok; auto using dark_valid.
    + intros [|l] Hl; [left; reflexivity|cbn in Hl; lia].
    + exists (fun _ => 0). apply bc_zero; auto.
    + exists (fun _ => 1). apply bc_scal; auto.
    + intros m Hm. cbn in Hm. lia.
    + intros (i & j & Hi & Hj & H). destruct H. reflexivity.
    + intros _ y Hy. destruct (GL_lengths lg (half (p_dark 1)) 0 1 Hlg) as [L1 _]. destruct (In_nth _ y 0 Hy) as (i & Hi & <-). rewrite L1 in Hi. change (half (p_dark 1)) with 1%nat in Hi. assert (i = 0)%nat as -> by lia.
      pose proof (dark_node 1 lg Hlg) as E. unfold quad_mu, of_list in E. change (pN (p_dark 1)) with (half (p_dark 1)) in E. rewrite E. cbn [p_mu0 p_dark]. rewrite Rabs_left by lra. lra.
  - intros lg la jk Hlg. unfold pydisort. rewrite (proj2 (validate_iff (p_dark (1/2))) (dark_valid (1/2))). cbn [bind].
    assert (E : NT_angle_ok (p_dark (1/2)) lg = false).
    { unfold NT_angle_ok. apply negb_false_iff. cbn [p_NT p_dark andb]. change (pN (p_dark (1/2))) with 1%nat. cbn [seq existsb]. rewrite (dark_node _ lg Hlg). cbn [p_mu0 p_dark].
      replace (1/2 - 1/2) with 0 by lra. rewrite Rabs_R0. unfold Rltb. destruct (Rlt_dec 0 (1/100000000)); [reflexivity|lra]. }
    rewrite E. reflexivity.
Qed.
