(** Calls without an answer: the layers scatter radiation of one symmetry back in full. *)
From Coq Require Import Classical String Reals Lra Lia List Bool Arith ZArith.
From Coquelicot Require Import Coquelicot.
From Verif Require Import Base Tensor Spec M_LinAlg Spec_RTE Calc M_Subroutines M_GenPart M_MathscrV M_Coeffs M_Assemble M_Pydisort
  P_Quad P_Sub P_Special P_GenPart P_GenPart2 P_GenPart3 P_GenPart4 P_Tensor P_MathscrV P_Coeffs P_Coeffs2 P_Coeffs3 P_Assemble P_Solve P_LinA
  Spec_Sol Spec_Valid Spec_Calls Spec_Unique Spec_Phys Spec_Solved Spec_Rates P_Valid P_Pydisort P_Pydisort2 P_Pydisort3 P_Pydisort4 P_Pydisort5 P_NT3 P_Absorb P_Unique P_Unique2 P_Unique3
  P_Max P_Max2 P_Spec1 P_Spec2 P_Spec3 P_Spec4 P_Spec5 P_Spec6 P_Spec7 Examples Examples2 Examples3 Examples5 Examples6 P_Rates.
Import ListNotations.
Local Open Scope R_scope.

Theorem no_answer p lg la jk m l : leggauss_ok (half p) (lg (half p)) -> linalg_ok la -> linalg_total la -> (m < nmodes p)%nat -> (l < nlayers p)%nat -> overscatters p m l ->
  forall out, pydisort p lg la jk <> Ok out.
Proof.
  intros Hlg Hla Hlt Hm Hl (Hn & Ho) out H. destruct (pydisort_parts _ _ _ _ _ H) as (V & ss & r & sv & Hs & Hr' & Hsv & E1 & _).
  set (a := assemble_args p lg r ss) in *. pose proof (mu_arr_gauss p lg Hlg) as HD. destruct (Ho _ _ HD) as (s & Hss & Hpos & x & Hx & Hneg).
  pose proof (a_good p V lg Hlg ss r) as Ha. fold a in Ha.
  assert (HmF : (m < gp_NFourier (gp_of a))%nat) by (cbn; rewrite <- nmodes_eq; exact Hm).
  assert (Hsc : scatters (gp_of a) m l = true) by (apply (scat_neg p V lg ss r m l Hl); exact Hn).
  unfold solve_all in Hsv. apply bind_Ok in Hsv as (o & Hgo & _).
  pose proof (out_char (gp_of a) la _ _ _ _ _ o Hgo m l HmF Hl) as C. rewrite Hsc in C. destruct C as (e & He & _).
  assert (Hom : a_omega a l = albedo_s p l) by (apply scaled_omega_eq; auto).
  assert (Ew : forall u v, D_spec (a_omega a l) (a_wLeg a l) (a_NLeg a) m u v = D_spec (albedo_s p l) (wphase_s p l) (ncoeffs p) m u v).
  { intros u v. rewrite Hom. apply D_spec_om. intros k. apply wleg_eq; auto. }
  assert (En : forall i, (i < half p)%nat -> nth i (mu_arr p lg) 0 = a_mu a i).
  { intros i Hi. rewrite (mu_arr_node p lg) by lia. unfold node. rewrite (proj2 (Nat.ltb_lt i (half p))) by auto. reflexivity. }
  assert (EQ : forall t y, dot (half p) y (mv (half p) (fun i j => a_W a i * delta i j - a_W a i * (D_spec (a_omega a l) (a_wLeg a l) (a_NLeg a) m (a_mu a i) (a_mu a j)
      + t * D_spec (a_omega a l) (a_wLeg a l) (a_NLeg a) m (a_mu a i) (- a_mu a j)) * a_W a j) y) = net_loss p (mu_arr p lg) (quad_W p lg) m l t y).
  { intros t y. unfold dot, net_loss. cbv zeta. apply rsum_ext. intros i Hi. rewrite !En by auto. unfold mv.
    rewrite (rsum_ext (half p) _ (fun j => delta i j * (a_W a i * y j) - a_W a i * (quad_W p lg j * ((D_spec (albedo_s p l) (wphase_s p l) (ncoeffs p) m (a_mu a i) (nth j (mu_arr p lg) 0)
      + t * D_spec (albedo_s p l) (wphase_s p l) (ncoeffs p) m (a_mu a i) (- nth j (mu_arr p lg) 0)) * y j)))).
    - rewrite rsum_minus, rsum_delta_l, rsum_scal by auto. cbn [a assemble_args a_W]. ring.
    - intros j Hj. rewrite !Ew, !En by auto. cbn [a assemble_args a_W]. ring. }
  refine (no_eig (gp_of a) (half_pos p V) (g_mu a Ha) _ la Hla Hlt m l s x Hss _ Hx _ e He).
  - intros i Hi. apply (W_pos p lg Hlg ss r). exact Hi.
  - split; [apply (S_sym (gp_of a) m l (- s))|]. intros y Hy. specialize (Hpos y Hy). rewrite <- EQ in Hpos. exact Hpos.
  - rewrite <- EQ in Hneg. exact Hneg.
Qed.

(** Two streams: the second azimuthal mode decides. *)
Lemma two_streams_over p l : half p = 1%nat -> ncoeffs p = 2%nat -> 8 <= 9 * (albedo_s p l * phase_s p l 1) -> overscatters p 1 l.
Proof.
  intros HN HC Hg. set (A := albedo_s p l) in *. set (g := phase_s p l 1) in *.
  assert (EK : forall x y, x ^ 2 = 1/4 -> y ^ 2 = 1/4 -> D_spec A (wphase_s p l) (ncoeffs p) 1 x y = 9/16 * (A * g)).
  { intros x y Hx Hy. unfold D_spec. rewrite HC. cbn [rsum Nat.leb]. unfold wphase_s. fold g. rewrite poch_11, !lpmv_11, Hx, Hy. cbn [INR].
    assert (Es : sqrt (1 - 1/4) * sqrt (1 - 1/4) = 3/4) by (rewrite sqrt_sqrt by lra; lra). set (s := sqrt (1 - 1/4)) in *.
    transitivity (3 / 4 * (A * g) * (s * s)); [field|]. rewrite Es. field. }
  split.
  - intros H. specialize (H 1%nat ltac:(lia)). unfold wphase_s in H. fold A g in H. cbn [INR] in H.
    replace (A / 2 * ((2 * 1 + 1) * g)) with (3/2 * (A * g)) in H by field. rewrite Rabs_right in H; lra.
  - intros mu w HD. rewrite HN in HD. destruct (dg_one mu w HD) as (-> & Ew).
    assert (EL : forall s x, net_loss p [1/2; -1/2] w 1 l s x = x 0%nat ^ 2 * (1 - (1 + s) * (9/16 * (A * g)))).
    { intros s x. unfold net_loss. cbv zeta. rewrite HN. cbn [rsum nth]. rewrite Ew. fold A. rewrite !EK by (cbn; field). ring. }
    exists 1. split; [auto|]. split.
    + intros x (i & Hi & Hx). rewrite HN in Hi. destruct i; [|lia]. rewrite EL. replace (x 0%nat ^ 2 * (1 - (1 + -(1)) * (9 / 16 * (A * g)))) with (Rsqr (x 0%nat)) by (unfold Rsqr; ring). apply Rlt_0_sqr. exact Hx.
    + exists (fun _ => 1). split; [exists 0%nat; split; [lia|lra]|]. rewrite EL. lra.
Qed.

(** One layer with the Henyey-Greenstein phase function of asymmetry 9/10. *)
Definition p_hg (n : nat) : py_in := {|
  p_tau := [1]; p_omega := [99/100]; p_NQuad := 2;
  p_Leg := mkA2 1 n (fun _ k => (9/10) ^ k);
  p_mu0 := 3/5; p_I0 := 1; p_phi0 := 0; p_NLeg := None; p_NFourier := None;
  p_bpos := t0 0; p_bneg := t0 0; p_only_flux := false; p_f := [0]; p_NT := false;
  p_BDRF := []; p_s := mkA2 1 1 (fun _ _ => 0); p_banded := 10; p_autograd := false |}.
Lemma hg_valid n : (2 <= n)%nat -> valid (p_hg n).
Proof.
  intros Hn. constructor; cbn -[Rlt Rle PI pow].
  - lia.
  - intros [|l] Hl; cbn; [lra|lia].
  - intros [|l] Hl; cbn; [lra|lia].
  - intros w [<-|[]]. lra.
  - lia.
  - reflexivity.
  - reflexivity.
  - lia.
  - reflexivity.
  - intros l k Hl Hk. destruct k as [|k]; [lia|]. cbn [pow]. assert (0 <= (9/10) ^ k <= 1); [|lra]. split; [apply pow_le; lra|]. rewrite <- (pow1 k). apply pow_incr. lra.
  - lia.
  - reflexivity.
  - lia.
  - lia.
  - lra.
  - intros _. lra.
  - intros _. pose proof PI_RGT_0. lra.
  - right; left; reflexivity.
  - right; left; reflexivity.
  - intros f [<-|[]]. lra.
  - lia.
Qed.
Lemma hg_over n : (2 <= n)%nat -> overscatters (p_hg n) 1 0.
Proof.
  intros Hn. apply two_streams_over; [reflexivity|reflexivity|]. unfold albedo_s, phase_s, scl, albedo, fwd, phase; cbn -[Rle Rlt].
  match goal with |- _ <= ?e => replace e with (8019/1000) by field end. lra.
Qed.
