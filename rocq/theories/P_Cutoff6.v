(** Leaving out weak scattering never adds radiation. *)
From Coq Require Import Classical String Reals Lra Lia List Bool Arith ZArith.
From Coquelicot Require Import Coquelicot.
From Verif Require Import Base Tensor Spec M_LinAlg Spec_RTE Calc M_Subroutines M_GenPart M_MathscrV M_Coeffs M_Assemble M_Pydisort
  Spec_Sol Spec_Valid Spec_Calls Spec_Unique Spec_Phys Spec_Mono Spec_Depend Spec_Exact P_Special P_Addition P_Quad P_Fourier P_Sub P_Solve P_Energy P_Pydisort P_Pydisort2 P_Pydisort3 P_Pydisort4 P_Pydisort5 P_Pydisort6 P_Pydisort8 P_Teq P_NT P_NT3 P_Unique2 P_Refine P_Max P_Max2 P_Max3 P_Max4 P_Mono P_Sym P_Depend P_Depend2 P_Gauss P_Conv P_Conv2 P_Conv3 P_Exist P_Exist2 P_Exist3 P_Full2 P_Exist4 P_Exist5 P_Exist6 P_Exist7 Spec_Cutoff P_Cutoff2 P_Cutoff3 P_Cutoff4 P_Cutoff5 P_Ints4 .
Import ListNotations.
Local Open Scope R_scope.

Section Adds.
  Variables (p : py_in) (lg : leggauss_t) (la : linalg) (jk : junk) (out : py_out).
  Hypothesis Hla : linalg_ok la.
  Hypothesis Hlg : leggauss_ok (half p) (lg (half p)).
  Hypothesis Hp : pydisort p lg la jk = Ok out.
  Variables (w vn vp : nat -> R) (rho : nat -> R -> R -> R).
  Hypothesis Hw : double_gauss (half p) (po_mu out) w.
  Hypothesis BD : boundary_data p vn vp rho.
  Hypothesis Hph : phase_nonneg p (po_mu out).
  Hypothesis Hs : passive_surface p (po_mu out) w (rho 0%nat).
  Hypothesis Hb : beam_phase_nonneg p (po_mu out).
  Hypothesis Hsrc : forall l t, (l < nlayers p)%nat -> top_of p l <= t <= bot_of p l -> 0 <= source p l t.
  Hypothesis Hvn : forall i, (i < half p)%nat -> 0 <= vn i.
  Hypothesis Hvp : forall i, (i < half p)%nat -> 0 <= vp i.
  Variable V : nat -> R -> R.
  Hypothesis KA : keeps_all p (po_mu out) w vn vp (rho 0%nat) V.

  Lemma modes_below U : modes_of p out U -> forall i t, (i < streams p)%nat -> 0 <= t <= bottom p -> U 0%nat i t <= V i t.
  Proof.
    intros HU i t Hi Ht. pose proof (call_valid p lg la jk out Hp) as Vp. pose proof (streams_eq p Vp) as Es. pose proof PI_RGT_0 as HPI.
    pose proof (modes_nonneg p lg la jk out Hla Hlg Hp w vn vp rho Hw BD Hph Hs U Hb Hsrc Hvn Hvp HU) as UN.
    pose proof (bd_bvp p lg la jk out Hla Hlg Hp w vn vp rho Hw BD U 0%nat HU (seen_0 p Vp)) as [B1 B2 B3 B4]. destruct KA as [A1 A2 A3 A4]. rewrite Es in Hi, A1, A2, B1, B2, UN.
    set (mu := po_mu out) in *. enough (0 <= V i t - U 0%nat i t) by lra.
    refine (full_nonneg p Vp mu w Hw (fun i t => V i t - U 0%nat i t)
      (fun i j => if Nat.ltb 0 (length (p_BDRF p)) then 2 * (rho 0%nat (nth i mu 0) (nth j mu 0) * nth j mu 0 * w j) else 0) Hph _ _ _ _ _ _ i t Hi Ht).
    - intros k Hk. apply (cont_on_ext _ _ (fun x => V k x + (-1) * U 0%nat k x)); [intros; ring|]. apply cont_on_plus; [apply A2; exact Hk|apply cont_on_scal, B2; exact Hk].
    - intros l k x Hl Hk Hx. pose proof (scl_pos p Vp l Hl) as Hsc. pose proof (albedo_s_range p Vp l Hl) as Hal. assert (Hxb : 0 <= x <= bottom p) by (apply (P_Conv2.in_bottom p Vp l x Hl); lra).
      destruct (cutoff_ex (albedo_s p l) (wphase_s p l) (ncoeffs p) 0) as (wg & Hc). pose proof (A1 l k x Hl Hk Hx) as DV. pose proof (B1 l k wg x Hl Hk Hx Hc) as DU.
      set (Df := D_spec (albedo_s p l) (wphase_s p l) (ncoeffs p) 0 (nth k mu 0)). set (Dg := D_spec (albedo_s p l) wg (ncoeffs p) 0 (nth k mu 0)).
      set (e := exp (- depth_s p l x / p_mu0 p)). assert (He : 0 < e) by apply exp_pos.
      exists (scl p l * (rsum (2 * half p) (fun j => wnode (half p) w j * (Df (nth j mu 0) - Dg (nth j mu 0)) * U 0%nat j x) + 2 * (p_I0 p / (4 * PI)) * (Df (- p_mu0 p) - Dg (- p_mu0 p)) * e)). split.
      + destruct (classic (negligible (albedo_s p l) (wphase_s p l) (ncoeffs p) 0)) as [Hn|Hn].
        * assert (Z : forall y, Dg y = 0) by (intros y; apply D_spec_0; intros; apply (proj1 Hc Hn)).
          apply Rmult_le_pos; [lra|]. apply Rplus_le_le_0_compat.
          -- apply rsum_nonneg. intros j Hj. rewrite Z, Rminus_0_r. apply Rmult_le_pos; [|apply UN; assumption]. apply Rmult_le_pos; [apply Rlt_le, (wnode_pos p mu w Hw); auto|].
             unfold Df. rewrite D_spec_mode. apply Rmult_le_pos; [lra|]. apply Hph; auto; rewrite Es; auto.
          -- rewrite Z, Rminus_0_r. pose proof (v_I0 p Vp) as [I|I].
             ++ apply Rmult_le_pos; [|lra]. apply Rmult_le_pos; [apply Rmult_le_pos; [lra|apply Rlt_le, Rdiv_lt_0_compat; lra]|]. unfold Df. rewrite D_spec_mode. apply Rmult_le_pos; [lra|]. apply Hb; auto. rewrite Es; auto.
             ++ rewrite <- I. unfold Rdiv. rewrite Rmult_0_l, Rmult_0_r, !Rmult_0_l. lra.
        * assert (Z : forall y, Df y - Dg y = 0) by (intros y; unfold Df, Dg; rewrite (D_spec_lt _ wg (wphase_s p l)) by (intros; apply (proj2 Hc Hn)); ring).
          rewrite Z, (rsum_0 (2 * half p)) by (intros; rewrite Z; ring). lra.
      + refine (der_eq _ _ _ _ _ (der_minus _ _ _ _ _ DV DU)). unfold rte. cbn [Nat.eqb]. rewrite Es, !X_spec_0m. fold Df Dg e.
        rewrite (rsum_ext _ (fun j => wnode (half p) w j * (Df (nth j mu 0) - Dg (nth j mu 0)) * U 0%nat j x) (fun j => wnode (half p) w j * Df (nth j mu 0) * U 0%nat j x - wnode (half p) w j * Dg (nth j mu 0) * U 0%nat j x)) by (intros; ring).
        rewrite (rsum_ext _ (fun j => wnode (half p) w j * Df (nth j mu 0) * (V j x - U 0%nat j x)) (fun j => wnode (half p) w j * Df (nth j mu 0) * V j x - wnode (half p) w j * Df (nth j mu 0) * U 0%nat j x)) by (intros; ring).
        rewrite !rsum_minus. unfold Rdiv. ring.
    - intros k Hk. rewrite (A3 k Hk), (B3 k Hk). cbn [Nat.eqb]. lra.
    - intros k Hk. rewrite (A4 k Hk), (B4 k Hk). cbn [Nat.eqb]. destruct (Nat.ltb 0 (length (p_BDRF p))).
      + rewrite (rsum_ext _ (fun j => 2 * (rho 0%nat (nth k mu 0) (nth j mu 0) * nth j mu 0 * w j) * (V (half p + j)%nat (bottom p) - U 0%nat (half p + j)%nat (bottom p)))
          (fun j => 2 * (rho 0%nat (nth k mu 0) (nth j mu 0) * nth j mu 0 * w j * V (half p + j)%nat (bottom p)) - 2 * (rho 0%nat (nth k mu 0) (nth j mu 0) * nth j mu 0 * w j * U 0%nat (half p + j)%nat (bottom p)))) by (intros; ring).
        rewrite rsum_minus, !rsum_scal. lra.
      + rewrite rsum_0 by (intros; ring). lra.
    - intros k j Hk Hj. cbv beta. destruct (Nat.ltb 0 (length (p_BDRF p))); [|apply Rle_refl]. destruct Hw as (_ & H2 & _). destruct (H2 j Hj) as (P1 & _ & P2). pose proof (ps_nonneg _ _ _ _ Hs k j Hk Hj).
      apply Rmult_le_pos; [lra|]. apply Rmult_le_pos; [|lra]. apply Rmult_le_pos; [assumption|lra].
    - intros k Hk. pose proof (ps_albedo _ _ _ _ Hs k Hk) as Ha. unfold reflectance in Ha. fold mu in Ha. destruct (Nat.ltb 0 (length (p_BDRF p))); [rewrite rsum_scal; exact Ha|].
      rewrite rsum_0 by reflexivity. lra.
  Qed.

  Theorem reported_below : forall t, 0 <= t <= bottom p -> exists A, po_u0 out [t] false false false = Ok (PVal (PT A)) /\ shp A = [streams p] /\
    forall i, (i < streams p)%nat -> 0 <= elt A [i] <= V i t.
  Proof.
    intros t Ht. pose proof (call_valid p lg la jk out Hp) as Vp. destruct (modes_exist p lg la jk out Hla Hlg Hp) as (U & HU). pose proof (modes_below U HU) as D.
    pose proof (modes_nonneg p lg la jk out Hla Hlg Hp w vn vp rho Hw BD Hph Hs U Hb Hsrc Hvn Hvp HU) as UN.
    destruct (proj1 HU [t]) as (A & EA & SA). { intros s [<-|[]]. exact Ht. }
    exists A. split; [exact EA|]. pose proof (streams_eq p Vp) as Es. pose proof (half_pos p Vp) as Hh. split.
    - destruct SA as (X & _). rewrite X. unfold tsqueeze. cbn [shp length]. unfold sq_shape. cbn [filter]. destruct (Nat.eqb_spec (streams p) 1); [lia|]. reflexivity.
    - intros i Hi. pose proof (one_depth p Vp A _ i Hi SA) as E. cbn [nth] in E. rewrite E. split; [apply UN; assumption|apply D; assumption].
  Qed.

  Theorem fluxes_below : forall tau, depths_ok p tau ->
  (exists A, po_flux_up out tau false false = Ok (PVal (PT A)) /\ tle A (tsqueeze (mkT [length tau] (fun idx =>
     2 * PI * rsum (half p) (fun i => w i * nth i (po_mu out) 0 * V i (nth (nth 0 idx 0%nat) tau 0)))))) /\
  (exists A B, po_flux_down out tau false false = Ok (PTup [PT A; PT B]) /\ tle A (tsqueeze (mkT [length tau] (fun idx => let t := nth (nth 0 idx 0%nat) tau 0 in
     2 * PI * rsum (half p) (fun i => w i * nth i (po_mu out) 0 * V (half p + i)%nat t) + p_mu0 p * p_I0 p * exp (- sdepth p t / p_mu0 p) - direct p t)))).
  Proof.
    intros tau Ht. pose proof (call_valid p lg la jk out Hp) as Vp. destruct (modes_exist p lg la jk out Hla Hlg Hp) as (U & HU). pose proof (modes_below U HU) as D. pose proof PI_RGT_0 as HPI.
    pose proof (streams_eq p Vp) as Es. destruct (call_fluxes p lg la jk out Hla Hlg Hp U HU) as (w' & Hw' & R1 & R2). pose proof (dg_weights _ _ _ _ Hw Hw') as Ew.
    assert (Hin : forall k, (k < length tau)%nat -> 0 <= nth k tau 0 <= bottom p) by (intros k Hk; apply Ht, nth_In; exact Hk).
    assert (HS : forall f g, (forall i, (i < half p)%nat -> f i <= g i) ->
      2 * PI * rsum (half p) (fun i => w' i * nth i (po_mu out) 0 * f i) <= 2 * PI * rsum (half p) (fun i => w i * nth i (po_mu out) 0 * g i)).
    { intros f g Hfg. apply Rmult_le_compat_l; [lra|]. apply rsum_le. intros i Hi. destruct Hw as (_ & H2 & _). destruct (H2 i Hi) as (P1 & _ & P3).
      rewrite <- (Ew i Hi). apply Rmult_le_compat_l; [apply Rmult_le_pos; lra|auto]. }
    assert (SQ : forall s f, squeezed (tsqueeze (mkT s f)) s f) by (intros s f; split; [reflexivity|intros; reflexivity]).
    split.
    - destruct (R1 tau Ht) as (A & EA & SA). exists A. split; [exact EA|]. refine (squeezed_le _ _ _ _ _ SA (SQ _ _) _). intros idx Hi. apply inb_1 in Hi as (b & -> & Hbt). cbn [nth].
      apply HS. intros i Hi. apply D; [lia|apply Hin; exact Hbt].
    - destruct (R2 tau Ht) as (A & C & EA & SA & _). exists A, C. split; [exact EA|]. refine (squeezed_le _ _ _ _ _ SA (SQ _ _) _). intros idx Hi. apply inb_1 in Hi as (b & -> & Hbt). cbn [nth]. cbv zeta.
      set (t := nth b tau 0). pose proof (HS (fun i => U 0%nat (half p + i)%nat t) (fun i => V (half p + i)%nat t)) as H. cbv beta in H.
      match type of H with _ -> ?x <= ?y => assert (H' : x <= y) by (apply H; intros i Hi; apply D; [lia|apply Hin; exact Hbt]) end. lra.
  Qed.
End Adds.
