(** Continuous dependence of the reported intensity on the optical properties: calls. *)
From Coq Require Import Classical String Reals Lra Lia List Bool Arith ZArith.
From Coquelicot Require Import Coquelicot.
From Verif Require Import Base Tensor Spec M_LinAlg Spec_RTE Calc M_Subroutines M_GenPart M_MathscrV M_Coeffs M_Assemble M_Pydisort
  Spec_Sol Spec_Valid Spec_Calls Spec_Unique Spec_Phys Spec_Mono Spec_Depend Spec_Full Spec_DependAz P_Special P_Addition P_Quad P_Sub P_Sub3 P_Solve P_Energy P_Pydisort P_Pydisort2 P_Pydisort3 P_Pydisort4 P_Pydisort5 P_Pydisort6 P_Pydisort8 P_Teq P_NT3 P_Unique2 P_Refine P_Max P_Max2 P_Max3 P_Max4 P_Mono P_Full P_Full2 P_Full3 P_Depend P_Depend2 P_DependAz.
Import ListNotations.
Local Open Scope R_scope.

Lemma full_bounded p (V : valid p) mu w vn vp rho f : full_solution p mu w vn vp rho f -> exists M, 0 <= M /\ forall i t x, (i < streams p)%nat -> 0 <= t <= bottom p -> Rabs (f i t x) <= M.
Proof.
  intros [_ C T _ _]. pose proof (half_pos p V) as Hh. pose proof (streams_eq p V) as Es. pose proof (bot_pos p V) as Hb.
  destruct (field_min 0 (bottom p) (streams p) (fun i t x => - Rabs (f i t x)) ltac:(lia) ltac:(lra)) as (i0 & t0 & x0 & _ & _ & Hm).
  - intros i Hi. apply (cont2_opp _ _ (fun t x => Rabs (f i t x))). intros t x Ht e He. destruct (C i Hi t x Ht e He) as (d & Hd & H). exists d. split; [exact Hd|]. intros s y Hs H1 H2.
    apply Rle_lt_trans with (2 := H s y Hs H1 H2). apply Rabs_triang_inv2.
  - intros i t x Hi Ht. cbv beta. rewrite (T i t x Hi Ht). reflexivity.
  - exists (Rabs (f i0 t0 x0)). split; [apply Rabs_pos|]. intros i t x Hi Ht. specialize (Hm i t x Hi Ht). cbv beta in Hm. lra.
Qed.
Lemma bounded_field p (V : valid p) u M f : u_bounded p u M -> reports_u p u f -> forall i t x, (i < streams p)%nat -> 0 <= t <= bottom p -> Rabs (f i t x) <= M.
Proof.
  intros HB Hf i t x Hi Ht. assert (Hd : depths_ok p [t]) by (intros y [<-|[]]; exact Ht). destruct (Hf [t] [x] Hd) as (A & EA & SA & HA).
  specialize (HB [t] [x] A Hd EA [i]). pose proof (streams_eq p V) as Es. pose proof (half_pos p V) as Hh.
  assert (E1 : shp A = [streams p]). { rewrite SA. unfold tsqueeze. cbn [shp length]. unfold sq_shape. cbn [filter]. destruct (Nat.eqb_spec (streams p) 1); [lia|]. reflexivity. }
  assert (Hin : inb (shp A) [i]) by (rewrite E1; cbn; auto). specialize (HB Hin). rewrite (HA [i] Hin) in HB. revert HB. unfold tsqueeze. cbn [elt shp length unsq].
  destruct (Nat.eqb_spec (streams p) 1); [lia|]. cbn [unsq nth Nat.eqb]. tauto.
Qed.
Lemma field_u_bounded p u M f : reports_u p u f -> (forall i t x, (i < streams p)%nat -> 0 <= t <= bottom p -> Rabs (f i t x) <= M) -> u_bounded p u M.
Proof.
  intros Hf HM tau phi A Ht EA idx Hi. destruct (Hf tau phi Ht) as (A' & EA' & SA & HA). rewrite EA in EA'. injection EA' as <-.
  rewrite HA by exact Hi. unfold tsqueeze. cbn [elt]. rewrite SA in Hi. apply inb_unsq, inb_3 in Hi as (a & b & c & -> & Ha & Hb & Hc). cbn [nth]. apply HM; [exact Ha|]. apply Ht, nth_In. exact Hb.
Qed.

Section Calls.
  Variables (p q : py_in) (lg : leggauss_t) (la la' : linalg) (jk jk' : junk) (out out' : py_out) (u u' : list R -> list R -> bool -> bool -> bool -> res pret).
  Hypothesis Hla : linalg_ok la.
  Hypothesis Hla' : linalg_ok la'.
  Hypothesis Hlg : leggauss_ok (half p) (lg (half p)).
  Hypothesis Hp : pydisort p lg la jk = Ok out.
  Hypothesis Hq : pydisort q lg la' jk' = Ok out'.
  Hypothesis Hu : po_u out = Some u.
  Hypothesis Hu' : po_u out' = Some u'.
  Hypothesis AM : all_modes p.
  Hypothesis AM' : all_modes q.
  Variables (w : nat -> R) (vn vp vn' vp' : nat -> R) (rho : nat -> R -> R -> R).
  Hypothesis Hw : double_gauss (half p) (po_mu out) w.
  Hypothesis BD : boundary_data p vn vp rho.
  Hypothesis BD' : boundary_data q vn' vp' rho.
  Hypothesis SS : same_setting p q.
  Hypothesis Ephi : p_phi0 p = p_phi0 q.
  Hypothesis Kp : not_all_forward p.
  Hypothesis Kq : not_all_forward q.
  Hypothesis Hph : phase_positive q.
  Hypothesis Hsurf : surface_positive q (po_mu out) w rho.
  Variables e M : R.
  Hypothesis CB : moves_by e M p q (po_mu out) w vn vp vn' vp' rho.

  Lemma call_moves f : reports_u p u f -> (forall i t x, (i < streams p)%nat -> 0 <= t <= bottom p -> Rabs (f i t x) <= M) -> forall tau phi, depths_ok p tau ->
    exists A B, u tau phi false false false = Ok (PVal (PT A)) /\ u' tau phi false false false = Ok (PVal (PT B)) /\ twithin e A B.
  Proof.
    intros Hf HM tau phi Ht. pose proof (call_valid p lg la jk out Hp) as Vp. pose proof (call_valid q lg la' jk' out' Hq) as Vq.
    pose proof (same_mu p q lg la la' jk jk' out out' Hp Hq (ss_NQuad _ _ SS)) as Em. pose proof (ss_half p q SS) as Eh. pose proof (ss_streams p q SS) as Es.
    assert (Hlg' : leggauss_ok (half q) (lg (half q))) by (rewrite <- Eh; exact Hlg).
    assert (Hw' : double_gauss (half q) (po_mu out') w) by (rewrite <- Eh, <- Em; exact Hw).
    assert (Ht' : depths_ok q tau) by (intros t Hin; rewrite <- (ss_bottom p q SS); apply Ht; exact Hin).
    pose proof (proj2 (rep_solves p lg la jk out u Hla Hlg Hp Hu AM w vn vp rho Hw BD) f Hf) as H.
    destruct (rep_solves q lg la' jk' out' u' Hla' Hlg' Hq Hu' AM' w vn' vp' rho Hw' BD') as ((g & Hg) & H'). specialize (H' g Hg). rewrite <- Em in H', Hw'.
    destruct (Hf tau phi Ht) as (A & EA & SA). destruct (Hg tau phi Ht') as (B & EB & SB). exists A, B. split; [exact EA|]. split; [exact EB|]. rewrite Es in SA.
    refine (squeezed_within _ _ _ _ _ _ SA SB _). intros idx Hi. apply inb_3 in Hi as (a & b & c & -> & Ha & Hb & Hc). cbn [nth].
    rewrite Es, (ss_bottom p q SS) in HM.
    apply (full_change p q SS Ephi Vp Vq Kp Kq (po_mu out) w vn vp vn' vp' rho e M Hw' CB f g H H' HM Hph Hsurf); [exact Ha|]. apply Ht', nth_In. exact Hb.
  Qed.
  Theorem call_moves_by : u_bounded p u M -> forall tau phi, depths_ok p tau ->
    exists A B, u tau phi false false false = Ok (PVal (PT A)) /\ u' tau phi false false false = Ok (PVal (PT B)) /\ twithin e A B.
  Proof.
    intros HB. destruct (rep_solves p lg la jk out u Hla Hlg Hp Hu AM w vn vp rho Hw BD) as ((f & Hf) & _). apply (call_moves f Hf).
    exact (bounded_field p (call_valid p lg la jk out Hp) u M f HB Hf).
  Qed.
End Calls.

Lemma u_bounded_ex p lg la jk out u w vn vp rho : linalg_ok la -> leggauss_ok (half p) (lg (half p)) -> pydisort p lg la jk = Ok out -> po_u out = Some u -> all_modes p ->
  double_gauss (half p) (po_mu out) w -> boundary_data p vn vp rho -> exists M, 0 <= M /\ u_bounded p u M.
Proof.
  intros Hla Hlg Hp Hu AM Hw BD. destruct (rep_solves p lg la jk out u Hla Hlg Hp Hu AM w vn vp rho Hw BD) as ((f & Hf) & H). specialize (H f Hf).
  destruct (full_bounded p (call_valid p lg la jk out Hp) _ _ _ _ _ f H) as (M & HM & HB). exists M. split; [exact HM|]. exact (field_u_bounded p u M f Hf HB).
Qed.

Theorem call_continuous_az p lg la jk out u : linalg_ok la -> leggauss_ok (half p) (lg (half p)) -> pydisort p lg la jk = Ok out -> po_u out = Some u -> all_modes p -> not_all_forward p ->
  forall w vn vp rho, double_gauss (half p) (po_mu out) w -> boundary_data p vn vp rho -> (forall i, (i < half p)%nat -> reflectance p (po_mu out) w (rho 0%nat) i < 1) ->
  forall eps, 0 < eps -> exists d, 0 < d /\
  forall q la' jk' out' u' vn' vp', linalg_ok la' -> pydisort q lg la' jk' = Ok out' -> po_u out' = Some u' -> all_modes q -> boundary_data q vn' vp' rho -> same_setting p q -> p_phi0 p = p_phi0 q ->
  nearby d p q vn vp vn' vp' -> phase_positive q -> surface_positive q (po_mu out) w rho -> forall tau phi, depths_ok p tau ->
  exists A B, u tau phi false false false = Ok (PVal (PT A)) /\ u' tau phi false false false = Ok (PVal (PT B)) /\ twithin eps A B.
Proof.
  intros Hla Hlg Hp Hu AM Kp w vn vp rho Hw BD Hr e He. pose proof (call_valid p lg la jk out Hp) as Vp.
  destruct (rep_solves p lg la jk out u Hla Hlg Hp Hu AM w vn vp rho Hw BD) as ((f & Hf) & HS). specialize (HS f Hf).
  pose proof (half_pos p Vp) as Hh. pose proof (streams_eq p Vp) as Est. pose proof (v_I0 p Vp) as HI. pose proof PI_RGT_0 as HPI. pose proof (bot_pos p Vp) as Hbot.
  destruct (full_bounded p Vp _ _ _ _ _ f HS) as (M & HM0 & HM).
  destruct (pos_lower (nlayers p) (fun l => 1 - albedo p l)) as (ka & Hka & Hal); [intros l Hl; pose proof (albedo_range p Vp l Hl); lra|].
  destruct (pos_lower (nlayers p) (fun l => 1 - fwd p l)) as (kf & Hkf & Hfl); [intros l Hl; pose proof (Kp l Hl); lra|].
  destruct (pos_lower (half p) (fun i => 1 - reflectance p (po_mu out) w (rho 0%nat) i)) as (kr & Hkr & Hrl); [intros i Hi; pose proof (Hr i Hi); lra|].
  destruct (fin_upper (half p) (fun i => surface_size p rho (nth i (po_mu out) 0) (p_mu0 p))) as (Rm & HRm & HRl).
  destruct (source_bounded p Vp) as (S0 & HS0 & HSl).
  set (n := n2 p). pose proof (n2_nonneg p) as Hn. fold n in Hn. set (T := bottom p) in *.
  set (Bm := if Rlt_dec 0 (p_I0 p) then p_I0 p / (4 * PI) * (4 * n + 2 * n * (2 * T / p_mu0 p)) else 0).
  assert (HBm : 0 <= Bm).
  { unfold Bm. destruct (Rlt_dec 0 (p_I0 p)) as [H|H]; [|lra]. pose proof (v_mu0 p Vp H). apply Rmult_le_pos; [apply Rlt_le, Rdiv_lt_0_compat; lra|]. assert (0 < 2 * T / p_mu0 p) by (apply Rdiv_lt_0_compat; lra). nra. }
  set (C1 := (2 + 4 * n) * M + Bm + (1 + S0)). assert (HC1 : 0 < C1) by (unfold C1; nra).
  set (C2 := 1 + p_I0 p / PI * Rm * (2 * T)). assert (HC2 : 0 < C2). { unfold C2. assert (0 <= p_I0 p / PI) by (apply Rmult_le_pos; [lra|apply Rlt_le, Rinv_0_lt_compat; lra]). assert (0 <= p_I0 p / PI * Rm) by (apply Rmult_le_pos; lra). nra. }
  set (d := Rmin (ka / 2) (Rmin (ka / 2 * e / C1) (Rmin (kr * e / C2) (Rmin (kf / 2) e)))).
  assert (D1 : d <= ka / 2) by apply Rmin_l.
  assert (D2 : d <= ka / 2 * e / C1) by (eapply Rle_trans; [apply Rmin_r|apply Rmin_l]).
  assert (D3 : d <= kr * e / C2) by (eapply Rle_trans; [apply Rmin_r|eapply Rle_trans; [apply Rmin_r|apply Rmin_l]]).
  assert (D4 : d <= kf / 2) by (eapply Rle_trans; [apply Rmin_r|eapply Rle_trans; [apply Rmin_r|eapply Rle_trans; [apply Rmin_r|apply Rmin_l]]]).
  assert (D5 : d <= e) by (eapply Rle_trans; [apply Rmin_r|eapply Rle_trans; [apply Rmin_r|eapply Rle_trans; [apply Rmin_r|apply Rmin_r]]]).
  assert (D0 : 0 < d). { unfold d. repeat apply Rmin_pos; try lra; apply Rdiv_lt_0_compat; try lra; apply Rmult_lt_0_compat; lra. }
  clearbody d. exists d. split; [exact D0|].
  assert (D2' : d * C1 <= ka / 2 * e) by (apply (Rmult_le_reg_r (/ C1)); [apply Rinv_0_lt_compat; lra|]; replace (d * C1 * / C1) with d by (field; lra); exact D2).
  assert (D3' : d * C2 <= kr * e) by (apply (Rmult_le_reg_r (/ C2)); [apply Rinv_0_lt_compat; lra|]; replace (d * C2 * / C2) with d by (field; lra); exact D3).
  intros q la' jk' out' u' vn' vp' Hla' Hq Hu' AM' BD' SS Ephi NB Hph Hsurf tau phi Ht. pose proof (call_valid q lg la' jk' out' Hq) as Vq.
  assert (Enl : nlayers p = nlayers q) by apply (ss_nlayers p q SS). assert (Eh : half p = half q) by apply (ss_half p q SS). assert (Eb : T = bottom q) by apply (ss_bottom p q SS).
  assert (En : n2 q = n) by (unfold n, n2; rewrite (ss_ncoeffs p q SS); reflexivity).
  pose proof (nb_depth p q vn vp vn' vp' d Vp Vq NB) as ND. rewrite <- Eb in ND. pose proof (ddist_nonneg p q Vq) as ND0.
  assert (Kq : not_all_forward q).
  { intros l Hl. pose proof (nb_fwd _ _ _ _ _ _ _ NB l Hl) as A2. apply Rabs_le_between in A2. pose proof (Hfl l ltac:(rewrite Enl; exact Hl)). lra. }
  assert (CB : moves_by e M p q (po_mu out) w vn vp vn' vp' rho).
  { constructor.
    - intros l t Hl Htl. pose proof (Hal l ltac:(rewrite Enl; exact Hl)) as A1. pose proof (nb_albedo _ _ _ _ _ _ _ NB l Hl) as A2. apply Rabs_le_between in A2.
      apply Rle_trans with (ka / 2 * e); [|apply Rmult_le_compat_r; lra]. apply Rle_trans with (2 := D2'). unfold C1. replace (d * ((2 + 4 * n) * M + Bm + (1 + S0))) with (d * ((2 + 4 * n) * M) + d * Bm + d * (1 + S0)) by ring.
      pose proof (nb_peak p q vn vp vn' vp' d Vp Vq NB l Hl) as P1. pose proof (nb_sdist p q vn vp vn' vp' d Vp Vq SS NB l Hl) as P2. pose proof (nb_size q Vq l Hl) as P3. rewrite En in P2, P3.
      pose proof (sdist_nonneg p q l) as P4. pose proof (size_nonneg q l) as P5.
      apply Rplus_le_compat; [apply Rplus_le_compat|].
      + replace (d * ((2 + 4 * n) * M)) with ((2 * d + 4 * d * n) * M) by ring. apply Rmult_le_compat_r; lra.
      + unfold Bm. rewrite <- (ss_I0 p q SS), <- (ss_mu0 p q SS). destruct (Rlt_dec 0 (p_I0 p)) as [H|H].
        2: { replace (p_I0 p) with 0 by lra. unfold Rdiv. rewrite !Rmult_0_l. lra. }
        pose proof (v_mu0 p Vp H) as Hm. replace (d * (p_I0 p / (4 * PI) * (4 * n + 2 * n * (2 * T / p_mu0 p)))) with (p_I0 p / (4 * PI) * (4 * d * n + 2 * n * (2 * d * T / p_mu0 p))) by (field; lra).
        apply Rmult_le_compat_l; [apply Rlt_le, Rdiv_lt_0_compat; lra|]. apply Rplus_le_compat; [exact P2|]. assert (Hi : 0 < / p_mu0 p) by (apply Rinv_0_lt_compat; lra).
        apply Rmult_le_compat; [exact P5| |exact P3|]; unfold Rdiv; [apply Rmult_le_pos; lra|apply Rmult_le_compat_r; lra].
      + apply (nb_emission p q vn vp vn' vp' d Vq NB l t S0 Hl Htl). apply HSl; [rewrite Enl; exact Hl|]. fold T. rewrite Eb.
        destruct (layer_in q Vq l Hl) as (X0 & X1). lra.
    - intros i Hi. eapply Rle_trans; [apply (nb_n _ _ _ _ _ _ _ NB i Hi)|]. exact D5.
    - intros i Hi. rewrite <- Eh in Hi. assert (ER : reflectance q (po_mu out) w (rho 0%nat) i = reflectance p (po_mu out) w (rho 0%nat) i) by (unfold reflectance; rewrite (ss_BDRF _ _ SS), Eh; reflexivity).
      rewrite ER. pose proof (Hrl i Hi) as R1. apply Rle_trans with (kr * e); [|apply Rmult_le_compat_r; lra]. apply Rle_trans with (2 := D3'). unfold C2. rewrite Rmult_plus_distr_l.
      apply Rplus_le_compat; [rewrite Rmult_1_r; apply (nb_p _ _ _ _ _ _ _ NB i); rewrite <- Eh; exact Hi|].
      assert (R2 : surface_size q rho (nth i (po_mu out) 0) (p_mu0 q) <= Rm). { rewrite <- (ss_mu0 _ _ SS). eapply Rle_trans; [|apply (HRl i Hi)]. eapply Rle_trans; [|apply Rle_abs]. unfold surface_size. rewrite (ss_BDRF _ _ SS). apply Rle_refl. }
      rewrite <- (ss_I0 _ _ SS). assert (Hi0 : 0 <= p_I0 p / PI) by (apply Rmult_le_pos; [lra|apply Rlt_le, Rinv_0_lt_compat; lra]).
      replace (d * (p_I0 p / PI * Rm * (2 * T))) with (p_I0 p / PI * Rm * (2 * d * T)) by ring. apply Rmult_le_compat; [apply Rmult_le_pos; [lra|apply size_pos]|lra| |exact ND]. apply Rmult_le_compat_l; lra. }
  exact (call_moves p q lg la la' jk jk' out out' u u' Hla Hla' Hlg Hp Hq Hu Hu' AM AM' w vn vp vn' vp' rho Hw BD BD' SS Ephi Kp Kq Hph Hsurf e M CB f Hf HM tau phi Ht).
Qed.
