(** Complementary calls: emission and illumination add up to equilibrium. *)
From Coq Require Import Classical String Reals Lra Lia List Bool Arith ZArith.
From Coquelicot Require Import Coquelicot.
From Verif Require Import Base Tensor Spec M_LinAlg Spec_RTE Calc M_Subroutines M_GenPart M_MathscrV M_Coeffs M_Assemble M_Pydisort
  Spec_Sol Spec_Valid Spec_Calls Spec_Unique Spec_Phys Spec_Budget P_Special P_Quad P_Sub P_Solve P_Energy P_Pydisort P_Pydisort2 P_Pydisort3 P_Pydisort4 P_Pydisort5 P_Pydisort6 P_Pydisort8 P_Teq P_NT3 P_Unique2 P_Refine P_Max P_Max2 P_Max3 P_Max4 P_Super.
Import ListNotations.
Local Open Scope R_scope.

Lemma squeezed_add A A' s f g x : squeezed A s f -> squeezed A' s g -> (forall idx, inb s idx -> f idx + g idx = x) -> add_up A A' x.
Proof.
  intros [S1 E1] [S2 E2] H. split; [rewrite S1, S2; reflexivity|]. intros idx Hi. rewrite S1 in Hi.
  rewrite E1 by (rewrite S1; exact Hi). rewrite E2 by (rewrite S2; exact Hi). unfold tsqueeze. cbn [elt]. apply H. apply inb_unsq. exact Hi.
Qed.

Section Two.
  Variables (p p' : py_in) (lg : leggauss_t) (la la' : linalg) (jk jk' : junk) (out out' : py_out).
  Hypothesis Hla : linalg_ok la.
  Hypothesis Hla' : linalg_ok la'.
  Hypothesis Hlu : linalg_unique la.
  Hypothesis Hlg : leggauss_ok (half p) (lg (half p)).
  Hypothesis Hp : pydisort p lg la jk = Ok out.
  Hypothesis Hp' : pydisort p' lg la' jk' = Ok out'.
  Hypothesis SM : same_medium p' p.
  Hypothesis Hk : scattering_kept p.
  Variables (w vn vp vn' vp' : nat -> R) (rho : nat -> R -> R -> R) (B : R).
  Hypothesis Hw : double_gauss (half p) (po_mu out) w.
  Hypothesis BD : boundary_data p vn vp rho.
  Hypothesis BD' : boundary_data p' vn' vp' rho.
  Hypothesis CO : complementary B p p' (po_mu out) w (rho 0%nat) vn vp vn' vp'.

  Theorem call_complement : forall tau, depths_ok p tau ->
    (exists A A', po_u0 out tau false false false = Ok (PVal (PT A)) /\ po_u0 out' tau false false false = Ok (PVal (PT A')) /\ add_up A A' B) /\
    (exists A A', po_flux_up out tau false false = Ok (PVal (PT A)) /\ po_flux_up out' tau false false = Ok (PVal (PT A')) /\ add_up A A' (PI * B)) /\
    (exists A A0 A' A0', po_flux_down out tau false false = Ok (PTup [PT A; PT A0]) /\ po_flux_down out' tau false false = Ok (PTup [PT A'; PT A0']) /\ add_up A A' (PI * B)).
  Proof.
    intros tau Ht. pose proof (call_valid p lg la jk out Hp) as V. pose proof (call_valid p' lg la' jk' out' Hp') as V'.
    assert (Hlg' : leggauss_ok (half p') (lg (half p'))) by (rewrite (sm_half p' p SM); exact Hlg).
    assert (Emu : po_mu out' = po_mu out) by exact (same_mu p' p lg la' la jk' jk out' out Hp' Hp (sm_NQuad _ _ SM)).
    destruct (modes_exist p lg la jk out Hla Hlg Hp) as (U & HU). destruct (modes_exist p' lg la' jk' out' Hla' Hlg' Hp') as (U' & HU').
    destruct CO as [[I1 I2] C1 C2 C3].
    assert (Z : bvp (uniform p B) (po_mu out) w (fun _ => B) (fun i => (1 - reflectance p (po_mu out) w (rho 0%nat) i) * B) (rho 0%nat) 0 (fun _ _ => B)).
    { apply const_bvp; auto. intros l wg Hl Hc. pose proof (albedo_norm p l Hl) as E. destruct (Hk l Hl) as [->|Hg]; [ring|].
      rewrite (proj2 Hc); [rewrite E; ring|]. intros Hng. specialize (Hng 0%nat ltac:(pose proof (nc_range p V); lia)).
      replace (albedo_s p l / 2 * wphase_s p l 0%nat) with (albedo_s p l / 2) in Hng by (unfold Rdiv; rewrite <- E at 1; ring). rewrite Rabs_pos_eq in Hng; lra. }
    assert (B' : bvp p' (po_mu out) w vn' vp' (rho 0%nat) 0 (U' 0%nat)).
    { rewrite <- Emu. refine (bd_bvp p' lg la' jk' out' Hla' Hlg' Hp' w vn' vp' rho _ BD' U' 0 HU' (seen_0 p' V')). rewrite (sm_half p' p SM), Emu. exact Hw. }
    assert (SU : superposed 1 (-1) (uniform p B) p' p (fun _ => B) (fun i => (1 - reflectance p (po_mu out) w (rho 0%nat) i) * B) vn' vp' vn vp).
    { constructor.
      - rewrite I1, I2. cbn [uniform p_I0]. ring.
      - intros l t Hl Htt. rewrite (uniform_source p B l t Hl). pose proof (C1 l t Hl Htt). lra.
      - intros i Hi. pose proof (C2 i Hi). lra.
      - intros i Hi. pose proof (C3 i Hi). lra. }
    assert (HP : forall i t, (i < streams p)%nat -> 0 <= t <= bottom p -> U 0%nat i t + U' 0%nat i t = B).
    { intros i t Hi Hti. destruct BD as [b1 b2 b3 b4].
      pose proof (proj2 (call_only p lg la jk out Hla Hlu Hlg Hp U HU w Hw ltac:(tauto) ltac:(tauto) vn vp b1 b2 rho b3 0%nat (seen_0 p V)) _
        (bvp_comb 1 (-1) _ p' p _ w _ _ vn' vp' vn vp _ 0 _ _ (uniform_medium p B) SM SU Z B') i t Hi Hti) as E. cbv beta in E. lra. }
    rewrite (streams_eq p V) in HP.
    assert (Ht' : depths_ok p' tau) by (intros t Hin; rewrite (sm_bottom p' p SM); apply Ht; exact Hin).
    assert (Hin : forall k, (k < length tau)%nat -> 0 <= nth k tau 0 <= bottom p) by (intros k Hk'; apply Ht, nth_In; exact Hk').
    destruct (call_fluxes p lg la jk out Hla Hlg Hp U HU) as (w1 & D1 & R1 & R1'). destruct (call_fluxes p' lg la' jk' out' Hla' Hlg' Hp' U' HU') as (w2 & D2 & R2 & R2').
    rewrite (sm_half p' p SM), Emu in *. pose proof (dg_weights _ _ _ _ D2 D1) as W2.
    assert (HS : forall o t, (o = 0 \/ o = half p)%nat -> 0 <= t <= bottom p ->
      2 * PI * rsum (half p) (fun i => w1 i * nth i (po_mu out) 0 * U 0%nat (o + i)%nat t)
      + 2 * PI * rsum (half p) (fun i => w2 i * nth i (po_mu out) 0 * U' 0%nat (o + i)%nat t) = PI * B).
    { intros o t Ho Hti. rewrite <- Rmult_plus_distr_l, <- rsum_plus. rewrite (rsum_ext _ _ (fun i => B * (w1 i * nth i (po_mu out) 0))).
      - rewrite rsum_scal, (dg_first (half p) (po_mu out) w1 (half_pos p V) D1). field.
      - intros i Hi. rewrite W2 by exact Hi. rewrite <- (HP (o + i)%nat t) by (auto; lia). ring. }
    split; [|split].
    - destruct (proj1 HU tau Ht) as (A & EA & SA). destruct (proj1 HU' tau Ht') as (A' & EA' & SA'). exists A, A'. split; [exact EA|]. split; [exact EA'|].
      rewrite (sm_streams p' p SM) in SA'. refine (squeezed_add _ _ _ _ _ _ SA SA' _). intros idx Hi. apply inb_2 in Hi as (i & k & -> & Hi & Hkk). cbn [nth]. apply HP; [rewrite <- (streams_eq p V); exact Hi|auto].
    - destruct (R1 tau Ht) as (A & EA & SA). destruct (R2 tau Ht') as (A' & EA' & SA'). exists A, A'. split; [exact EA|]. split; [exact EA'|].
      refine (squeezed_add _ _ _ _ _ _ SA SA' _). intros idx Hi. apply inb_1 in Hi as (k & -> & Hkk). cbn [nth]. exact (HS 0%nat _ (or_introl eq_refl) (Hin k Hkk)).
    - destruct (R1' tau Ht) as (A & A0 & EA & SA & _). destruct (R2' tau Ht') as (A' & A0' & EA' & SA' & _). exists A, A0, A', A0'. split; [exact EA|]. split; [exact EA'|].
      refine (squeezed_add _ _ _ _ _ _ SA SA' _). intros idx Hi. apply inb_1 in Hi as (k & -> & Hkk). cbn [nth]. rewrite <- (HS (half p) _ (or_intror eq_refl) (Hin k Hkk)).
      unfold direct. rewrite I1, I2. ring.
  Qed.
End Two.
