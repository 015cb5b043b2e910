(** Superposition of sources. *)
From Coq Require Import Classical String Reals Lra Lia List Bool Arith ZArith.
From Coquelicot Require Import Coquelicot.
From Verif Require Import Base Tensor Spec M_LinAlg Spec_RTE Calc M_Subroutines M_GenPart M_MathscrV M_Coeffs M_Assemble M_Pydisort
  Spec_Sol Spec_Valid Spec_Calls Spec_Unique Spec_Phys P_Special P_Quad P_Sub P_Solve P_Energy P_Pydisort P_Pydisort2 P_Pydisort3 P_Pydisort4 P_Pydisort5 P_Pydisort6 P_Pydisort8 P_Teq P_NT3 P_Unique2 P_Refine P_Max P_Max2 P_Max3 P_Max4.
Import ListNotations.
Local Open Scope R_scope.

Lemma bvp_comb a b p p' q mu w vn vp vn' vp' vn'' vp'' rho m F G : same_medium p q -> same_medium p' q ->
  superposed a b p p' q vn vp vn' vp' vn'' vp'' -> bvp p mu w vn vp rho m F -> bvp p' mu w vn' vp' rho m G ->
  bvp q mu w vn'' vp'' rho m (fun i t => a * F i t + b * G i t).
Proof.
  intros S S' [E1 E2 E3 E4] [A1 A2 A3 A4] [B1 B2 B3 B4]. constructor.
  - intros l i wg t Hl Hi Ht Hc.
    assert (DF : is_derive (F i) t (rte p mu w wg m l i t (fun j => F j t) / nth i mu 0)).
    { apply A1; rewrite ?(sm_nlayers p q S), ?(sm_streams p q S), ?(sm_top p q S), ?(sm_bot p q S), ?(sm_albedo_s p q S), ?(sm_wphase p q S), ?(sm_ncoeffs p q S); auto. }
    assert (DG : is_derive (G i) t (rte p' mu w wg m l i t (fun j => G j t) / nth i mu 0)).
    { apply B1; rewrite ?(sm_nlayers p' q S'), ?(sm_streams p' q S'), ?(sm_top p' q S'), ?(sm_bot p' q S'), ?(sm_albedo_s p' q S'), ?(sm_wphase p' q S'), ?(sm_ncoeffs p' q S'); auto. }
    refine (der_eq _ _ _ _ _ (der_plus _ _ _ _ _ (der_scal _ a _ _ DF) (der_scal _ b _ _ DG))). unfold rte.
    rewrite (sm_scl p q S), (sm_streams p q S), (sm_half p q S), (sm_albedo_s p q S), (sm_ncoeffs p q S), (sm_mu0 p q S), (sm_depth p q S), (sm_albedo p q S).
    rewrite (sm_scl p' q S'), (sm_streams p' q S'), (sm_half p' q S'), (sm_albedo_s p' q S'), (sm_ncoeffs p' q S'), (sm_mu0 p' q S'), (sm_depth p' q S'), (sm_albedo p' q S').
    rewrite (rsum_ext _ (fun j => wnode (half q) w j * D_spec (albedo_s q l) wg (ncoeffs q) m (nth i mu 0) (nth j mu 0) * (a * F j t + b * G j t))
      (fun j => a * (wnode (half q) w j * D_spec (albedo_s q l) wg (ncoeffs q) m (nth i mu 0) (nth j mu 0) * F j t) + b * (wnode (half q) w j * D_spec (albedo_s q l) wg (ncoeffs q) m (nth i mu 0) (nth j mu 0) * G j t))) by (intros; ring).
    rewrite rsum_plus, !rsum_scal. rewrite (E2 l t Hl Ht), E1. unfold X_spec. set (Sx := rsum (ncoeffs q) _). destruct (Nat.eqb m 0); unfold Rdiv; ring.
  - intros i Hi. apply cont_on_plus; apply cont_on_scal.
    + rewrite <- (sm_bottom p q S). apply A2. rewrite (sm_streams p q S). exact Hi.
    + rewrite <- (sm_bottom p' q S'). apply B2. rewrite (sm_streams p' q S'). exact Hi.
  - intros i Hi. pose proof (A3 i ltac:(rewrite (sm_half p q S); exact Hi)) as F3. pose proof (B3 i ltac:(rewrite (sm_half p' q S'); exact Hi)) as G3.
    rewrite (sm_half p q S) in F3. rewrite (sm_half p' q S') in G3. rewrite F3, G3, (E3 i Hi). destruct (Nat.eqb m 0); ring.
  - intros i Hi. pose proof (A4 i ltac:(rewrite (sm_half p q S); exact Hi)) as F4. pose proof (B4 i ltac:(rewrite (sm_half p' q S'); exact Hi)) as G4.
    rewrite (sm_half p q S), (sm_BDRF p q S), (sm_mu0 p q S), (sm_depth p q S), (sm_nlayers p q S), (sm_bottom p q S) in F4.
    rewrite (sm_half p' q S'), (sm_BDRF p' q S'), (sm_mu0 p' q S'), (sm_depth p' q S'), (sm_nlayers p' q S'), (sm_bottom p' q S') in G4.
    rewrite F4, G4, (E4 i Hi), E1.
    rewrite (rsum_ext _ (fun j => rho (nth i mu 0) (nth j mu 0) * nth j mu 0 * w j * (a * F (half q + j)%nat (bottom q) + b * G (half q + j)%nat (bottom q)))
      (fun j => a * (rho (nth i mu 0) (nth j mu 0) * nth j mu 0 * w j * F (half q + j)%nat (bottom q)) + b * (rho (nth i mu 0) (nth j mu 0) * nth j mu 0 * w j * G (half q + j)%nat (bottom q)))) by (intros; ring).
    rewrite rsum_plus, !rsum_scal. destruct (Nat.eqb m 0), (Nat.ltb m (length (p_BDRF q))); unfold Rdiv; ring.
Qed.

Lemma squeezed_comb a b A B C s f g h : squeezed A s f -> squeezed B s g -> squeezed C s h -> (forall idx, inb s idx -> h idx = a * f idx + b * g idx) -> tcomb a b A B C.
Proof.
  intros [S1 E1] [S2 E2] [S3 E3] H. split; [rewrite S1, S3; reflexivity|]. split; [rewrite S2, S3; reflexivity|]. intros idx Hi. rewrite S3 in Hi.
  rewrite E1 by (rewrite S1; exact Hi). rewrite E2 by (rewrite S2; exact Hi). rewrite E3 by (rewrite S3; exact Hi). unfold tsqueeze. cbn [elt]. apply H. apply inb_unsq. exact Hi.
Qed.

Section Super.
  Variables (a b : R) (p p' q : py_in) (lg : leggauss_t) (la la' la'' : linalg) (jk jk' jk'' : junk) (out out' out'' : py_out).
  Hypothesis Hla : linalg_ok la.
  Hypothesis Hla' : linalg_ok la'.
  Hypothesis Hla'' : linalg_ok la''.
  Hypothesis Hlu : linalg_unique la''.
  Hypothesis Hlg : leggauss_ok (half q) (lg (half q)).
  Hypothesis Hp : pydisort p lg la jk = Ok out.
  Hypothesis Hp' : pydisort p' lg la' jk' = Ok out'.
  Hypothesis Hq : pydisort q lg la'' jk'' = Ok out''.
  Hypothesis SM : same_medium p q.
  Hypothesis SM' : same_medium p' q.
  Variables (vn vp vn' vp' vn'' vp'' : nat -> R) (rho : nat -> R -> R -> R).
  Hypothesis BD : boundary_data p vn vp rho.
  Hypothesis BD' : boundary_data p' vn' vp' rho.
  Hypothesis BD'' : boundary_data q vn'' vp'' rho.
  Hypothesis SU : superposed a b p p' q vn vp vn' vp' vn'' vp''.

  Lemma mu_p : po_mu out = po_mu out''.
  Proof. exact (same_mu p q lg la la'' jk jk'' out out'' Hp Hq (sm_NQuad _ _ SM)). Qed.
  Lemma mu_p' : po_mu out' = po_mu out''.
  Proof. exact (same_mu p' q lg la' la'' jk' jk'' out' out'' Hp' Hq (sm_NQuad _ _ SM')). Qed.
  Lemma lg_p : leggauss_ok (half p) (lg (half p)). Proof. rewrite (sm_half p q SM). exact Hlg. Qed.
  Lemma lg_p' : leggauss_ok (half p') (lg (half p')). Proof. rewrite (sm_half p' q SM'). exact Hlg. Qed.

  Theorem super_modes U U' U'' m : modes_of p out U -> modes_of p' out' U' -> modes_of q out'' U'' -> seen p m -> seen p' m -> seen q m ->
    forall i t, (i < streams q)%nat -> 0 <= t <= bottom q -> U'' m i t = a * U m i t + b * U' m i t.
  Proof.
    intros HU HU' HU'' Hm Hm' Hm'' i t Hi Ht. destruct (call_fluxes q lg la'' jk'' out'' Hla'' Hlg Hq U'' HU'') as (w & Hw & _).
    assert (B : bvp p (po_mu out'') w vn vp (rho m) m (U m)).
    { rewrite <- mu_p. refine (bd_bvp p lg la jk out Hla lg_p Hp w vn vp rho _ BD U m HU Hm). rewrite (sm_half p q SM), mu_p. exact Hw. }
    assert (B' : bvp p' (po_mu out'') w vn' vp' (rho m) m (U' m)).
    { rewrite <- mu_p'. refine (bd_bvp p' lg la' jk' out' Hla' lg_p' Hp' w vn' vp' rho _ BD' U' m HU' Hm'). rewrite (sm_half p' q SM'), mu_p'. exact Hw. }
    destruct BD'' as [b1 b2 b3 b4]. symmetry.
    exact (proj2 (call_only q lg la'' jk'' out'' Hla'' Hlu Hlg Hq U'' HU'' w Hw ltac:(tauto) ltac:(tauto) vn'' vp'' b1 b2 rho b3 m Hm'')
      (fun i t => a * U m i t + b * U' m i t) (bvp_comb a b p p' q _ w vn vp vn' vp' vn'' vp'' _ m _ _ SM SM' SU B B') i t Hi Ht).
  Qed.

  Theorem call_super : forall tau, depths_ok q tau ->
    (exists A B C, po_u0 out tau false false false = Ok (PVal (PT A)) /\ po_u0 out' tau false false false = Ok (PVal (PT B)) /\
       po_u0 out'' tau false false false = Ok (PVal (PT C)) /\ tcomb a b A B C) /\
    (exists A B C, po_flux_up out tau false false = Ok (PVal (PT A)) /\ po_flux_up out' tau false false = Ok (PVal (PT B)) /\
       po_flux_up out'' tau false false = Ok (PVal (PT C)) /\ tcomb a b A B C) /\
    (exists A A0 B B0 C C0, po_flux_down out tau false false = Ok (PTup [PT A; PT A0]) /\ po_flux_down out' tau false false = Ok (PTup [PT B; PT B0]) /\
       po_flux_down out'' tau false false = Ok (PTup [PT C; PT C0]) /\ tcomb a b A B C) /\
    (forall u u' u'' phi, po_u out = Some u -> po_u out' = Some u' -> po_u out'' = Some u'' ->
       p_phi0 p = p_phi0 q -> p_phi0 p' = p_phi0 q -> nmodes p = nmodes q -> nmodes p' = nmodes q ->
       ~ nt_applies p -> ~ nt_applies p' -> ~ nt_applies q ->
       exists A B C, u tau phi false false false = Ok (PVal (PT A)) /\ u' tau phi false false false = Ok (PVal (PT B)) /\
       u'' tau phi false false false = Ok (PVal (PT C)) /\ tcomb a b A B C).
  Proof.
    intros tau Ht. pose proof (call_valid p lg la jk out Hp) as Vp. pose proof (call_valid p' lg la' jk' out' Hp') as Vp'. pose proof (call_valid q lg la'' jk'' out'' Hq) as Vq.
    destruct (modes_exist p lg la jk out Hla lg_p Hp) as (U & HU). destruct (modes_exist p' lg la' jk' out' Hla' lg_p' Hp') as (U' & HU'). destruct (modes_exist q lg la'' jk'' out'' Hla'' Hlg Hq) as (U'' & HU'').
    assert (T1 : depths_ok p tau) by (intros t Hin; rewrite (sm_bottom p q SM); apply Ht; exact Hin).
    assert (T2 : depths_ok p' tau) by (intros t Hin; rewrite (sm_bottom p' q SM'); apply Ht; exact Hin).
    assert (Hin : forall k, (k < length tau)%nat -> 0 <= nth k tau 0 <= bottom q) by (intros k Hk; apply Ht, nth_In; exact Hk).
    pose proof (super_modes U U' U'' 0 HU HU' HU'' (seen_0 p Vp) (seen_0 p' Vp') (seen_0 q Vq)) as HE. pose proof (streams_eq q Vq) as ES.
    destruct (call_fluxes p lg la jk out Hla lg_p Hp U HU) as (w1 & D1 & R1 & R1'). destruct (call_fluxes p' lg la' jk' out' Hla' lg_p' Hp' U' HU') as (w2 & D2 & R2 & R2').
    destruct (call_fluxes q lg la'' jk'' out'' Hla'' Hlg Hq U'' HU'') as (w3 & D3 & R3 & R3').
    rewrite (sm_half p q SM), mu_p in *. rewrite (sm_half p' q SM'), mu_p' in *.
    pose proof (dg_weights _ _ _ _ D1 D3) as W1. pose proof (dg_weights _ _ _ _ D2 D3) as W2.
    assert (HS : forall o t, (o = 0 \/ o = half q)%nat -> 0 <= t <= bottom q ->
      rsum (half q) (fun i => w3 i * nth i (po_mu out'') 0 * U'' 0%nat (o + i)%nat t)
      = a * rsum (half q) (fun i => w1 i * nth i (po_mu out'') 0 * U 0%nat (o + i)%nat t) + b * rsum (half q) (fun i => w2 i * nth i (po_mu out'') 0 * U' 0%nat (o + i)%nat t)).
    { intros o t Ho Hti. rewrite <- !rsum_scal, <- rsum_plus. apply rsum_ext. intros i Hi. rewrite W1, W2 by exact Hi. rewrite (HE (o + i)%nat t) by (auto; lia). ring. }
    split; [|split; [|split]].
    - destruct (proj1 HU tau T1) as (A & EA & SA). destruct (proj1 HU' tau T2) as (B & EB & SB). destruct (proj1 HU'' tau Ht) as (C & EC & SC). exists A, B, C. split; [exact EA|]. split; [exact EB|]. split; [exact EC|].
      rewrite (sm_streams p q SM) in SA. rewrite (sm_streams p' q SM') in SB. refine (squeezed_comb _ _ _ _ _ _ _ _ _ SA SB SC _). intros idx Hi. apply inb_2 in Hi as (i & k & -> & Hi & Hk). cbn [nth]. apply HE; auto.
    - destruct (R1 tau T1) as (A & EA & SA). destruct (R2 tau T2) as (B & EB & SB). destruct (R3 tau Ht) as (C & EC & SC). exists A, B, C. split; [exact EA|]. split; [exact EB|]. split; [exact EC|].
      refine (squeezed_comb _ _ _ _ _ _ _ _ _ SA SB SC _). intros idx Hi. apply inb_1 in Hi as (k & -> & Hk). cbn [nth]. pose proof (HS 0%nat _ (or_introl eq_refl) (Hin k Hk)) as E. cbn [Nat.add] in E. rewrite E. ring.
    - destruct (R1' tau T1) as (A & A0 & EA & SA & _). destruct (R2' tau T2) as (B & B0 & EB & SB & _). destruct (R3' tau Ht) as (C & C0 & EC & SC & _). exists A, A0, B, B0, C, C0. split; [exact EA|]. split; [exact EB|]. split; [exact EC|].
      refine (squeezed_comb _ _ _ _ _ _ _ _ _ SA SB SC _). intros idx Hi. apply inb_1 in Hi as (k & -> & Hk). cbn [nth]. rewrite (HS (half q) _ (or_intror eq_refl) (Hin k Hk)).
      unfold direct. rewrite (sm_sdepth p q SM), (sm_sdepth p' q SM'), (sm_mu0 p q SM), (sm_mu0 p' q SM'), (su_I0 _ _ _ _ _ _ _ _ _ _ _ SU). ring.
    - intros u u' u'' phi Eu Eu' Eu'' P1 P2 M1 M2 N1 N2 N3.
      destruct (proj2 HU u Eu N1 tau phi T1) as (A & EA & SA). destruct (proj2 HU' u' Eu' N2 tau phi T2) as (B & EB & SB). destruct (proj2 HU'' u'' Eu'' N3 tau phi Ht) as (C & EC & SC).
      exists A, B, C. split; [exact EA|]. split; [exact EB|]. split; [exact EC|]. rewrite (sm_streams p q SM) in SA. rewrite (sm_streams p' q SM') in SB. refine (squeezed_comb _ _ _ _ _ _ _ _ _ SA SB SC _).
      intros idx Hi. apply inb_3 in Hi as (i & k & h & -> & Hi & Hk & Hh). cbn [nth]. rewrite M1, M2, P1, P2, <- !rsum_scal, <- rsum_plus. apply rsum_ext. intros m Hm.
      assert (K1 : seen p m) by (split; [rewrite M1; exact Hm|right; assumption]). assert (K2 : seen p' m) by (split; [rewrite M2; exact Hm|right; assumption]). assert (K3 : seen q m) by (split; [exact Hm|right; assumption]).
      rewrite (super_modes U U' U'' m HU HU' HU'' K1 K2 K3 i _ Hi (Hin k Hk)). ring.
  Qed.
End Super.
