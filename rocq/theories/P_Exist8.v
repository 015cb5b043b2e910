(** The results settle as the number of streams grows. *)
From Coq Require Import String Reals Lra Lia List Bool Arith ZArith.
From Coquelicot Require Import Coquelicot.
From Verif Require Import Base Tensor Spec M_LinAlg Spec_RTE Calc M_Subroutines M_GenPart M_MathscrV M_Coeffs M_Assemble M_Pydisort
  Spec_Sol Spec_Valid Spec_Calls Spec_Unique Spec_Phys Spec_Mono Spec_Depend Spec_Exact P_Special P_Addition P_Quad P_Fourier P_Sub P_Solve P_Energy P_Pydisort P_Pydisort2 P_Pydisort3 P_Pydisort4 P_Pydisort5 P_Pydisort6 P_Pydisort8 P_Teq P_NT P_NT3 P_Unique2 P_Refine P_Max P_Max2 P_Max3 P_Max4 P_Mono P_Sym P_Depend P_Depend2 P_Gauss P_Conv P_Conv2 P_Conv3 P_Exist P_Exist2 P_Exist3 P_Full2 P_Exist4 P_Exist5 P_Exist6 P_Exist7 P_Conv4.
Import ListNotations.
Local Open Scope R_scope.

Lemma twithin_mid e A B C : twithin (e / 2) A C -> twithin (e / 2) B C -> twithin e A B.
Proof.
  intros [S1 H1] [S2 H2]. split; [congruence|]. intros idx Hi. pose proof (H1 idx Hi) as A1. rewrite S1, <- S2 in Hi. pose proof (H2 idx Hi) as A2. apply Rabs_le_between in A1. apply Rabs_le_between in A2. apply Rabs_le. lra.
Qed.
Theorem settles p bn bp rho r : valid p -> ucont1 bn -> ucont1 bp -> ucont2 (rho 0%nat) -> scattering_kept p ->
  (forall l x y, (l < nlayers p)%nat -> -1 <= x <= 1 -> -1 <= y <= 1 -> 0 <= phase_mode p 0 l x y) ->
  (forall x y, 0 <= x <= 1 -> 0 <= y <= 1 -> 0 <= rho 0%nat x y) ->
  r < 1 -> (forall x, 0 < x <= 1 -> 2 * RInt (fun y => rho 0%nat x y * y) 0 1 <= r) ->
  forall eps, 0 < eps -> exists N0, forall q lg la jk out q' lg' la' jk' out', same_problem p q -> same_problem p q' -> (N0 <= half q)%nat -> (N0 <= half q')%nat ->
  linalg_ok la -> leggauss_ok (half q) (lg (half q)) -> pydisort q lg la jk = Ok out ->
  linalg_ok la' -> leggauss_ok (half q') (lg' (half q')) -> pydisort q' lg' la' jk' = Ok out' ->
  boundary_data q (fun i => bn (nth i (po_mu out) 0)) (fun i => bp (nth i (po_mu out) 0)) rho ->
  boundary_data q' (fun i => bn (nth i (po_mu out') 0)) (fun i => bp (nth i (po_mu out') 0)) rho -> forall tau, depths_ok p tau ->
  (exists A A', po_flux_up out tau false false = Ok (PVal (PT A)) /\ po_flux_up out' tau false false = Ok (PVal (PT A')) /\ twithin eps A A') /\
  (exists A B A' B', po_flux_down out tau false false = Ok (PTup [PT A; PT B]) /\ po_flux_down out' tau false false = Ok (PTup [PT A'; PT B']) /\ twithin eps A A').
Proof.
  intros V Cn Cp Cr Kp Hph Hrho Hr Hr' eps He. destruct (exact_exists p V bn bp (rho 0%nat) r (K_nonneg p V Kp Hph) Cr Hrho Hr Hr' Cn Cp) as (J & EF).
  destruct (converges p V bn bp rho J r EF Cn Cp Cr Kp Hph Hrho Hr Hr' (eps / 2) ltac:(lra)) as (N0 & H). exists N0. intros q lg la jk out q' lg' la' jk' out' S1 S2 L1 L2 A1 A2 A3 B1 B2 B3 D1 D2 tau Ht.
  destruct (H q lg la jk out S1 L1 A1 A2 A3 D1 tau Ht) as (_ & (U & EU & WU) & (X & Y & ED & WD)). destruct (H q' lg' la' jk' out' S2 L2 B1 B2 B3 D2 tau Ht) as (_ & (U' & EU' & WU') & (X' & Y' & ED' & WD')).
  split; [exists U, U'; split; [exact EU|]; split; [exact EU'|]; eapply twithin_mid; eauto|]. exists X, Y, X', Y'. split; [exact ED|]. split; [exact ED'|]. eapply twithin_mid; eauto.
Qed.
