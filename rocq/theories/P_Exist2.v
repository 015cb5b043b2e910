(** The exact radiation field, one step of the iteration: the field that a given field of scattered
    radiation, the sources and the boundaries produce. *)
From Coq Require Import String Reals Lra Lia List Bool Arith ZArith.
From Coquelicot Require Import Coquelicot.
From Verif Require Import Base Tensor Spec M_LinAlg Spec_RTE Calc M_Subroutines M_GenPart M_MathscrV M_Coeffs M_Assemble M_Pydisort
  Spec_Sol Spec_Valid Spec_Calls Spec_Unique Spec_Phys Spec_Mono Spec_Depend Spec_Exact P_Special P_Addition P_Quad P_Fourier P_Sub P_Solve P_Energy P_Pydisort P_Pydisort2 P_Pydisort3 P_Pydisort4 P_Pydisort5 P_Pydisort6 P_Pydisort8 P_Teq P_NT P_NT3 P_Unique2 P_Refine P_Max P_Max2 P_Max3 P_Max4 P_Mono P_Sym P_Depend P_Depend2 P_Gauss P_Conv P_Conv2 P_Conv3 P_Exist.
Import ListNotations.
Local Open Scope R_scope.

Lemma RInt_mult (g : R -> R) m : ex_RInt g 0 1 -> RInt (fun y => m * g y) 0 1 = m * RInt g 0 1 /\ ex_RInt (fun y => m * g y) 0 1.
Proof. intros Hg. split; [exact (RInt_scal (V := R_CompleteNormedModule) g 0 1 m Hg)|exact (ex_RInt_scal (V := R_NormedModule) g 0 1 m Hg)]. Qed.
Lemma RInt_bound (f g : R -> R) m : ex_RInt f 0 1 -> ex_RInt g 0 1 -> (forall y, 0 < y < 1 -> Rabs (f y) <= m * g y) -> Rabs (RInt f 0 1) <= m * RInt g 0 1.
Proof.
  intros Hf Hg H. destruct (RInt_mult g m Hg) as [E1 X1]. destruct (RInt_mult g (- m) Hg) as [E2 X2].
  apply Rabs_le. split.
  - apply Rle_trans with (- m * RInt g 0 1); [lra|]. rewrite <- E2. apply RInt_le; [lra|exact X2|exact Hf|]. intros y Hy. pose proof (H y Hy) as K. apply Rabs_le_between in K. lra.
  - rewrite <- E1. apply RInt_le; [lra|exact Hf|exact X1|]. intros y Hy. pose proof (H y Hy) as K. apply Rabs_le_between in K. lra.
Qed.
(** An integrand that is small except near the horizontal. *)
Lemma RInt_split (f : R -> R) d A e : 0 < d < 1 -> ex_RInt f 0 1 -> (forall y, 0 < y < 1 -> Rabs (f y) <= A) -> (forall y, d <= y < 1 -> Rabs (f y) <= e) -> Rabs (RInt f 0 1) <= d * A + e.
Proof.
  intros Hd Hf HA He. assert (H1 : ex_RInt f 0 d) by (apply (ex_RInt_Chasles_1 (V := R_CompleteNormedModule) f 0 d 1); [lra|exact Hf]). assert (H2 : ex_RInt f d 1) by (apply (ex_RInt_Chasles_2 (V := R_CompleteNormedModule) f 0 d 1); [lra|exact Hf]).
  rewrite <- (RInt_Chasles (V := R_CompleteNormedModule) f 0 d 1 H1 H2). unfold plus; cbn.
  assert (He0 : 0 <= e) by (eapply Rle_trans; [apply Rabs_pos|apply (He d); lra]).
  assert (G : forall a b c, a <= b -> 0 <= c -> ex_RInt f a b -> (forall y, a < y < b -> Rabs (f y) <= c) -> Rabs (RInt f a b) <= (b - a) * c).
  { intros a b c Hab Hc Hex H. assert (Ec : forall u : R, RInt (V := R_CompleteNormedModule) (fun _ => u) a b = (b - a) * u) by (intros u; rewrite RInt_const; unfold scal; cbn; unfold mult; cbn; ring).
    apply Rabs_le. split.
    - replace (- ((b - a) * c)) with ((b - a) * (- c)) by ring. rewrite <- Ec. apply RInt_le; [exact Hab|apply ex_RInt_const|exact Hex|]. intros y Hy. pose proof (H y Hy) as K. apply Rabs_le_between in K. lra.
    - rewrite <- Ec. apply RInt_le; [exact Hab|exact Hex|apply ex_RInt_const|]. intros y Hy. pose proof (H y Hy) as K. apply Rabs_le_between in K. lra. }
  eapply Rle_trans; [apply Rabs_triang|]. apply Rplus_le_compat.
  - replace (d * A) with ((d - 0) * A) by ring. apply G; [lra| |exact H1|intros; apply HA; lra]. eapply Rle_trans; [apply Rabs_pos|apply (HA d); lra].
  - apply Rle_trans with ((1 - d) * e); [apply G; [lra|lra|exact H2|intros; apply He; lra]|]. nra.
Qed.
Lemma int_diff (f g : R -> R) : ex_RInt f 0 1 -> ex_RInt g 0 1 -> RInt (fun y => f y - g y) 0 1 = RInt f 0 1 - RInt g 0 1 /\ ex_RInt (fun y => f y - g y) 0 1.
Proof. intros Hf Hg. split; [exact (RInt_minus (V := R_CompleteNormedModule) f g 0 1 Hf Hg)|exact (ex_RInt_minus (V := R_NormedModule) f g 0 1 Hf Hg)]. Qed.

Section Row.
  Variables (p : py_in) (V : valid p).
  Notation NL := (nlayers p).
  Notation K := (scatters p).
  Lemma leg_pair k : is_RInt (fun y => legendre k y + legendre k (- y)) 0 1 (if Nat.eqb k 0 then 2 else 0).
  Proof.
    destruct k as [|k].
    - cbn [Nat.eqb]. apply (is_RInt_ext (V := R_NormedModule) (fun _ => 2)). { intros y _. rewrite !legendre_0. lra. }
      assert (X : is_RInt (V := R_NormedModule) (fun _ => 2) 0 1 (scal (1 - 0) 2)) by apply (is_RInt_const (V := R_NormedModule)). unfold scal in X; cbn in X; unfold mult in X; cbn in X. replace ((1 - 0) * 2) with 2 in X by ring. exact X.
    - cbn [Nat.eqb]. destruct (Nat.even (S k)) eqn:E.
      + assert (X : is_RInt (legendre (S k)) 0 1 0). { pose proof (RInt_correct (V := R_CompleteNormedModule) _ 0 1 (pol_int _ _ 0 1 (leg_pol (S k)))) as X. rewrite (leg_even_int (S k) ltac:(lia) E) in X. exact X. }
        pose proof (is_RInt_scal (V := R_NormedModule) _ 0 1 2 _ X) as X2. unfold scal in X2; cbn in X2; unfold mult in X2; cbn in X2. rewrite Rmult_0_r in X2. eapply is_RInt_ext; [|exact X2]. intros y _. cbv beta.
        rewrite legendre_parity. apply Nat.even_spec in E. destruct E as (j & ->). rewrite pow_1_even. change (2 * legendre (2 * j) y = legendre (2 * j) y + 1 * legendre (2 * j) y). ring.
      + assert (X : is_RInt (V := R_NormedModule) (fun _ => 0) 0 1 (scal (1 - 0) 0)) by apply (is_RInt_const (V := R_NormedModule)). unfold scal in X; cbn in X; unfold mult in X; cbn in X. rewrite Rmult_0_r in X. eapply is_RInt_ext; [|exact X].
        intros y _. rewrite legendre_parity. assert (O : Nat.odd (S k) = true) by (rewrite <- Nat.negb_even, E; reflexivity). apply Nat.odd_spec in O. destruct O as (j & ->). rewrite Nat.add_1_r, pow_1_odd. change (0 = legendre (S (2 * j)) y + -1 * legendre (S (2 * j)) y). ring.
  Qed.
  Lemma coeffs_pos : (0 < ncoeffs p)%nat.
  Proof. pose proof (v_leg p V) as H. unfold NLegZ, ncoeffs in *. lia. Qed.
  Lemma K_int l x s : (l < NL)%nat -> -1 <= x <= 1 -> s = 1 \/ s = -1 -> ex_RInt (fun y => K l x (s * y)) 0 1.
  Proof. intros Hl Hx Hs. apply cont_int. exact (K_cont p l x s Hl Hx Hs). Qed.
  Lemma K_int1 l x : (l < NL)%nat -> -1 <= x <= 1 -> ex_RInt (fun y => K l x y) 0 1.
  Proof. intros Hl Hx. eapply ex_RInt_ext; [|exact (K_int l x 1 Hl Hx (or_introl eq_refl))]. intros y _. cbv beta. rewrite Rmult_1_l. reflexivity. Qed.
  Lemma K_int2 l x : (l < NL)%nat -> -1 <= x <= 1 -> ex_RInt (fun y => K l x (- y)) 0 1.
  Proof. intros Hl Hx. eapply ex_RInt_ext; [|exact (K_int l x (-1) Hl Hx (or_intror eq_refl))]. intros y _. cbv beta. replace (-1 * y) with (- y) by ring. reflexivity. Qed.
  Lemma K_row l x : (l < NL)%nat -> -1 <= x <= 1 -> RInt (fun y => K l x y) 0 1 + RInt (fun y => K l x (- y)) 0 1 = scl p l - (1 - albedo p l).
  Proof.
    intros Hl Hx. transitivity (RInt (fun y => K l x y + K l x (- y)) 0 1); [symmetry; exact (RInt_plus (V := R_CompleteNormedModule) _ _ 0 1 (K_int1 l x Hl Hx) (K_int2 l x Hl Hx))|]. apply is_RInt_unique.
    set (c k := / 2 * ((2 * INR k + 1) * scattering p l k * legendre k x)).
    apply (is_RInt_ext (V := R_NormedModule) (fun y => rsum (ncoeffs p) (fun k => c k * (legendre k y + legendre k (- y))))).
    { intros y _. unfold scatters. rewrite <- !rsum_scal, <- rsum_plus. apply rsum_ext. intros k _. unfold c. ring. }
    assert (G : is_RInt (fun y => rsum (ncoeffs p) (fun k => c k * (legendre k y + legendre k (- y)))) 0 1 (rsum (ncoeffs p) (fun k => c k * (if Nat.eqb k 0 then 2 else 0)))).
    { apply (is_RInt_rsum (ncoeffs p) (fun k y => c k * (legendre k y + legendre k (- y)))). intros k _. exact (is_RInt_scal (V := R_NormedModule) _ 0 1 (c k) _ (leg_pair k)). }
    replace (scl p l - (1 - albedo p l)) with (rsum (ncoeffs p) (fun k => c k * (if Nat.eqb k 0 then 2 else 0))); [exact G|].
    pose proof coeffs_pos as Hn. destruct (ncoeffs p) as [|n]; [lia|]. rewrite rsum_S_l. rewrite (rsum_0 n) by (intros; cbn [Nat.eqb]; ring). unfold c, scattering, phase, scl. cbn [Nat.eqb INR]. rewrite legendre_0. field.
  Qed.
End Row.
