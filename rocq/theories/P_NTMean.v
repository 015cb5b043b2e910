(** Azimuthal mean of the corrected intensity. *)
From Coq Require Import String Reals Lra Lia List Bool Arith ZArith.
From Coquelicot Require Import Coquelicot.
From Verif Require Import Base Tensor Spec M_LinAlg Spec_RTE Calc M_Subroutines M_Assemble M_Pydisort Spec_Sol Spec_Valid Spec_Calls Spec_Full Spec_NT Spec_NTMean
  P_Special P_Sub P_Valid P_Fourier P_Addition P_Full P_Pydisort2 P_Pydisort3 P_Pydisort4 P_Pydisort5 P_NT3.
Import ListNotations.
Local Open Scope R_scope.

Lemma ri_scal f a b c v : is_RInt f a b v -> is_RInt (fun x => c * f x) a b (c * v).
Proof. intros H. exact (is_RInt_scal (V := R_NormedModule) f a b c v H). Qed.
Lemma ri_plus f g a b v w : is_RInt f a b v -> is_RInt g a b w -> is_RInt (fun x => f x + g x) a b (v + w).
Proof. intros H K. exact (is_RInt_plus (V := R_NormedModule) f g a b v w H K). Qed.
Lemma ri_eq f a b (v w : R) : v = w -> is_RInt f a b v -> is_RInt f a b w.
Proof. intros ->. auto. Qed.
Lemma ri_ext (f g : R -> R) a b (v : R) : (forall x, f x = g x) -> is_RInt f a b v -> is_RInt g a b v.
Proof. intros H. apply (is_RInt_ext (V := R_NormedModule)). intros x _. apply H. Qed.

Lemma int_series0 n (c : nat -> R) a : (1 <= n)%nat -> is_RInt (fun x => rsum n (fun m => c m * cos (INR m * (a - x)))) 0 (2 * PI) (2 * PI * c 0%nat).
Proof.
  intros Hn. apply (ri_eq _ _ _ (rsum n (fun m => c m * (if Nat.eqb m 0 then 2 * PI else 0)))).
  - destruct n as [|n]; [lia|]. clear Hn. induction n as [|n IH]; [cbn; ring|]. rewrite rsum_S, IH. cbn [Nat.eqb]. ring.
  - apply (is_RInt_rsum n (fun m x => c m * cos (INR m * (a - x)))). intros m _. apply ri_scal, int_cos.
Qed.

Section Mean.
  Variable p : py_in.
  Lemma scat_eq x phi : scat_cos p x phi = x * (- p_mu0 p) + sqrt (1 - x ^ 2) * sqrt (1 - (- p_mu0 p) ^ 2) * cos (p_phi0 p - phi).
  Proof. unfold scat_cos, dot3, unit_vec. rewrite cos_minus. ring. Qed.
  Lemma int_leg k x : -1 <= x <= 1 -> -1 <= - p_mu0 p <= 1 -> is_RInt (fun phi => legendre k (scat_cos p x phi)) 0 (2 * PI) (2 * PI * (legendre k x * legendre k (- p_mu0 p))).
  Proof.
    intros Hx Hm.
    apply (ri_ext (fun phi => rsum (S k) (fun m => (ec m * am x (- p_mu0 p) m k) * cos (INR m * (p_phi0 p - phi))))).
    - intros phi. rewrite scat_eq. symmetry. exact (legendre_addition x (- p_mu0 p) Hx Hm (p_phi0 p - phi) k).
    - apply (ri_eq _ _ _ (2 * PI * (ec 0 * am x (- p_mu0 p) 0 k))); [|apply int_series0; lia].
      unfold ec, am. cbn [Nat.eqb Nat.leb]. rewrite !lpmv_0, poch_0. ring.
  Qed.
  Lemma int_legs n (c : nat -> R) x : -1 <= x <= 1 -> -1 <= - p_mu0 p <= 1 ->
    is_RInt (fun phi => rsum n (fun k => c k * legendre k (scat_cos p x phi))) 0 (2 * PI) (2 * PI * rsum n (fun k => c k * legendre k x * legendre k (- p_mu0 p))).
  Proof.
    intros Hx Hm. rewrite <- rsum_scal. apply (is_RInt_rsum n (fun k phi => c k * legendre k (scat_cos p x phi))). intros k _.
    apply (ri_eq _ _ _ (c k * (2 * PI * (legendre k x * legendre k (- p_mu0 p))))); [ring|]. apply ri_scal, int_leg; assumption.
  Qed.
  Lemma sum_extend n m (c : nat -> R) : (n <= m)%nat -> rsum m (fun k => if Nat.ltb k n then c k else 0) = rsum n c.
  Proof.
    induction 1 as [|m H IH].
    - apply rsum_ext. intros k Hk. rewrite (proj2 (Nat.ltb_lt k n) Hk). reflexivity.
    - rewrite rsum_S, IH, (proj2 (Nat.ltb_ge m n)) by lia. ring.
  Qed.
  Lemma int_missing l x : (ncoeffs p <= ncol (p_Leg p))%nat -> fwd p l <> 1 -> -1 <= x <= 1 -> -1 <= - p_mu0 p <= 1 ->
    is_RInt (missing p l x) 0 (2 * PI) (2 * PI * mean_missing p l x).
  Proof.
    intros Hn Hf Hx Hm. unfold missing.
    set (K := albedo_s p l * p_I0 p / (4 * PI)).
    apply (ri_ext (fun phi => K * (/ (1 - fwd p l) * rsum (ncol (p_Leg p)) (fun k => ((2 * INR k + 1) * phase p l k) * legendre k (scat_cos p x phi))
      + -1 * rsum (ncoeffs p) (fun k => wphase_s p l k * legendre k (scat_cos p x phi))))).
    { intros phi. unfold p_exact, p_trunc. unfold Rdiv. ring. }
    eapply ri_eq; [|apply ri_scal; apply ri_plus; apply ri_scal; apply int_legs; assumption].
    unfold mean_missing. rewrite <- (sum_extend (ncoeffs p) (ncol (p_Leg p)) (fun k => wphase_s p l k * legendre k x * legendre k (- p_mu0 p))) by exact Hn.
    transitivity (K * (2 * PI) * (rsum (ncol (p_Leg p)) (fun k => / (1 - fwd p l) * ((2 * INR k + 1) * removed p l k * legendre k x * legendre k (- p_mu0 p))))).
    - rewrite <- !rsum_scal, <- rsum_plus, <- !rsum_scal. apply rsum_ext. intros k Hk. unfold removed, wphase_s, phase_s. destruct (Nat.ltb k (ncoeffs p)); field; lra.
    - rewrite rsum_scal. unfold K. pose proof PI_RGT_0. field. split; lra.
  Qed.
  Lemma int_ims x : -1 <= x <= 1 -> -1 <= - p_mu0 p <= 1 -> is_RInt (ims_factor p x) 0 (2 * PI) (2 * PI * mean_ims p x).
  Proof.
    intros Hx Hm. unfold ims_factor, mean_ims. eapply ri_eq; [|apply ri_scal; apply int_legs; assumption]. cbv beta. set (S := rsum _ _). ring.
  Qed.
End Mean.

Section Call.
  Variables (p : py_in) (lg : leggauss_t) (la : linalg) (jk : junk) (out : py_out).
  Hypothesis Hla : linalg_ok la.
  Hypothesis Hlg : leggauss_ok (half p) (lg (half p)).
  Hypothesis Hok : pydisort p lg la jk = Ok out.
  Variable u : list R -> list R -> bool -> bool -> bool -> res pret.
  Hypothesis Hu : po_u out = Some u.
  Hypothesis HF : nt_finite p (po_mu out).
  Local Notation nu q := (nth q (po_mu out) 0).

  Lemma nu_range i : (i < streams p)%nat -> -1 <= nu i <= 1.
  Proof.
    intros Hi. rewrite (mu_eq p lg la jk out Hok). rewrite (streams_eq p (Vp p lg la jk out Hok)) in Hi.
    destruct (mu_arr_gauss p lg Hlg) as (_ & H & _). destruct (Nat.lt_ge_cases i (half p)) as [E|E].
    - destruct (H i E) as (H1 & _). lra.
    - destruct (H (i - half p)%nat ltac:(lia)) as (H1 & H2 & _). replace (half p + (i - half p))%nat with i in H2 by lia. rewrite H2. lra.
  Qed.
  Lemma mu0_range : -1 <= - p_mu0 p <= 1.
  Proof. pose proof (v_mu0 p (Vp p lg la jk out Hok) (proj1 (proj2 (proj2 (proj1 HF))))). lra. Qed.

  Theorem nt_mean f : nt_is p u false f -> exists U G, modes_of p out U /\ scattered_once p (po_mu out) (fun _ _ _ => 1) (fun i t _ => G i t) /\
    (forall i l, (i < streams p)%nat -> (S l < nlayers p)%nat -> G i (bot_of p l) <> 0) /\
    forall i t, (i < streams p)%nat -> 0 <= t <= bottom p -> fwd p (lay p t) <> 1 ->
    is_RInt (f i t) 0 (2 * PI) (2 * PI * (U 0%nat i t + mean_missing p (lay p t) (nu i) * G i t
      + (if Nat.ltb i (half p) then 0 else mean_ims p (nu i) * chi_doc (- nu i) (mu0_s p) (mu0_s p) t))).
  Proof.
    intros Hf. destruct (nt_solution p lg la jk out Hla Hlg Hok u Hu HF) as (w & U & G & W & HD & HM & _ & _ & _ & _ & HG & HGn & HW & _ & HN).
    exists U, G. split; [exact HM|]. split; [exact HG|]. split; [exact HGn|]. intros i t Hi Ht H1. pose proof (Vp p lg la jk out Hok) as V.
    apply (ri_ext (fun phi => (rsum (nmodes p) (fun m => U m i t * cos (INR m * (p_phi0 p - phi))) + missing p (lay p t) (nu i) phi * G i t) + W i t phi)).
    { intros phi. symmetry. apply (nt_is_ext p u false _ _ Hf HN); auto. }
    replace (2 * PI * (U 0%nat i t + mean_missing p (lay p t) (nu i) * G i t + (if Nat.ltb i (half p) then 0 else mean_ims p (nu i) * chi_doc (- nu i) (mu0_s p) (mu0_s p) t)))
      with (2 * PI * U 0%nat i t + G i t * (2 * PI * mean_missing p (lay p t) (nu i)) + (if Nat.ltb i (half p) then 0 else chi_doc (- nu i) (mu0_s p) (mu0_s p) t * (2 * PI * mean_ims p (nu i))))
      by (destruct (Nat.ltb i (half p)); ring).
    apply ri_plus; [apply ri_plus|].
    - apply (int_series0 (nmodes p) (fun m => U m i t)). exact (nmodes_pos p V).
    - apply (ri_ext (fun phi => G i t * missing p (lay p t) (nu i) phi)); [intros; ring|]. apply ri_scal, int_missing; [|exact H1|apply nu_range; exact Hi|exact mu0_range].
      destruct HF as ((_ & _ & _ & _ & Hn & _) & _). lia.
    - rewrite (streams_eq p V) in Hi. destruct (Nat.ltb_spec i (half p)) as [E|E].
      + apply (ri_ext (fun _ => 0)); [intros phi; symmetry; apply (HW i t phi E Ht)|].
        apply (ri_eq _ _ _ ((2 * PI - 0) * 0)); [ring|]. exact (is_RInt_const (V := R_NormedModule) 0 (2 * PI) 0).
      + assert (Ex : exists j, (j < half p)%nat /\ i = (half p + j)%nat) by (exists (i - half p)%nat; lia). destruct Ex as (j & Ej & ->).
        assert (En : nth j (po_mu out) 0 = - nu (half p + j)%nat) by (destruct HD as (_ & HD & _); destruct (HD j Ej) as (_ & -> & _); ring).
        apply (ri_ext (fun phi => chi_doc (- nu (half p + j)%nat) (mu0_s p) (mu0_s p) t * ims_factor p (nu (half p + j)%nat) phi)).
        { intros phi. rewrite (proj2 (HW j t phi Ej Ht)), En. ring. }
        apply ri_scal, int_ims; [apply nu_range; rewrite (streams_eq p V); exact Hi|exact mu0_range].
  Qed.
  (** It is not the mean intensity. *)
  Theorem nt_mean_differs f U : nt_is p u false f -> modes_of p out U ->
    forall i l, (i < half p)%nat -> (S l < nlayers p)%nat -> fwd p l <> 1 -> mean_missing p l (nu i) <> 0 ->
    ~ is_RInt (f i (bot_of p l)) 0 (2 * PI) (2 * PI * U 0%nat i (bot_of p l)).
  Proof.
    intros Hf HU i l Hi Hl H1 Hm HI. pose proof (Vp p lg la jk out Hok) as V. destruct (nt_mean f Hf) as (U' & G & HU' & _ & HG & H).
    assert (Hi' : (i < streams p)%nat) by (rewrite (streams_eq p V); lia).
    assert (El : lay p (bot_of p l) = l) by (apply (lay_of_at p V); split; [lia|]; left; pose proof (v_inc p V l ltac:(unfold nlayers in *; lia)); lra).
    assert (Hr : 0 <= bot_of p l <= bottom p) by (apply (layer_in_range p lg la jk out Hlg Hok l); [lia|]; pose proof (v_inc p V l ltac:(unfold nlayers in *; lia)); lra).
    pose proof (H i (bot_of p l) Hi' Hr ltac:(rewrite El; exact H1)) as HI'. rewrite El, (proj2 (Nat.ltb_lt i (half p)) Hi), Rplus_0_r in HI'.
    pose proof (is_RInt_unique (V := R_CompleteNormedModule) _ _ _ _ HI) as E1. pose proof (is_RInt_unique (V := R_CompleteNormedModule) _ _ _ _ HI') as E2. rewrite E1 in E2.
    assert (EU : U 0%nat i (bot_of p l) = U' 0%nat i (bot_of p l)).
    { assert (Ht : depths_ok p [bot_of p l]) by (intros x [<-|[]]; exact Hr). destruct (proj1 HU _ Ht) as (A & EA & SA). destruct (proj1 HU' _ Ht) as (B & EB & SB).
      rewrite EA in EB. injection EB as <-. apply (squeezed_inj _ _ _ _ SA SB [i; 0%nat]). cbn. auto. }
    rewrite EU in E2. pose proof PI_RGT_0. specialize (HG i l Hi' Hl).
    assert (Z : mean_missing p l (nu i) * G i (bot_of p l) = 0) by (apply (Rmult_eq_reg_l (2 * PI)); [|lra]; lra).
    apply Rmult_integral in Z as [Z|Z]; [exact (Hm Z)|exact (HG Z)].
  Qed.
End Call.
