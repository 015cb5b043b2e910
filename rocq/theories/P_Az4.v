(** The exact radiation in every direction of the sphere exists and is unique. *)
From Coq Require Import String Reals Lra Lia List Bool Arith ZArith.
From Coquelicot Require Import Coquelicot.
From Verif Require Import Base Tensor Spec M_LinAlg Spec_RTE Calc M_Subroutines M_GenPart M_MathscrV M_Coeffs M_Assemble M_Pydisort
  Spec_Sol Spec_Valid Spec_Calls Spec_Unique Spec_Phys Spec_Mono Spec_Depend Spec_Exact P_Special P_Addition P_Quad P_Fourier P_Sub P_Solve P_Energy P_Pydisort P_Pydisort2 P_Pydisort3 P_Pydisort4 P_Pydisort5 P_Pydisort6 P_Pydisort8 P_Teq P_NT P_NT3 P_Unique2 P_Refine P_Max P_Max2 P_Max3 P_Max4 P_Mono P_Sym P_Depend P_Depend2 Spec_Full Spec_Azimuth P_Full P_Gauss P_Conv P_Conv2 P_Conv3 P_Exist P_Exist2 P_Exist3 P_Full2 P_Exist4 P_Exist5 P_Exist6 P_Exist7 P_Az1 P_Az2 P_Az3.
Import ListNotations.
Local Open Scope R_scope.


(** ** Integrals *)
Lemma int_both (g : R -> R) : ex_RInt g 0 1 -> ex_RInt (fun y => g (- y)) 0 1 -> is_RInt g (-1) 1 (RInt g 0 1 + RInt (fun y => g (- y)) 0 1).
Proof.
  intros H1 H2. apply (RInt_correct (V:=R_CompleteNormedModule)) in H1. apply (RInt_correct (V:=R_CompleteNormedModule)) in H2. rewrite Rplus_comm.
  apply (is_RInt_Chasles (V:=R_NormedModule)) with 0; [|exact H1].
  apply (is_RInt_swap (V:=R_NormedModule)) in H2. replace 1 with (- -1) in H2 at 1 by ring. replace 0 with (- 0) in H2 at 1 by ring. apply (is_RInt_comp_opp (V:=R_NormedModule)) in H2. apply (is_RInt_opp (V:=R_NormedModule)) in H2.
  eapply (is_RInt_ext (V:=R_NormedModule)); [|eapply (eq_ind _ (fun z : R => is_RInt _ _ _ z) H2); apply (opp_opp (G:=R_AbelianGroup))].
  intros y _. cbv beta. change (- - g (- - y) = g y). rewrite !Ropp_involutive. reflexivity.
Qed.
Lemma bound_half (g h : R -> R) a b A B : a <= b -> is_RInt g a b A -> is_RInt h a b B -> (forall y, a < y < b -> Rabs (g y) <= h y) -> Rabs A <= B.
Proof.
  intros Hab HA HB H. apply Rabs_le. split.
  - refine (is_RInt_le (fun y => - h y) g a b _ _ Hab _ HA _); [apply (is_RInt_opp (V:=R_NormedModule) h); exact HB|]. intros y Hy. specialize (H y Hy). apply Rabs_le_between in H. lra.
  - refine (is_RInt_le g h a b _ _ Hab HA HB _). intros y Hy. specialize (H y Hy). apply Rabs_le_between in H. lra.
Qed.
Lemma bound_both (g h : R -> R) A B : is_RInt g (-1) 1 A -> is_RInt h (-1) 1 B -> (forall y, direction y -> Rabs (g y) <= h y) -> Rabs A <= B.
Proof.
  intros HA HB H.
  assert (G1 : ex_RInt g (-1) 0) by (apply (ex_RInt_Chasles_1 (V:=R_CompleteNormedModule) g (-1) 0 1); [lra|eexists; exact HA]). assert (G2 : ex_RInt g 0 1) by (apply (ex_RInt_Chasles_2 (V:=R_CompleteNormedModule) g (-1) 0 1); [lra|eexists; exact HA]).
  assert (H1 : ex_RInt h (-1) 0) by (apply (ex_RInt_Chasles_1 (V:=R_CompleteNormedModule) h (-1) 0 1); [lra|eexists; exact HB]). assert (H2 : ex_RInt h 0 1) by (apply (ex_RInt_Chasles_2 (V:=R_CompleteNormedModule) h (-1) 0 1); [lra|eexists; exact HB]).
  destruct G1 as (g1 & G1), G2 as (g2 & G2), H1 as (h1 & H1), H2 as (h2 & H2).
  pose proof (is_RInt_unique _ _ _ _ HA) as EA. pose proof (is_RInt_unique _ _ _ _ (is_RInt_Chasles (V:=R_NormedModule) _ _ _ _ _ _ G1 G2)) as EA'. rewrite EA in EA'. pose proof (is_RInt_unique _ _ _ _ HB) as EB. pose proof (is_RInt_unique _ _ _ _ (is_RInt_Chasles (V:=R_NormedModule) _ _ _ _ _ _ H1 H2)) as EB'. rewrite EB in EB'.
  change (A = g1 + g2) in EA'. change (B = h1 + h2) in EB'. rewrite EA', EB'. eapply Rle_trans; [apply Rabs_triang|]. apply Rplus_le_compat.
  - refine (bound_half g h (-1) 0 _ _ ltac:(lra) G1 H1 _). intros y Hy. apply H. split; lra.
  - refine (bound_half g h 0 1 _ _ ltac:(lra) G2 H2 _). intros y Hy. apply H. split; lra.
Qed.
Lemma int_weighted (g h : R -> R) A B m : is_RInt g 0 (2 * PI) A -> is_RInt (fun z => g z * h z) 0 (2 * PI) B -> (forall z, 0 <= g z) -> (forall z, Rabs (h z) <= m) -> Rabs B <= m * A.
Proof.
  intros HA HB Hg Hh. pose proof PI_RGT_0. refine (bound_half _ (fun z => m * g z) 0 (2 * PI) _ _ ltac:(lra) HB _ _); [apply (is_RInt_scal (V:=R_NormedModule) g); exact HA|].
  intros z _. rewrite Rabs_mult, (Rabs_pos_eq (g z)), Rmult_comm by auto. apply Rmult_le_compat_r; auto.
Qed.
Lemma int_dif (g h h' : R -> R) a b A B : is_RInt (fun z => g z * h z) a b A -> is_RInt (fun z => g z * h' z) a b B -> is_RInt (fun z => g z * (h z - h' z)) a b (A - B).
Proof. intros HA HB. eapply (is_RInt_ext (V:=R_NormedModule)); [|exact (is_RInt_minus (V:=R_NormedModule) _ _ _ _ _ _ HA HB)]. intros z _. unfold minus, plus, opp; cbn. ring. Qed.
Lemma int_mean p l x a y : (0 < ncoeffs p)%nat -> -1 <= x <= 1 -> -1 <= y <= 1 -> is_RInt (fun z => phase_at p l (cos_between x a y z)) 0 (2 * PI) (2 * PI * phase_mode p 0 l x y).
Proof.
  intros Hn Hx Hy. pose proof (int_series (ncoeffs p) (fun k => ec k * phase_mode p k l x y) (fun k => if Nat.eqb k 0 then 1 else 0) a 0) as X.
  eapply (is_RInt_ext (V:=R_NormedModule)) in X.
  - eapply (eq_ind _ (fun z : R => is_RInt _ _ _ z) X). rewrite (rsum_single _ 0); [cbn [Nat.eqb]; unfold ec; cbn [INR Nat.eqb]; rewrite Rmult_0_l, cos_0; ring|lia|].
    intros m Hm Hne. rewrite (proj2 (Nat.eqb_neq m 0)) by auto. ring.
  - intros z _. simpl. rewrite (rsum_single _ 0 (fun k => (if Nat.eqb k 0 then 1 else 0) * _)); [|lia|intros m Hm Hne; rewrite (proj2 (Nat.eqb_neq m 0)) by auto; ring].
    cbn [Nat.eqb INR]. rewrite Rmult_0_l, cos_0, !Rmult_1_r. rewrite phase_modes by auto. reflexivity.
Qed.
Lemma int_smean p rho x a y : is_RInt (fun z => surface_at p rho x a y z) 0 (2 * PI) (if Nat.ltb 0 (length (p_BDRF p)) then 2 * PI * rho 0%nat x y else 0).
Proof.
  unfold surface_at. set (n := length (p_BDRF p)).
  pose proof (int_series n (fun m => rho m x y) (fun m => if Nat.eqb m 0 then 1 else 0) a 0) as X. destruct n as [|n'].
  - eapply (is_RInt_ext (V:=R_NormedModule)) in X; [exact X|]. intros z _. cbn. ring.
  - eapply (is_RInt_ext (V:=R_NormedModule)) in X.
    + eapply (eq_ind _ (fun z : R => is_RInt _ _ _ z) X). rewrite (rsum_single (S n') 0); [cbn [Nat.eqb Nat.ltb Nat.leb INR]; rewrite Rmult_0_l, cos_0; ring|lia|].
      intros m Hm Hne. rewrite (proj2 (Nat.eqb_neq m 0)) by auto. ring.
    + intros z _. rewrite (rsum_single (S n') 0 (fun k => (if Nat.eqb k 0 then 1 else 0) * _)); [|lia|intros m Hm Hne; rewrite (proj2 (Nat.eqb_neq m 0)) by auto; ring].
      cbn [Nat.eqb INR]. rewrite Rmult_0_l, cos_0, !Rmult_1_r. reflexivity.
Qed.

Section Exact.
  Variables (p : py_in) (V : valid p) (bn bp : R -> R) (rho : nat -> R -> R -> R) (r : R).
  Notation NL := (nlayers p).
  Notation T := (bottom p).
  Notation nB := (length (p_BDRF p)).
  Hypothesis Hf : forall l, (l < NL)%nat -> fwd p l < 1.
  Hypothesis Hph : phase_positive p.
  Hypothesis AS : absorbing_surface p rho r.

  Lemma scat_int l x : (l < NL)%nat -> -1 <= x <= 1 -> is_RInt (fun y => scatters p l x y) (-1) 1 (scl p l - (1 - albedo p l)).
  Proof. intros Hl Hx. rewrite <- (K_row p V l x Hl Hx). apply (int_both (fun y => scatters p l x y)); [apply K_int1; auto|apply K_int2; auto]. Qed.

  Section Unique.
    Variables (f f' : R -> R -> R -> R).
    Hypothesis EF : exact_intensity p bn bp rho f.
    Hypothesis EF' : exact_intensity p bn bp rho f'.
    Variables (nu kap : R).
    Hypothesis Hnu : 0 < nu /\ forall l, (l < NL)%nat -> nu <= 1 - albedo p l.
    Hypothesis Hkap : 1 - nu <= kap /\ r <= kap.
    Lemma ustep m : 0 <= m -> (forall x t a, direction x -> 0 <= t <= T -> Rabs (f x t a - f' x t a) <= m) -> forall x t a, direction x -> 0 <= t <= T -> Rabs (f x t a - f' x t a) <= kap * m.
    Proof.
      intros Hm HD x t a Hx Ht. pose proof PI_RGT_0 as HPI. replace (f x t a - f' x t a) with (f x t a + (-1) * f' x t a) by ring.
      set (F := fun s => f x s a + (-1) * f' x s a).
      refine (ode_bound p V x F (fun l u => scl p l * F u - x * Derive F u) (kap * m) Hx _ _ _ _ t Ht).
      - apply cont_on_plus; [apply (ei_continuous _ _ _ _ _ EF); auto|apply cont_on_scal, (ei_continuous _ _ _ _ _ EF'); auto].
      - intros l u Hl Hu. destruct (ei_transfer _ _ _ _ _ EF l x u a Hl Hx Hu) as (S & A & _ & _ & D). destruct (ei_transfer _ _ _ _ _ EF' l x u a Hl Hx Hu) as (S' & A' & _ & _ & D').
        pose proof (der_plus _ _ _ _ _ D (der_scal _ (-1) _ _ D')) as DF. match type of DF with is_derive _ _ ?d => change (is_derive F u d) in DF end. rewrite (is_derive_unique _ _ _ DF). refine (der_eq _ _ _ _ _ DF). field. split; [lra|apply Hx].
      - intros l u Hl Hu. destruct (ei_transfer _ _ _ _ _ EF l x u a Hl Hx Hu) as (S & A & HS & HA & D). destruct (ei_transfer _ _ _ _ _ EF' l x u a Hl Hx Hu) as (S' & A' & HS' & HA' & D').
        pose proof (der_plus _ _ _ _ _ D (der_scal _ (-1) _ _ D')) as DF. match type of DF with is_derive _ _ ?d => change (is_derive F u d) in DF end. rewrite (is_derive_unique _ _ _ DF). pose proof (scl_pos p V l Hl) as Hsc. pose proof (albedo_s_range p V l Hl) as [Ha _]. pose proof (in_bottom p V l u Hl ltac:(lra)) as Hub.
        set (c := scl p l * (albedo_s p l / (4 * PI))). assert (Hc : 0 <= c). { apply Rmult_le_pos; [lra|]. apply Rmult_le_pos; [lra|apply Rlt_le, Rinv_0_lt_compat; lra]. }
        replace (scl p l * F u - x * _) with (c * (A - A')) by (unfold F, c; field; split; [lra|apply Hx]).
        apply Rle_trans with (m * (scl p l - (1 - albedo p l))).
        2: { pose proof (proj2 Hnu l Hl). destruct Hkap as [Hk1 _]. destruct Hnu as [Hn0 _]. rewrite Rmult_comm, <- Rmult_assoc. apply Rmult_le_compat_r; [exact Hm|]. apply Rle_trans with (scl p l * (1 - nu)); [nra|]. apply Rmult_le_compat_l; lra. }
        apply (bound_both (fun y => c * (S y - S' y)) (fun y => m * scatters p l x y)).
        + apply (is_RInt_scal (V:=R_NormedModule) (fun y => S y - S' y)). exact (is_RInt_minus (V:=R_NormedModule) _ _ _ _ _ _ HA HA').
        + apply (is_RInt_scal (V:=R_NormedModule) (fun y => scatters p l x y)). apply scat_int; [exact Hl|apply Hx].
        + intros y Hy. rewrite (scatters_K p V) by auto. unfold Km. destruct (Rle_lt_or_eq_dec _ _ Ha) as [Hlt|E].
          * pose proof (int_weighted _ (fun z => f y u z - f' y u z) _ _ m (int_mean p l x a y (nc0 p V) (proj1 Hx) (proj1 Hy)) (int_dif _ _ _ _ _ _ _ (HS y Hy) (HS' y Hy))) as B. cbv beta in B.
            assert (B' : Rabs (S y - S' y) <= m * (2 * PI * phase_mode p 0 l x y)). { apply B; [intros z; apply Hph; auto; apply cos_between_range; [apply Hx|apply Hy]|intros z; apply HD; auto]. }
            rewrite Rabs_mult, (Rabs_pos_eq c) by exact Hc. apply Rle_trans with (c * (m * (2 * PI * phase_mode p 0 l x y))); [apply Rmult_le_compat_l; auto|]. right. unfold c. field. lra.
          * unfold c. rewrite <- E. unfold Rdiv. rewrite ?Rmult_0_l, ?Rmult_0_r, ?Rmult_0_l, ?Rmult_0_r, Rabs_R0. lra.
      - assert (Hkm : r * m <= kap * m) by (apply Rmult_le_compat_r; [exact Hm|apply Hkap]). pose proof (as_share _ _ _ AS) as Hr. assert (0 <= r * m) by (apply Rmult_le_pos; lra). destruct Hx as [Hx1 Hx0]. unfold entry, F.
        assert (Z : forall a, a + (-1) * a = 0) by (intros; ring). destruct (Rlt_dec 0 x) as [H0|H0].
        2: { assert (E : x = - - x) by ring. rewrite E, (ei_top _ _ _ _ _ EF (- x)), (ei_top _ _ _ _ _ EF' (- x)), Z, Rabs_R0 by lra. lra. }
        destruct (ei_bottom _ _ _ _ _ EF x a ltac:(lra)) as (S & A & HS & HA & ->). destruct (ei_bottom _ _ _ _ _ EF' x a ltac:(lra)) as (S' & A' & HS' & HA' & ->).
        match goal with |- Rabs (?a + ?i * ?b + ?c + (-1) * (?a + ?i * ?b' + ?c)) <= _ => replace (a + i * b + c + (-1) * (a + i * b' + c)) with (i * (b - b')) by ring end. eapply Rle_trans; [|exact Hkm].
        assert (Hip : 0 < / PI) by (apply Rinv_0_lt_compat; lra). pose proof (bottom_pos p V) as HT.
        destruct (Rm_int p rho (as_continuous _ _ _ AS) r (fun x Hx H => as_albedo _ _ _ AS x Hx H) (proj1 Hr) x ltac:(lra)) as [XR HR].
        apply Rle_trans with (m * RInt (Rm p rho 0 x) 0 1); [|rewrite (Rmult_comm r); apply Rmult_le_compat_l; auto].
        apply (bound_half (fun y => / PI * (y * S y - y * S' y)) (fun y => m * Rm p rho 0 x y) 0 1); [lra| | |].
        + apply (is_RInt_scal (V:=R_NormedModule) (fun y => y * S y - y * S' y)). exact (is_RInt_minus (V:=R_NormedModule) _ _ _ _ _ _ HA HA').
        + apply (is_RInt_scal (V:=R_NormedModule) (fun y => Rm p rho 0 x y)). apply (RInt_correct (V:=R_CompleteNormedModule)). exact XR.
        + intros y Hy. pose proof (int_weighted _ (fun z => f (- y) T z - f' (- y) T z) _ _ m (int_smean p rho x a y) (int_dif _ _ _ _ _ _ _ (HS y ltac:(lra)) (HS' y ltac:(lra)))) as B. cbv beta in B.
          assert (B' : Rabs (S y - S' y) <= m * (if Nat.ltb 0 nB then 2 * PI * rho 0%nat x y else 0)). { apply B; [intros z; apply (as_nonneg _ _ _ AS); lra|intros z; apply HD; [split; lra|lra]]. }
          rewrite <- Rmult_minus_distr_l, !Rabs_mult, (Rabs_pos_eq (/ PI)), (Rabs_pos_eq y) by lra.
          apply Rle_trans with (/ PI * (y * (m * (if Nat.ltb 0 nB then 2 * PI * rho 0%nat x y else 0)))); [apply Rmult_le_compat_l; [lra|]; apply Rmult_le_compat_l; lra|]. right. unfold Rm. cbn [Nat.eqb]. destruct (Nat.ltb 0 nB); [field; lra|ring].
    Qed.
  End Unique.

  Theorem intensity_unique f f' : exact_intensity p bn bp rho f -> exact_intensity p bn bp rho f' -> forall x t a, direction x -> 0 <= t <= T -> f x t a = f' x t a.
  Proof.
    intros EF EF' x t a Hx Ht. destruct (nu_ex p V) as (nu & Hn0 & Hnu). destruct (ei_bounded _ _ _ _ _ EF) as (M & HM). destruct (ei_bounded _ _ _ _ _ EF') as (M' & HM'). pose proof (as_share _ _ _ AS) as Hr.
    assert (PM : 0 <= M /\ 0 <= M'). { split; (eapply Rle_trans; [apply Rabs_pos|]); [apply (HM x t a Hx Ht)|apply (HM' x t a Hx Ht)]. }
    set (kap := Rmax (1 - nu) r). assert (Hk : 0 <= kap < 1) by (split; [eapply Rle_trans; [apply Hr|apply Rmax_r]|apply Rmax_lub_lt; lra]). assert (Hk' : 1 - nu <= kap /\ r <= kap) by (split; [apply Rmax_l|apply Rmax_r]).
    assert (G : forall n x t a, direction x -> 0 <= t <= T -> Rabs (f x t a - f' x t a) <= kap ^ n * (M + M')).
    { induction n as [|n IH]; intros y u b Hy Hu; cbn [pow].
      - unfold Rminus. eapply Rle_trans; [apply Rabs_triang|]. rewrite Rabs_Ropp. pose proof (HM y u b Hy Hu). pose proof (HM' y u b Hy Hu). lra.
      - rewrite Rmult_assoc. apply (ustep f f' EF EF' nu kap (conj (proj1 Hn0) Hnu) Hk'); auto. apply Rmult_le_pos; [apply pow_le; lra|lra]. }
    destruct (Req_dec (f x t a) (f' x t a)) as [|Hne]; [assumption|exfalso]. assert (He : 0 < Rabs (f x t a - f' x t a)) by (apply Rabs_pos_lt; lra). destruct (pow_small kap (M + M') _ Hk ltac:(lra) He) as (N & HN). specialize (HN N (Nat.le_refl N)). pose proof (G N x t a Hx Ht). lra.
  Qed.

  (** ** Existence: the sum of the modes *)
  Section Sum.
    Variables (N : nat) (J : nat -> R -> R -> R).
    Hypothesis HN : (ncoeffs p <= N)%nat.
    Hypothesis HB : (nB <= N)%nat.
    Hypothesis HJ : forall m, (m < N)%nat -> gfield p (Km p m) (Gm p m) (bnm bn m) (bpm p bp rho m) (Rm p rho m) (J m).
    Definition Fsum (x t a : R) : R := rsum N (fun m => cos (INR m * (p_phi0 p - a)) * J m x t).

    Lemma rsum_pad n (g h : nat -> R) : (n <= N)%nat -> (forall k, (k < n)%nat -> g k = h k) -> (forall k, (n <= k)%nat -> h k = 0) -> rsum n g = rsum N h.
    Proof. intros Hn H1 H2. replace N with (n + (N - n))%nat by lia. rewrite rsum_split, (rsum_0 (N - n)) by (intros; apply H2; lia). rewrite Rplus_0_r. apply rsum_ext. exact H1. Qed.
    Lemma phase_pad l x a y b : -1 <= x <= 1 -> -1 <= y <= 1 -> phase_at p l (cos_between x a y b) = rsum N (fun m => (ec m * phase_mode p m l x y) * cos (INR m * (a - b))).
    Proof. intros Hx Hy. rewrite phase_modes by (auto using nc0). apply rsum_pad; [exact HN|reflexivity|]. intros k Hk. rewrite phase_mode_out by exact Hk. ring. Qed.
    Definition rhoN (m : nat) (x y : R) : R := if Nat.ltb m nB then rho m x y else 0.
    Lemma surface_pad x a y b : surface_at p rho x a y b = rsum N (fun m => rhoN m x y * cos (INR m * (a - b))).
    Proof. unfold surface_at. apply rsum_pad; [exact HB| |]; intros k Hk; unfold rhoN; destruct (Nat.ltb_spec k nB); try lia; [reflexivity|ring]. Qed.
    Lemma turn_mode m : ec m * (if Nat.eqb m 0 then 2 * PI else PI) = 2 * PI. Proof. unfold ec. destruct (Nat.eqb m 0); ring. Qed.
    Lemma Fsum_eq y t b : Fsum y t b = rsum N (fun k => J k y t * cos (INR k * (p_phi0 p - b))).
    Proof. apply rsum_ext. intros. ring. Qed.
    Lemma inner l x a y t : -1 <= x <= 1 -> -1 <= y <= 1 -> is_RInt (fun b => phase_at p l (cos_between x a y b) * Fsum y t b) 0 (2 * PI)
      (rsum N (fun m => 2 * PI * cos (INR m * (p_phi0 p - a)) * (phase_mode p m l x y * J m y t))).
    Proof.
      intros Hx Hy. pose proof (int_series N (fun m => ec m * phase_mode p m l x y) (fun k => J k y t) a (p_phi0 p)) as X. eapply (is_RInt_ext (V:=R_NormedModule)) in X.
      - eapply (eq_ind _ (fun z : R => is_RInt _ _ _ z) X). apply rsum_ext. intros m Hm. unfold ec. destruct (Nat.eqb m 0); ring.
      - intros b _. simpl. rewrite phase_pad, Fsum_eq by auto. reflexivity.
    Qed.
    Lemma sinner x a y t : is_RInt (fun b => surface_at p rho x a y b * Fsum (- y) t b) 0 (2 * PI)
      (rsum N (fun m => PI * cos (INR m * (p_phi0 p - a)) * ((if Nat.eqb m 0 then 2 else 1) * rhoN m x y * J m (- y) t))).
    Proof.
      pose proof (int_series N (fun m => rhoN m x y) (fun k => J k (- y) t) a (p_phi0 p)) as X. eapply (is_RInt_ext (V:=R_NormedModule)) in X.
      - eapply (eq_ind _ (fun z : R => is_RInt _ _ _ z) X). apply rsum_ext. intros m Hm. destruct (Nat.eqb m 0); ring.
      - intros b _. simpl. rewrite surface_pad, Fsum_eq. reflexivity.
    Qed.
    Lemma pm_cont m l x s : -1 <= x <= 1 -> s = 1 \/ s = -1 -> cont_on 0 1 (fun y => phase_mode p m l x (s * y)).
    Proof.
      intros Hx Hs y Hy e He. destruct (phase_mode_uc p m l (e / 2) ltac:(lra)) as (d & Hd & H). exists d. split; [exact Hd|]. intros y' Hy' Hyy. apply Rle_lt_trans with (e / 2); [|lra].
      apply H; auto; try (destruct Hs as [-> | ->]; lra); [rewrite Rminus_eq_0, Rabs_R0; exact Hd|]. rewrite <- Rmult_minus_distr_l, Rabs_mult. rewrite (sgn_abs s Hs), Rmult_1_l. exact Hyy.
    Qed.
    Lemma pmJ m l x t : (m < N)%nat -> (l < NL)%nat -> -1 <= x <= 1 -> 0 <= t <= T ->
      exists I, is_RInt (fun y => phase_mode p m l x y * J m y t) (-1) 1 I /\ scl p l * albedo_s p l / 2 * I = gin (Km p m) (J m) l x t.
    Proof.
      intros Hm Hl Hx Ht. destruct (gf_fld _ _ _ _ _ _ _ (HJ m Hm)) as (M & _ & _ & FI).
      destruct (FI (fun y => phase_mode p m l x (1 * y)) t (pm_cont m l x 1 Hx (or_introl eq_refl)) Ht) as [X1 _]. destruct (FI (fun y => phase_mode p m l x (-1 * y)) t (pm_cont m l x (-1) Hx (or_intror eq_refl)) Ht) as [_ X2].
      apply (ex_RInt_ext (V:=R_NormedModule) _ (fun y => phase_mode p m l x y * J m y t)) in X1; [|intros y _; rewrite Rmult_1_l; reflexivity].
      apply (ex_RInt_ext (V:=R_NormedModule) _ (fun y => phase_mode p m l x (- y) * J m (- y) t)) in X2; [|intros y _; replace (-1 * y) with (- y) by ring; reflexivity].
      eexists. split; [apply (int_both (fun y => phase_mode p m l x y * J m y t)); assumption|]. unfold gin, Km. set (k := scl p l * albedo_s p l / 2). rewrite Rmult_plus_distr_l. f_equal.
      - etransitivity; [symmetry; exact (RInt_scal (V:=R_CompleteNormedModule) _ 0 1 k X1)|]. apply RInt_ext. intros y _. unfold scal; cbn; unfold mult; cbn. ring.
      - etransitivity; [symmetry; exact (RInt_scal (V:=R_CompleteNormedModule) _ 0 1 k X2)|]. apply RInt_ext. intros y _. unfold scal; cbn; unfold mult; cbn. ring.
    Qed.
    Lemma outer l x a t : (l < NL)%nat -> -1 <= x <= 1 -> 0 <= t <= T -> exists A,
      is_RInt (fun y => rsum N (fun m => 2 * PI * cos (INR m * (p_phi0 p - a)) * (phase_mode p m l x y * J m y t))) (-1) 1 A /\
      scl p l * (albedo_s p l / (4 * PI)) * A = rsum N (fun m => cos (INR m * (p_phi0 p - a)) * gin (Km p m) (J m) l x t).
    Proof.
      intros Hl Hx Ht. pose proof PI_RGT_0 as HPI.
      assert (E : forall n, (n <= N)%nat -> exists A, is_RInt (fun y => rsum n (fun m => 2 * PI * cos (INR m * (p_phi0 p - a)) * (phase_mode p m l x y * J m y t))) (-1) 1 A /\
        scl p l * (albedo_s p l / (4 * PI)) * A = rsum n (fun m => cos (INR m * (p_phi0 p - a)) * gin (Km p m) (J m) l x t)).
      { induction n as [|n IH]; intros Hn.
        - exists 0. split; [|cbn; ring]. cbn [rsum]. eapply (eq_ind _ (fun z : R => is_RInt _ _ _ z) (is_RInt_const (V:=R_NormedModule) (-1) 1 0)). unfold scal; cbn; unfold mult; cbn. ring.
        - destruct (IH ltac:(lia)) as (A & HA & EA). destruct (pmJ n l x t ltac:(lia) Hl Hx Ht) as (I & HI & EI). exists (A + 2 * PI * cos (INR n * (p_phi0 p - a)) * I). split.
          + cbn [rsum]. apply (is_RInt_plus (V:=R_NormedModule) _ _ _ _ _ _ HA). apply (is_RInt_scal (V:=R_NormedModule) (fun y => phase_mode p n l x y * J n y t)). exact HI.
          + cbn [rsum]. rewrite Rmult_plus_distr_l, EA, <- EI. f_equal. field. lra. }
      apply E. lia.
    Qed.
    Lemma beam_modes l x a t : (l < NL)%nat -> -1 <= x <= 1 ->
      rsum N (fun m => cos (INR m * (p_phi0 p - a)) * Gm p m l x t) =
      scl p l * (albedo_s p l / (4 * PI) * phase_at p l (cos_between x a (- p_mu0 p) (p_phi0 p)) * p_I0 p * exp (- depth_s p l t / p_mu0 p)) + (1 - albedo p l) * source p l t.
    Proof.
      intros Hl Hx. pose proof PI_RGT_0 as HPI. unfold Gm. rewrite (rsum_ext _ _ (fun m => (cos (INR m * (p_phi0 p - a)) * (ec m * (2 * (p_I0 p / (4 * PI))) * Km p m l x (- p_mu0 p) * exp (- depth_s p l t / p_mu0 p)))
        - (-1) * (cos (INR m * (p_phi0 p - a)) * (if Nat.eqb m 0 then (1 - albedo p l) * source p l t else 0)))) by (intros; ring). rewrite rsum_minus, rsum_scal.
      rewrite (rsum_single N 0 (fun m => cos (INR m * (p_phi0 p - a)) * (if Nat.eqb m 0 then _ else 0))); [|pose proof (nc0 p V); lia|intros k Hk Hne; rewrite (proj2 (Nat.eqb_neq k 0)) by auto; ring].
      cbn [Nat.eqb INR]. rewrite Rmult_0_l, cos_0. match goal with |- ?a - -1 * (1 * ?b) = ?c + ?b => enough (a = c) as -> by ring end.
      pose proof (v_I0 p V) as HI. destruct (Rle_lt_or_eq_dec 0 (p_I0 p) ltac:(lra)) as [Hlt|E]; [|rewrite <- E; rewrite rsum_0; [ring|intros; unfold Rdiv; ring]].
      pose proof (v_mu0 p V Hlt) as Hm0. rewrite phase_pad by lra. set (ex := exp _). rewrite (rsum_ext _ _ (fun m => (scl p l * (albedo_s p l / (4 * PI)) * p_I0 p * ex) * (ec m * phase_mode p m l x (- p_mu0 p) * cos (INR m * (a - p_phi0 p))))).
      - rewrite rsum_scal. ring.
      - intros m Hm. unfold Km. replace (INR m * (p_phi0 p - a)) with (- (INR m * (a - p_phi0 p))) by ring. rewrite cos_neg. field. lra.
    Qed.

    Theorem Fsum_exact : exact_intensity p bn bp rho Fsum.
    Proof.
      pose proof PI_RGT_0 as HPI. pose proof (bottom_pos p V) as HT. constructor.
      - assert (E : forall n, (n <= N)%nat -> exists M, forall x t a, direction x -> 0 <= t <= T -> Rabs (rsum n (fun m => cos (INR m * (p_phi0 p - a)) * J m x t)) <= M).
        { induction n as [|n IH]; intros Hn; [exists 0; intros; cbn; rewrite Rabs_R0; lra|]. destruct (IH ltac:(lia)) as (M & HM). destruct (gf_fld _ _ _ _ _ _ _ (HJ n ltac:(lia))) as (M' & HM' & FB & _). exists (M + M'). intros x t a Hx Ht. cbn [rsum].
          eapply Rle_trans; [apply Rabs_triang|]. apply Rplus_le_compat; [apply HM; auto|]. rewrite Rabs_mult. pose proof (FB x t Hx Ht). pose proof (Rabs_pos (J n x t)). assert (Rabs (cos (INR n * (p_phi0 p - a))) <= 1) by (apply Rabs_le, COS_bound). pose proof (Rabs_pos (cos (INR n * (p_phi0 p - a)))). nra. }
        apply E. lia.
      - intros x a Hx. apply cont_on_sum. intros m Hm. apply cont_on_scal. apply (gf_continuous _ _ _ _ _ _ _ (HJ m Hm)). exact Hx.
      - intros l x t a Hl Hx Ht. pose proof (in_bottom p V l t Hl ltac:(lra)) as Htb. destruct (outer l x a t Hl (proj1 Hx) Htb) as (A & HA & EA). eexists. exists A. split; [intros y Hy; apply inner; [apply Hx|apply Hy]|]. split; [exact HA|].
        pose proof (der_sum N (fun m s => cos (INR m * (p_phi0 p - a)) * J m x s) t (fun m => cos (INR m * (p_phi0 p - a)) * ((scl p l * J m x t - gsrc (Km p m) (Gm p m) (J m) l x t) / x))) as D.
        refine (der_eq _ _ _ _ _ (D _)); [|intros m Hm; apply der_scal; exact (gf_transfer _ _ _ _ _ _ _ (HJ m Hm) l x t Hl Hx Ht)].
        unfold gsrc. rewrite (rsum_ext _ _ (fun m => / x * ((scl p l * (cos (INR m * (p_phi0 p - a)) * J m x t) - cos (INR m * (p_phi0 p - a)) * gin (Km p m) (J m) l x t) - cos (INR m * (p_phi0 p - a)) * Gm p m l x t))) by (intros; unfold Rdiv; ring).
        rewrite rsum_scal, !rsum_minus, rsum_scal, <- EA, (beam_modes l x a t Hl (proj1 Hx)). fold (Fsum x t a). field. split; [lra|apply Hx].
      - intros x a Hx. unfold Fsum. rewrite (rsum_single N 0); [|pose proof (nc0 p V); lia|].
        + cbn [INR]. rewrite Rmult_0_l, cos_0, (gf_top _ _ _ _ _ _ _ (HJ 0%nat ltac:(pose proof (nc0 p V); lia)) x Hx). unfold bnm. cbn [Nat.eqb]. ring.
        + intros m Hm Hne. rewrite (gf_top _ _ _ _ _ _ _ (HJ m Hm) x Hx). unfold bnm. rewrite (proj2 (Nat.eqb_neq m 0)) by auto. ring.
      - intros x a Hx.
        assert (E : forall n, (n <= N)%nat -> is_RInt (fun y => y * rsum n (fun m => PI * cos (INR m * (p_phi0 p - a)) * ((if Nat.eqb m 0 then 2 else 1) * rhoN m x y * J m (- y) T))) 0 1
          (rsum n (fun m => PI * cos (INR m * (p_phi0 p - a)) * RInt (fun y => Rm p rho m x y * J m (- y) T) 0 1))).
        { induction n as [|n IH]; intros Hn.
          - cbn [rsum]. eapply (is_RInt_ext (V:=R_NormedModule)); [|eapply (eq_ind _ (fun z : R => is_RInt _ _ _ z) (is_RInt_const (V:=R_NormedModule) 0 1 0)); unfold scal; cbn; unfold mult; cbn; ring]. intros y _. change (0 = y * 0). ring.
          - cbn [rsum]. destruct (gf_fld _ _ _ _ _ _ _ (HJ n ltac:(lia))) as (M & _ & _ & FI). destruct (FI (Rm p rho n x) T (ucont2_c _ x (Rm_uc p rho (as_continuous _ _ _ AS) n) ltac:(lra)) ltac:(lra)) as [_ X].
            apply (RInt_correct (V:=R_CompleteNormedModule)) in X. apply (is_RInt_scal (V:=R_NormedModule) _ _ _ (PI * cos (INR n * (p_phi0 p - a)))) in X.
            eapply (is_RInt_ext (V:=R_NormedModule)); [|exact (is_RInt_plus (V:=R_NormedModule) _ _ _ _ _ _ (IH ltac:(lia)) X)]. intros y _. unfold plus, scal; cbn; unfold mult; cbn. unfold Rm, rhoN. destruct (Nat.ltb n nB); [|ring]. ring. }
        eexists. eexists. split; [intros y Hy; apply sinner|]. split; [exact (E N (Nat.le_refl N))|]. unfold Fsum.
        rewrite (rsum_ext _ _ (fun m => (cos (INR m * (p_phi0 p - a)) * (if Nat.eqb m 0 then bp x else 0) - (- / PI) * (PI * cos (INR m * (p_phi0 p - a)) * RInt (fun y => Rm p rho m x y * J m (- y) T) 0 1))
          - (-1) * ((p_mu0 p * p_I0 p / PI * exp (- depth_s p (NL - 1) T / p_mu0 p)) * (rhoN m x (p_mu0 p) * cos (INR m * (a - p_phi0 p)))))).
        + rewrite !rsum_minus, !rsum_scal, <- surface_pad. rewrite (rsum_single N 0 (fun m => cos (INR m * (p_phi0 p - a)) * (if Nat.eqb m 0 then bp x else 0))); [|pose proof (nc0 p V); lia|intros k Hk Hne; rewrite (proj2 (Nat.eqb_neq k 0)) by auto; ring].
          cbn [Nat.eqb INR]. rewrite Rmult_0_l, cos_0. ring.
        + intros m Hm. rewrite (gf_bottom _ _ _ _ _ _ _ (HJ m Hm) x Hx). unfold bpm, rhoN. replace (INR m * (p_phi0 p - a)) with (- (INR m * (a - p_phi0 p))) by ring. rewrite cos_neg. destruct (Nat.ltb m nB); field; lra.
    Qed.
  End Sum.

  Hypothesis Cn : ucont1 bn.
  Hypothesis Cp : ucont1 bp.
  Lemma modes_ex N : exists J : nat -> R -> R -> R, forall m, (m < N)%nat -> gfield p (Km p m) (Gm p m) (bnm bn m) (bpm p bp rho m) (Rm p rho m) (J m).
  Proof. apply (all_exist p V bn bp rho Hf Hph Cn Cp (as_continuous _ _ _ AS) (as_nonneg _ _ _ AS) r (proj2 (as_share _ _ _ AS)) (as_albedo _ _ _ AS) (proj1 (as_share _ _ _ AS))). Qed.
  Theorem intensity_exists : exists f, exact_intensity p bn bp rho f.
  Proof. destruct (modes_ex (ncoeffs p + nB)) as (J & HJ). exists (Fsum (ncoeffs p + nB) J). apply Fsum_exact; [lia|lia|exact HJ]. Qed.
End Exact.
