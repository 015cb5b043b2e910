(** A minimum principle for fields that depend on the azimuth. *)
From Coq Require Import Classical String Reals Lra Lia List Bool Arith ZArith.
From Coquelicot Require Import Coquelicot.
From Verif Require Import Base Tensor Spec Calc M_LinAlg Spec_RTE M_Subroutines M_Assemble M_Pydisort P_Special P_Sub3 P_Fourier P_Addition Spec_Sol Spec_Valid P_Valid P_Solve P_Energy P_Pydisort P_Pydisort2 P_Pydisort4
  P_Pydisort3 P_Pydisort5 P_Pydisort6 P_Pydisort8 P_NT3 Spec_Unique P_Unique2 Spec_Phys P_Max P_Max2 P_Max3 Spec_Full P_Full.
Import ListNotations.
Local Open Scope R_scope.

Lemma mul_div a x : a <> 0 -> a * (x / a) = x.
Proof. intros. field. auto. Qed.
Lemma cos_shift_nat m x (k : nat) : cos (INR m * (x + 2 * INR k * PI)) = cos (INR m * x).
Proof. replace (INR m * (x + 2 * INR k * PI)) with (INR m * x + 2 * INR (m * k) * PI) by (rewrite mult_INR; ring). apply cos_period. Qed.
Lemma cos_shift_Z m x (z : Z) : cos (INR m * (x + 2 * IZR z * PI)) = cos (INR m * x).
Proof.
  destruct (Z.le_ge_cases 0 z) as [H|H].
  - replace (IZR z) with (INR (Z.to_nat z)) by (rewrite INR_IZR_INZ, Z2Nat.id; auto). apply cos_shift_nat.
  - rewrite <- (cos_shift_nat m (x + 2 * IZR z * PI) (Z.to_nat (- z))). f_equal. f_equal. rewrite INR_IZR_INZ, Z2Nat.id by lia. rewrite opp_IZR. ring.
Qed.
Lemma turn phi : exists z : Z, 0 <= phi + 2 * IZR z * PI <= 2 * PI.
Proof.
  pose proof PI_RGT_0. exists (1 - up (phi / (2 * PI)))%Z. rewrite minus_IZR. destruct (archimed (phi / (2 * PI))) as (H1 & H2). set (u := IZR (up _)) in *.
  assert (E : phi = phi / (2 * PI) * (2 * PI)) by (field; lra). set (r := phi / (2 * PI)) in *. rewrite E. split; nra.
Qed.

Lemma cont_on_abs a b f : cont_on a b f -> cont_on a b (fun x => Rabs (f x)).
Proof.
  intros C x Hx e He. destruct (C x Hx e He) as (d & Hd & H). exists d. split; [exact Hd|]. intros y Hy Hyx.
  apply Rle_lt_trans with (2 := H y Hy Hyx). apply Rabs_triang_inv2.
Qed.
Lemma cont_on_cos a b (k c : R) : cont_on a b (fun x => cos (k * (c - x))).
Proof. apply cont_on_derive. intros x _. eexists. auto_derive; auto. Qed.

(** Joint continuity in depth and azimuth, and periodicity, of a field. *)
Section Cont2.
  Variables (a b : R) (n : nat) (f : nat -> R -> R -> R).
  Hypothesis Hn : (0 < n)%nat.
  Hypothesis Hab : a <= b.
  Hypothesis HC : forall i, (i < n)%nat -> cont2_on a b (f i).
  Hypothesis HP : forall i t x, (i < n)%nat -> a <= t <= b -> f i t (x + 2 * PI) = f i t x.

  Lemma f_up i t x (k : nat) : (i < n)%nat -> a <= t <= b -> f i t (x + 2 * INR k * PI) = f i t x.
  Proof.
    intros Hi Ht. induction k as [|k IH]; [f_equal; cbn; ring|]. rewrite <- IH, <- (HP i t (x + 2 * INR k * PI) Hi Ht). f_equal. rewrite S_INR. ring.
  Qed.
  Lemma f_shift i t x (z : Z) : (i < n)%nat -> a <= t <= b -> f i t (x + 2 * IZR z * PI) = f i t x.
  Proof.
    intros Hi Ht. destruct (Z.le_ge_cases 0 z) as [H|H].
    - replace (IZR z) with (INR (Z.to_nat z)) by (rewrite INR_IZR_INZ, Z2Nat.id; auto). apply f_up; auto.
    - rewrite <- (f_up i t (x + 2 * IZR z * PI) (Z.to_nat (- z)) Hi Ht). f_equal. rewrite INR_IZR_INZ, Z2Nat.id by lia. rewrite opp_IZR. ring.
  Qed.
  Lemma f_turn i t x : (i < n)%nat -> a <= t <= b -> exists y, 0 <= y <= 2 * PI /\ f i t y = f i t x.
  Proof. intros Hi Ht. destruct (turn x) as (z & Hz). exists (x + 2 * IZR z * PI). split; [exact Hz|]. apply f_shift; auto. Qed.
  Lemma f_min i t : (i < n)%nat -> a <= t <= b -> exists y, forall x, f i t y <= f i t x.
  Proof.
    intros Hi Ht. destruct (cont_min 0 (2 * PI) (f i t)) as (y & Hy & Hm).
    - pose proof PI_RGT_0. lra.
    - intros x _ e He. destruct (HC i Hi t x Ht e He) as (d & Hd & H). exists d. split; [exact Hd|]. intros y _ Hy. apply H; auto. rewrite Rminus_eq_0, Rabs_R0. exact Hd.
    - exists y. intros x. destruct (f_turn i t x Hi Ht) as (x' & Hx' & <-). apply Hm, Hx'.
  Qed.
  Let h i t := - real (Lub_Rbar (fun y => exists x, y = - f i t x)).
  Lemma h_spec i t : (i < n)%nat -> a <= t <= b -> exists y, 0 <= y <= 2 * PI /\ h i t = f i t y /\ forall x, h i t <= f i t x.
  Proof.
    intros Hi Ht. destruct (f_min i t Hi Ht) as (y & Hy). assert (E : h i t = f i t y).
    { unfold h. rewrite (is_lub_Rbar_unique _ (Finite (- f i t y))); [cbn; ring|]. split.
      - intros z (x & ->). cbn. specialize (Hy x). lra.
      - intros z Hz. apply Hz. exists y. reflexivity. }
    destruct (f_turn i t y Hi Ht) as (y' & Hy' & Ey). exists y'. split; [exact Hy'|]. split; [rewrite Ey; exact E|]. intros x. rewrite E. apply Hy.
  Qed.
  Lemma h_cont i : (i < n)%nat -> cont_on a b (h i).
  Proof.
    intros Hi t Ht e He. set (g := fun s y => f i (Rmax a (Rmin b s)) y).
    assert (C2 : forall s y, a <= s <= b -> 0 <= y <= 2 * PI -> continuity_2d_pt g s y).
    { intros s y _ _ eps. destruct (HC i Hi (Rmax a (Rmin b s)) y (clamp_range a b s Hab) eps (cond_pos eps)) as (d & Hd & H). exists (mkposreal d Hd). intros u v Hu Hv. unfold g.
      apply H; [apply clamp_range; exact Hab| |exact Hv]. pose proof (clamp_dist a b s u). cbn in Hu. lra. }
    destruct (uniform_continuity_2d g a b 0 (2 * PI) C2 (mkposreal e He)) as (d & Hd). exists d. split; [apply cond_pos|]. intros s Hs Hst.
    assert (G : forall y, 0 <= y <= 2 * PI -> Rabs (f i s y - f i t y) < e).
    { intros y Hy. specialize (Hd t y s y Ht Hy Hs Hy Hst ltac:(rewrite Rminus_eq_0, Rabs_R0; apply cond_pos)). cbn in Hd. unfold g in Hd.
      rewrite (Rmin_right b s), (Rmax_right a s), (Rmin_right b t), (Rmax_right a t) in Hd by lra. exact Hd. }
    destruct (h_spec i t Hi Ht) as (y & R1 & E & Hy). destruct (h_spec i s Hi Hs) as (y' & R2 & E' & Hy').
    pose proof (G y R1) as D1. pose proof (G y' R2) as D2. specialize (Hy y'). specialize (Hy' y). apply Rabs_def2 in D1. apply Rabs_def2 in D2. apply Rabs_def1; lra.
  Qed.
  Lemma field_min : exists i0 t0 x0, (i0 < n)%nat /\ a <= t0 <= b /\ forall i t x, (i < n)%nat -> a <= t <= b -> f i0 t0 x0 <= f i t x.
  Proof.
    destruct (family_min a b n h Hn Hab h_cont) as (i0 & t0 & Hi0 & Ht0 & Hm). destruct (h_spec i0 t0 Hi0 Ht0) as (x0 & _ & E & _).
    exists i0, t0, x0. split; [exact Hi0|]. split; [exact Ht0|]. intros i t x Hi Ht. rewrite <- E. apply Rle_trans with (1 := Hm i t Hi Ht). destruct (h_spec i t Hi Ht) as (_ & _ & _ & H). apply H.
  Qed.
End Cont2.

(** Azimuthal series are such fields. *)
Lemma cont2_plus a b f g : cont2_on a b f -> cont2_on a b g -> cont2_on a b (fun t x => f t x + g t x).
Proof.
  intros Hf Hg t x Ht e He. destruct (Hf t x Ht (e / 2) ltac:(lra)) as (d & Hd & H). destruct (Hg t x Ht (e / 2) ltac:(lra)) as (d' & Hd' & H').
  exists (Rmin d d'). split; [apply Rmin_glb_lt; auto|]. intros s y Hs Hst Hyx.
  pose proof (H s y Hs (Rlt_le_trans _ _ _ Hst (Rmin_l _ _)) (Rlt_le_trans _ _ _ Hyx (Rmin_l _ _))) as H1. pose proof (H' s y Hs (Rlt_le_trans _ _ _ Hst (Rmin_r _ _)) (Rlt_le_trans _ _ _ Hyx (Rmin_r _ _))) as H2.
  replace (f s y + g s y - (f t x + g t x)) with ((f s y - f t x) + (g s y - g t x)) by ring. eapply Rle_lt_trans; [apply Rabs_triang|]. lra.
Qed.
Lemma cont2_opp a b f : cont2_on a b f -> cont2_on a b (fun t x => - f t x).
Proof.
  intros Hf t x Ht e He. destruct (Hf t x Ht e He) as (d & Hd & H). exists d. split; [exact Hd|]. intros s y Hs Hst Hyx. replace (- f s y - - f t x) with (- (f s y - f t x)) by ring. rewrite Rabs_Ropp. auto.
Qed.
Lemma cont2_const a b c : cont2_on a b (fun _ _ => c).
Proof. intros t x _ e He. exists 1. split; [lra|]. intros. rewrite Rminus_eq_0, Rabs_R0. exact He. Qed.
Lemma cont2_sum a b n (f : nat -> R -> R -> R) : (forall i, (i < n)%nat -> cont2_on a b (f i)) -> cont2_on a b (fun t x => rsum n (fun i => f i t x)).
Proof. induction n as [|n IH]; intros H; [exact (cont2_const a b 0)|]. cbn [rsum]. apply cont2_plus; [apply IH; intros i Hi; apply H; lia|apply H; lia]. Qed.
Lemma cont2_ext a b f g : (forall t x, a <= t <= b -> f t x = g t x) -> cont2_on a b f -> cont2_on a b g.
Proof. intros E H t x Ht e He. destruct (H t x Ht e He) as (d & Hd & HH). exists d. split; [exact Hd|]. intros s y Hs H1 H2. rewrite <- !E by auto. auto. Qed.
Lemma cont2_term a b f (k c : R) : cont_on a b f -> cont2_on a b (fun t x => f t * cos (k * (c - x))).
Proof.
  intros Hf t x Ht e He. set (B := Rabs (f t) + 1). assert (HB : 0 < B) by (unfold B; pose proof (Rabs_pos (f t)); lra).
  destruct (Hf t Ht (e / 2) ltac:(lra)) as (d & Hd & H).
  assert (Cc : cont_on (x - 1) (x + 1) (fun y => cos (k * (c - y)))) by apply cont_on_cos.
  destruct (Cc x ltac:(lra) (e / (2 * B)) ltac:(apply Rdiv_lt_0_compat; lra)) as (d' & Hd' & H').
  exists (Rmin (Rmin d d') 1). split; [repeat apply Rmin_glb_lt; lra|]. intros s y Hs Hst Hyx.
  assert (M1 : Rmin (Rmin d d') 1 <= d) by (eapply Rle_trans; apply Rmin_l).
  assert (M2 : Rmin (Rmin d d') 1 <= d') by (eapply Rle_trans; [apply Rmin_l|apply Rmin_r]). pose proof (Rmin_r (Rmin d d') 1) as M3.
  assert (Hy : x - 1 <= y <= x + 1) by (assert (A : Rabs (y - x) < 1) by lra; apply Rabs_def2 in A; lra).
  specialize (H s Hs ltac:(lra)). specialize (H' y Hy ltac:(lra)).
  replace (f s * cos (k * (c - y)) - f t * cos (k * (c - x))) with ((f s - f t) * cos (k * (c - y)) + f t * (cos (k * (c - y)) - cos (k * (c - x)))) by ring.
  eapply Rle_lt_trans; [apply Rabs_triang|]. rewrite !Rabs_mult.
  assert (A1 : Rabs (f s - f t) * Rabs (cos (k * (c - y))) <= Rabs (f s - f t)).
  { rewrite <- (Rmult_1_r (Rabs (f s - f t))) at 2. apply Rmult_le_compat_l; [apply Rabs_pos|]. apply Rabs_le, COS_bound. }
  assert (A2 : Rabs (f t) * Rabs (cos (k * (c - y)) - cos (k * (c - x))) <= B * (e / (2 * B))).
  { apply Rmult_le_compat; try apply Rabs_pos; [unfold B; lra|lra]. }
  replace (B * (e / (2 * B))) with (e / 2) in A2 by (field; lra). lra.
Qed.

Section Field.
  Variables (p : py_in) (V : valid p) (mu : list R) (w : nat -> R) (rho : nat -> R -> R -> R).
  Hypothesis Hdg : double_gauss (half p) mu w.
  Let N := half p.
  Hypothesis Hph : phase_positive p.
  Hypothesis Hsn : forall i j x y, (i < N)%nat -> (j < N)%nat -> 0 <= surface_at p rho (nth i mu 0) x (nth j mu 0) y.
  Hypothesis Hsr : forall i, (i < N)%nat -> reflectance p mu w (rho 0%nat) i <= 1.

  Variables (f : nat -> R -> R -> R).
  Hypothesis HC : forall i, (i < 2 * N)%nat -> cont2_on 0 (bottom p) (f i).
  Hypothesis HP : forall i t x, (i < 2 * N)%nat -> 0 <= t <= bottom p -> f i t (x + 2 * PI) = f i t x.
  Hypothesis Fd : forall l i t x, (l < nlayers p)%nat -> (i < 2 * N)%nat -> top_of p l < t < bot_of p l -> exists (J : nat -> R) Q, 0 <= Q /\
    (forall j, (j < 2 * N)%nat -> is_RInt (fun y => phase_at p l (cos_between (nth i mu 0) x (nth j mu 0) y) * f j t y) 0 (2 * PI) (J j)) /\
    is_derive (fun s => f i s x) t ((scl p l * (f i t x - albedo_s p l / (4 * PI) * rsum (2 * N) (fun j => wnode N w j * J j)) - Q) / nth i mu 0).
  Hypothesis Ftop : forall i x, (i < N)%nat -> 0 <= f (N + i)%nat 0 x.
  Hypothesis Fbot : forall i x, (i < N)%nat -> exists (J : nat -> R) Q, 0 <= Q /\
    (forall j, (j < N)%nat -> is_RInt (fun y => surface_at p rho (nth i mu 0) x (nth j mu 0) y * f (N + j)%nat (bottom p) y) 0 (2 * PI) (J j)) /\
    f i (bottom p) x = / PI * rsum N (fun j => w j * nth j mu 0 * J j) + Q.

  Let HN : (0 < N)%nat := half_pos p V.
  Lemma bot_pos : 0 < bottom p.
  Proof. rewrite (bottom_eq p). apply (v_tau p V). pose proof (v_ne p V). unfold nlayers in *. lia. Qed.
  Lemma fcont i x : (i < 2 * N)%nat -> cont_on 0 (bottom p) (fun t => f i t x).
  Proof.
    intros Hi t Ht e He. destruct (HC i Hi t x Ht e He) as (d & Hd & H). exists d. split; [exact Hd|]. intros s Hs Hst. apply H; auto. rewrite Rminus_eq_0, Rabs_R0. exact Hd.
  Qed.
  Lemma node i : (i < 2 * N)%nat -> -1 <= nth i mu 0 <= 1 /\ nth i mu 0 <> 0.
  Proof.
    intros Hi. destruct Hdg as (_ & H2 & _). destruct (Nat.lt_ge_cases i N) as [H|H].
    - destruct (H2 i H) as (H3 & _). split; lra.
    - destruct (H2 (i - N)%nat ltac:(unfold N in *; lia)) as (H3 & H4 & _). replace (half p + (i - N))%nat with i in H4 by (unfold N in *; lia). rewrite H4. split; lra.
  Qed.
  Lemma int_phase l i j x : (i < 2 * N)%nat -> (j < 2 * N)%nat -> is_RInt (fun y => phase_at p l (cos_between (nth i mu 0) x (nth j mu 0) y)) 0 (2 * PI) (2 * PI * phase_mode p 0 l (nth i mu 0) (nth j mu 0)).
  Proof.
    intros Hi Hj. pose proof (nc_range p V) as Hnc. set (n := ncoeffs p) in *.
    pose proof (int_series n (fun m => ec m * phase_mode p m l (nth i mu 0) (nth j mu 0)) (fun m => if Nat.eqb m 0 then 1 else 0) x 0) as X.
    eapply (is_RInt_ext (V:=R_NormedModule)) in X.
    - eapply (eq_ind _ (fun z : R => is_RInt _ _ _ z) X). rewrite (rsum_single n 0); [cbn [Nat.eqb]; unfold ec; cbn [INR Nat.eqb]; rewrite Rmult_0_l, cos_0; ring|lia|].
      intros m Hm Hne. rewrite (proj2 (Nat.eqb_neq m 0)) by auto. ring.
    - intros y _. simpl. rewrite (rsum_single n 0 (fun k => (if Nat.eqb k 0 then 1 else 0) * _)); [|lia|intros m Hm Hne; rewrite (proj2 (Nat.eqb_neq m 0)) by auto; ring].
      cbn [Nat.eqb INR]. rewrite Rmult_0_l, cos_0, !Rmult_1_r. symmetry. apply phase_modes; try apply node; auto; fold n; lia.
  Qed.
  Lemma int_surface i j x : is_RInt (fun y => surface_at p rho (nth i mu 0) x (nth j mu 0) y) 0 (2 * PI) (if Nat.ltb 0 (length (p_BDRF p)) then 2 * PI * rho 0%nat (nth i mu 0) (nth j mu 0) else 0).
  Proof.
    set (n := length (p_BDRF p)).
    pose proof (int_series n (fun m => rho m (nth i mu 0) (nth j mu 0)) (fun m => if Nat.eqb m 0 then 1 else 0) x 0) as X.
    destruct n as [|n'] eqn:En.
    - eapply (is_RInt_ext (V:=R_NormedModule)) in X; [exact X|]. intros y _. unfold surface_at. fold n. rewrite En. cbn. ring.
    - eapply (is_RInt_ext (V:=R_NormedModule)) in X.
      + eapply (eq_ind _ (fun z : R => is_RInt _ _ _ z) X). rewrite (rsum_single (S n') 0); [cbn [Nat.eqb Nat.ltb Nat.leb INR]; rewrite Rmult_0_l, cos_0; ring|lia|].
        intros m Hm Hne. rewrite (proj2 (Nat.eqb_neq m 0)) by auto. ring.
      + intros y _. unfold surface_at. fold n. rewrite En. rewrite (rsum_single (S n') 0 (fun k => (if Nat.eqb k 0 then 1 else 0) * _)); [|lia|intros m Hm Hne; rewrite (proj2 (Nat.eqb_neq m 0)) by auto; ring].
        cbn [Nat.eqb INR]. rewrite Rmult_0_l, cos_0, !Rmult_1_r. reflexivity.
  Qed.
  Lemma row_sum l i : (l < nlayers p)%nat -> rsum (2 * N) (fun j => wnode N w j * phase_mode p 0 l (nth i mu 0) (nth j mu 0)) * albedo_s p l = 2 * albedo_s p l.
  Proof.
    intros Hl. pose proof (nc_range p V) as Hnc. destruct Hdg as (H1 & H2 & _ & H4).
    assert (X : rsum (2 * N) (fun j => wnode N w j * D_spec (albedo_s p l) (wphase_s p l) (ncoeffs p) 0 (nth j mu 0) (nth i mu 0)) = albedo_s p l * wphase_s p l 0%nat).
    { apply (D_sum N mu w HN H1); auto; [intros k Hk; apply (H2 k Hk)]. }
    rewrite albedo_norm in X by auto. rewrite <- X at 2. rewrite <- rsum_scal_r, <- rsum_scal. apply rsum_ext. intros j Hj. rewrite D_spec_sym, D_spec_mode. field.
  Qed.
  Lemma int_low (g h : R -> R) G I M : is_RInt g 0 (2 * PI) G -> is_RInt (fun y => g y * h y) 0 (2 * PI) I -> (forall y, 0 <= g y) -> (forall y, - M <= h y) -> - M * G <= I.
  Proof.
    intros HG HI Hg Hh. pose proof PI_RGT_0. refine (is_RInt_le (fun y => (- M) * g y) _ 0 (2 * PI) _ _ ltac:(lra) _ HI _).
    - apply (is_RInt_scal (V:=R_NormedModule) g). exact HG.
    - intros y _. rewrite Rmult_comm. apply Rmult_le_compat_l; auto.
  Qed.

  Theorem full_nonneg i t x : (i < 2 * N)%nat -> 0 <= t <= bottom p -> 0 <= f i t x.
  Proof.
    intros Hi Ht. pose proof bot_pos as Hb. pose proof PI_RGT_0 as HPI.
    destruct (field_min 0 (bottom p) (2 * N) f ltac:(lia) ltac:(lra) HC HP) as (i0 & t0 & x0 & Hi0 & Ht0 & Hmin).
    destruct (Rle_lt_dec 0 (f i0 t0 x0)) as [Hle|Hlt]; [apply Rle_trans with (1:=Hle); auto|exfalso].
    set (M := - f i0 t0 x0). assert (HM : 0 < M) by (unfold M; lra).
    assert (Hge : forall j s y, (j < 2 * N)%nat -> 0 <= s <= bottom p -> - M <= f j s y) by (intros; unfold M; rewrite Ropp_involutive; auto).
    assert (Hd : forall y l j s, (l < nlayers p)%nat -> (j < 2 * N)%nat -> top_of p l < s < bot_of p l ->
      exists d, is_derive (fun r => f j r y) s d /\ nth j mu 0 * d <= scl p l * (f j s y + albedo_s p l * M)).
    { intros y l j s Hl Hj Hs. destruct (Fd l j s y Hl Hj Hs) as (J & Q & HQ & HJ & HD). eexists. split; [exact HD|].
      pose proof (scl_pos p V l Hl) as Hsp. destruct (layer_in p V l Hl) as (B0 & B1). pose proof (albedo_s_range p V l Hl) as Hal.
      rewrite mul_div by (apply node; auto).
      assert (HS : - (albedo_s p l * M) <= albedo_s p l / (4 * PI) * rsum (2 * N) (fun k => wnode N w k * J k)).
      { destruct (Req_dec (albedo_s p l) 0) as [Ea|Na]; [rewrite Ea; unfold Rdiv; rewrite !Rmult_0_l; lra|].
        apply Rle_trans with (albedo_s p l / (4 * PI) * rsum (2 * N) (fun k => wnode N w k * (- M * (2 * PI * phase_mode p 0 l (nth j mu 0) (nth k mu 0))))).
        - right. rewrite (rsum_ext _ _ (fun k => (- (2 * PI) * M) * (wnode N w k * phase_mode p 0 l (nth j mu 0) (nth k mu 0)))) by (intros; ring). rewrite rsum_scal.
          pose proof (row_sum l j Hl) as E. set (RS := rsum (2 * N) (fun k => wnode N w k * phase_mode p 0 l (nth j mu 0) (nth k mu 0))) in *. replace (albedo_s p l / (4 * PI) * (- (2 * PI) * M * RS)) with (- M / 2 * (RS * albedo_s p l)) by (field; lra). rewrite E. field.
        - apply Rmult_le_compat_l; [apply Rmult_le_pos; [lra|left; apply Rinv_0_lt_compat; lra]|]. apply rsum_le. intros k Hk.
          apply Rmult_le_compat_l; [apply Rlt_le, (wnode_pos p mu w Hdg); exact Hk|].
          refine (int_low _ (fun z => f k s z) _ _ M (int_phase l j k y Hj Hk) (HJ k Hk) _ _); [|intros z; apply Hge; auto; lra].
          intros z. apply Hph; [exact Hl|lra|]. apply nu_range; apply node; auto. }
      apply Rle_trans with (scl p l * (f j s y - albedo_s p l / (4 * PI) * rsum (2 * N) (fun k => wnode N w k * J k))); [lra|]. apply Rmult_le_compat_l; lra. }
    assert (Hk : forall l, (l < nlayers p)%nat -> albedo_s p l < 1) by (intros l Hl; apply (albedo_s_range p V l Hl)).
    assert (Hdown : forall y j s, (j < N)%nat -> 0 <= s <= bottom p -> - M < f (N + j)%nat s y).
    { intros y j s Hj Hs. refine (down_above p V mu w Hdg (fun j s => f j s y) M (albedo_s p) HM Hk _ _ (Hd y) _ j s Hj Hs).
      - intros k Hk'. apply fcont. exact Hk'.
      - intros; auto.
      - intros k Hk'. specialize (Ftop k y Hk'). unfold N in *. lra. }
    (* at the bottom the downward intensities stay away from - M *)
    destruct (field_min (bottom p) (bottom p) N (fun j => f (N + j)%nat) HN ltac:(lra)) as (j1 & t1 & x1 & Hj1 & Ht1 & Hm1).
    { intros j Hj s y Hs e He. destruct (HC (N + j)%nat ltac:(lia) s y ltac:(lra) e He) as (d & Hd' & H). exists d. split; [exact Hd'|]. intros s' y' Hs'. apply H. lra. }
    { intros j s y Hj Hs. apply HP; [lia|lra]. }
    assert (t1 = bottom p) by lra. subst t1.
    assert (Hm2 : forall j y, (j < N)%nat -> f (N + j1)%nat (bottom p) x1 <= f (N + j)%nat (bottom p) y) by (intros j y Hj; apply Hm1; [exact Hj|lra]). clear Hm1.
    pose proof (Hdown x1 j1 (bottom p) Hj1 ltac:(lra)) as Hs1. set (M1 := Rmax 0 (- f (N + j1)%nat (bottom p) x1)).
    assert (HM1 : 0 <= M1 < M) by (unfold M1, Rmax; destruct (Rle_dec _ _); lra).
    assert (HM1' : forall j y, (j < N)%nat -> - M1 <= f (N + j)%nat (bottom p) y).
    { intros j y Hj. specialize (Hm2 j y Hj). apply Rle_trans with (2 := Hm2). unfold M1, Rmax. destruct (Rle_dec _ _); lra. }
    refine (Rlt_irrefl (- M) _). replace (- M) with (f i0 t0 x0) at 2 by (unfold M; ring).
    refine (all_above p V mu w Hdg (fun j s => f j s x0) M (albedo_s p) HM Hk _ _ (Hd x0) _ _ i0 t0 Hi0 Ht0).
    - intros k Hk'. apply fcont. exact Hk'.
    - intros; auto.
    - intros k Hk'. specialize (Ftop k x0 Hk'). unfold N in *. lra.
    - intros j Hj E. exfalso. destruct (Fbot j x0 Hj) as (J & Q & HQ & HJ & EB). cbv beta in E. rewrite EB in E.
      assert (HS : - M1 <= / PI * rsum N (fun k => w k * nth k mu 0 * J k)).
      { apply Rle_trans with (- M1 * reflectance p mu w (rho 0%nat) j); [specialize (Hsr j Hj); nra|].
        apply Rle_trans with (/ PI * rsum N (fun k => w k * nth k mu 0 * (- M1 * (if Nat.ltb 0 (length (p_BDRF p)) then 2 * PI * rho 0%nat (nth j mu 0) (nth k mu 0) else 0)))).
        - right. unfold reflectance. fold N. destruct (Nat.ltb 0 (length (p_BDRF p))).
          + rewrite (rsum_ext N (fun k => w k * nth k mu 0 * _) (fun k => (- M1 * (2 * PI)) * (rho 0%nat (nth j mu 0) (nth k mu 0) * nth k mu 0 * w k))) by (intros; ring). rewrite rsum_scal. field. lra.
          + rewrite rsum_0 by (intros; ring). ring.
        - apply Rmult_le_compat_l; [left; apply Rinv_0_lt_compat; lra|]. apply rsum_le. intros k Hk'. destruct Hdg as (_ & H2 & _). destruct (H2 k Hk') as (P1 & _ & P3).
          apply Rmult_le_compat_l; [apply Rmult_le_pos; lra|].
          refine (int_low _ (fun z => f (N + k)%nat (bottom p) z) _ _ M1 (int_surface j k x0) (HJ k Hk') _ _); [intros z; apply Hsn; auto|intros z; apply HM1'; auto]. }
      lra.
  Qed.
End Field.
