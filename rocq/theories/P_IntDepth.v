(** Depths given as integers: where the answers are those at the equal floats. *)
From Coq Require Import String Reals Lra Lia List Bool Arith ZArith FunctionalExtensionality.
From Verif Require Import Base Tensor Spec M_LinAlg M_Subroutines M_MathscrV M_Assemble M_Pydisort M_Ints M_IntDepth Spec_Sol Spec_Valid P_Valid P_Pydisort P_Pydisort2 P_Pydisort3.
Import ListNotations.
Local Open Scope R_scope.

Lemma wrap_in b x : (1 <= b)%Z -> (- 2 ^ (b - 1) <= x < 2 ^ (b - 1))%Z -> wrap_int b x = x.
Proof.
  intros Hb H. unfold wrap_int. assert (E : (2 ^ b = 2 * 2 ^ (b - 1))%Z) by (rewrite <- Z.pow_succ_r by lia; f_equal; lia).
  rewrite Z.mod_small by lia. lia.
Qed.
Lemma wrap_out b x : (1 <= b)%Z -> (x < - 2 ^ (b - 1) \/ 2 ^ (b - 1) <= x)%Z -> wrap_int b x <> x.
Proof.
  intros Hb H E. unfold wrap_int in E. assert (E2 : (2 ^ b = 2 * 2 ^ (b - 1))%Z) by (rewrite <- Z.pow_succ_r by lia; f_equal; lia).
  assert (0 < 2 ^ (b - 1))%Z by (apply Z.pow_pos_nonneg; lia).
  pose proof (Z.mod_pos_bound (x + 2 ^ (b - 1)) (2 ^ b) ltac:(lia)). lia.
Qed.

(** The powers up to [e] of a depth fit. *)
Definition pow_fits (b : Z) (e : nat) (z : Z) : Prop := (Z.abs z ^ Z.of_nat e < 2 ^ (b - 1))%Z.
Lemma pow_fits_le b e k z : (2 <= b)%Z -> pow_fits b e z -> (k <= e)%nat -> pow_fits b k z.
Proof.
  unfold pow_fits. intros Hb H Hk. destruct (Z.eq_dec z 0) as [->|Hz].
  - change (Z.abs 0) with 0%Z. assert (2 ^ 1 <= 2 ^ (b - 1))%Z by (apply Z.pow_le_mono_r; lia). change (2 ^ 1)%Z with 2%Z in *.
    destruct k; [change (0 ^ Z.of_nat 0)%Z with 1%Z|rewrite Z.pow_0_l by lia]; lia.
  - eapply Z.le_lt_trans; [|exact H]. apply Z.pow_le_mono_r; lia.
Qed.
Lemma ipow_fits b e k z : (2 <= b)%Z -> pow_fits b e z -> (k <= e)%nat -> ipow b z k = IZR z ^ k.
Proof.
  intros Hb H Hk. pose proof (pow_fits_le b e k z Hb H Hk) as Hf. unfold pow_fits in Hf. unfold ipow. rewrite wrap_in; [rewrite <- pow_IZR; reflexivity|lia|].
  rewrite <- Z.abs_pow in Hf. lia.
Qed.
Lemma pow_fits_0 b e : (2 <= b)%Z -> pow_fits b e 0.
Proof.
  intros Hb. unfold pow_fits. change (Z.abs 0) with 0%Z. assert (2 ^ 1 <= 2 ^ (b - 1))%Z by (apply Z.pow_le_mono_r; lia). change (2 ^ 1)%Z with 2%Z in *.
  destruct e; [change (0 ^ Z.of_nat 0)%Z with 1%Z|rewrite Z.pow_0_l by lia]; lia.
Qed.
Lemma nth_IZR tau i : nth i (map IZR tau) 0 = IZR (nth i tau 0%Z).
Proof. change 0 with (IZR 0) at 1. apply map_nth. Qed.
Lemma pow_fits_nth b e tau i : (2 <= b)%Z -> (forall z, In z tau -> pow_fits b e z) -> pow_fits b e (nth i tau 0%Z).
Proof. intros Hb H. destruct (Nat.ltb_spec i (length tau)); [apply H, nth_In; auto|rewrite nth_overflow by auto; apply pow_fits_0; auto]. Qed.

(** The exponent that has to fit, with [Ns] coefficients. *)
Definition top_pow (Ns : nat) (anti : bool) : nat := if anti then Ns else (Ns - 1)%nat.

Section Agree.
  Context {IM : IntModel}.
  Variable b : Z.
  Hypothesis Hb : (2 <= b)%Z.
  Lemma mathscr_vz_eq nr nq NL tau sc l Ns s G K gm anti : (1 <= Ns)%nat -> (forall z, In z tau -> pow_fits b (top_pow Ns anti) z) ->
    mathscr_vz b nr nq NL tau sc l Ns s G K gm anti = mathscr_v nr nq NL (map IZR tau) sc l Ns s G K gm anti.
  Proof.
    intros HN H. unfold mathscr_vz, mathscr_v. destruct (Nat.eqb_spec Ns 1); [reflexivity|]. destruct (Nat.eqb_spec Ns 2) as [E2|E2].
    - unfold vz_branch2, v_branch2. destruct anti; [|reflexivity].
      assert (E : map (fun z => isq b z / 2) tau = map (fun t => t * t / 2) (map IZR tau)).
      { rewrite map_map. apply map_ext_in. intros z Hz. pose proof (ipow_fits b _ 2 z Hb (H z Hz)) as P. unfold top_pow in P. specialize (P ltac:(lia)).
        unfold ipow in P. unfold isq. replace (z * z)%Z with (z ^ Z.of_nat 2)%Z by (change (Z.of_nat 2) with 2%Z; rewrite Z.pow_2_r; reflexivity).
        rewrite P. simpl. lra. }
      rewrite E. reflexivity.
    - unfold vz_branchN, v_branchN. rewrite map_length. destruct anti; unfold top_pow in H.
      + assert (E : (fun idx : list nat => ipow b (nth (nth 0 idx 0%nat) tau 0%Z) (S (Ns - 1 - nth 1 idx 0%nat)))
                 = (fun idx => nth (nth 0 idx 0%nat) (map IZR tau) 0 ^ S (Ns - 1 - nth 1 idx 0%nat))).
        { apply functional_extensionality. intros idx. rewrite nth_IZR. apply (ipow_fits b Ns); [auto|apply pow_fits_nth; auto|lia]. }
        cbv zeta. rewrite E. reflexivity.
      + assert (E : (fun idx : list nat => ipow b (nth (nth 0 idx 0%nat) tau 0%Z) (Ns - 1 - nth 1 idx 0%nat))
                 = (fun idx => nth (nth 0 idx 0%nat) (map IZR tau) 0 ^ (Ns - 1 - nth 1 idx 0%nat))).
        { apply functional_extensionality. intros idx. rewrite nth_IZR. apply (ipow_fits b (Ns - 1)); [auto|apply pow_fits_nth; auto|lia]. }
        cbv zeta. rewrite E. reflexivity.
  Qed.

  Section Asm.
    Variables (a : as_in) (sv : solved) (anti : bool) (tau : list Z).
    Hypothesis H : a_iso a = true -> any_scaled a = true \/ (1 <= a_Ns a)%nat /\ (forall z, In z tau -> pow_fits b (top_pow (a_Ns a) anti) z).
    Lemma iso_partz_eq r0 nr : a_iso a = true -> iso_partz b a sv anti r0 nr tau = iso_part a sv anti r0 nr (map IZR tau).
    Proof.
      intros Hi. unfold iso_partz. destruct (any_scaled a) eqn:E; [reflexivity|]. destruct (H Hi) as [X|[H1 H2]]; [congruence|].
      unfold iso_part. cbv zeta. rewrite mathscr_vz_eq by auto.
      assert (Es : scaled_taus a (map IZR tau) = map IZR tau).
      { unfold scaled_taus. rewrite <- (map_id (map IZR tau)) at 2. apply map_ext. intros t. unfold scaled_of. rewrite E. reflexivity. }
      rewrite Es. reflexivity.
    Qed.
    Lemma um_allz_eq : um_allz b a sv anti tau = um_all a sv anti (map IZR tau).
    Proof. unfold um_allz, um_all. case_eq (a_iso a); intros E; [|reflexivity]. rewrite iso_partz_eq by auto. reflexivity. Qed.
    Lemma cl_uz_eq phi e t l : cl_uz b a sv tau phi anti e t l = cl_u a sv (map IZR tau) phi anti e t l.
    Proof. unfold cl_uz, cl_u. rewrite um_allz_eq. reflexivity. Qed.
    Lemma cl_u0z_eq rt ra : cl_u0z b a sv tau anti rt ra = cl_u0 a sv (map IZR tau) anti rt ra.
    Proof. unfold cl_u0z, cl_u0, u0_allz, u0_all. case_eq (a_iso a); intros E; [|reflexivity]. rewrite iso_partz_eq by auto. reflexivity. Qed.
    Lemma cl_flux_upz_eq rt : cl_flux_upz b a sv tau anti rt = cl_flux_up a sv (map IZR tau) anti rt.
    Proof. unfold cl_flux_upz, cl_flux_up, flux_up_arrz, flux_up_arr. case_eq (a_iso a); intros E; [|reflexivity]. rewrite iso_partz_eq by auto. reflexivity. Qed.
    Lemma cl_flux_downz_eq rt : cl_flux_downz b a sv tau anti rt = cl_flux_down a sv (map IZR tau) anti rt.
    Proof. unfold cl_flux_downz, cl_flux_down, flux_down_arrz, flux_down_arr. case_eq (a_iso a); intros E; [|reflexivity]. rewrite iso_partz_eq by auto. reflexivity. Qed.
  End Asm.
End Agree.

(** What is asked of the depths: there is no source, or the depths are scaled, or their powers fit. *)
Definition int_depths_ok (b : Z) (p : py_in) (anti : bool) (tau : list Z) : Prop :=
  ~ has_source p \/ (exists l, (l < nlayers p)%nat /\ scl p l <> 1) \/
  forall z, In z tau -> (Z.abs z ^ Z.of_nat (if anti then ncol (p_s p) else ncol (p_s p) - 1) < 2 ^ (b - 1))%Z.

Section Call.
  Context {IM : IntModel}.
  Variables (b : Z) (p : py_in) (lg : leggauss_t) (la : linalg) (jk : junk).
  Lemma any_scaled_iff (V : valid p) r ss : any_scaled (assemble_args p lg r ss) = true <-> exists l, (l < nlayers p)%nat /\ scl p l <> 1.
  Proof.
    unfold any_scaled. rewrite existsb_exists. split.
    - intros (l & Hl & E). apply in_seq in Hl. exists l. split; [exact (proj2 Hl)|]. change (a_scale _ l) with (scale_tau p l) in E.
      rewrite scale_tau_eq in E by (auto; exact (proj2 Hl)). intros E1. rewrite E1 in E. rewrite Reqb_refl in E; discriminate.
    - intros (l & Hl & E). exists l. split; [apply in_seq; split; [lia|exact Hl]|]. change (a_scale _ l) with (scale_tau p l). rewrite scale_tau_eq by auto.
      rewrite Reqb_f by auto; reflexivity.
  Qed.
  Lemma side_ok (V : valid p) r ss anti tau : int_depths_ok b p anti tau ->
    let a := assemble_args p lg r ss in a_iso a = true -> any_scaled a = true \/ (1 <= a_Ns a)%nat /\ (forall z, In z tau -> pow_fits b (top_pow (a_Ns a) anti) z).
  Proof.
    intros H a Hi. change (a_iso a) with (has_iso p) in Hi. pose proof (proj1 (has_iso_iff p) Hi) as Hs.
    assert (ENs : a_Ns a = ncol (p_s p)). { change (a_Ns a) with (e_Ns p). unfold has_iso, e_Ns in *. destruct (forall2b _ _ _); [discriminate|reflexivity]. }
    destruct H as [H|[H|H]]; [contradiction|left; apply (any_scaled_iff V); exact H|right].
    rewrite ENs. split; [destruct Hs as (i & j & _ & Hj & _); lia|exact H].
  Qed.

  Theorem int_depths : (2 <= b)%Z -> forall out, pydisort p lg la jk = Ok out ->
    exists zo, pydisortz b p lg la jk = Ok zo /\
    forall tau anti, int_depths_ok b p anti tau ->
      (forall rt, zo_flux_up zo tau anti rt = po_flux_up out (map IZR tau) anti rt) /\
      (forall rt, zo_flux_down zo tau anti rt = po_flux_down out (map IZR tau) anti rt) /\
      (forall rt ra, zo_u0 zo tau anti rt ra = po_u0 out (map IZR tau) anti rt ra) /\
      (forall f g, zo_u zo = Some f -> po_u out = Some g -> forall phi re rt, f tau phi anti re rt = g (map IZR tau) phi anti re rt) /\
      (zo_u zo = None <-> po_u out = None).
  Proof.
    intros Hb out Hok. destruct (pydisort_parts _ _ _ _ _ Hok) as (V & _). unfold pydisort in Hok. unfold pydisortz.
    destruct (validate p) as [?|]; [cbn [bind] in Hok |- *|discriminate]. destruct (check _ _) as [?|]; [cbn [bind] in Hok |- *|discriminate].
    destruct (scaled_s p) as [ss|]; [cbn [bind] in Hok |- *|discriminate]. destruct (rescale p ss) as [r|]; [cbn [bind] in Hok |- *|discriminate].
    cbn [bind]. cbv zeta in Hok |- *. set (aa := assemble_args p lg r ss) in *. destruct (solve_all aa la jk) as [sv|]; [cbn [bind] in Hok |- *|discriminate].
    cbn [bind]. fold aa. eexists. split; [reflexivity|]. injection Hok as <-. intros tau anti Ht.
    pose proof (side_ok V r ss anti tau Ht) as S. cbv zeta in S. fold aa in S. cbn [zo_flux_up zo_flux_down zo_u0 zo_u po_flux_up po_flux_down po_u0 po_u].
    split; [intros; apply cl_flux_upz_eq; auto|]. split; [intros; apply cl_flux_downz_eq; auto|]. split; [intros; apply cl_u0z_eq; auto|].
    split; [|destruct (p_only_flux p); split; intros; (reflexivity || discriminate)].
    intros f g Hf Hg phi re rt. destruct (p_only_flux p); [discriminate|]. injection Hf as <-. injection Hg as <-. destruct (NT_active p).
    - unfold u_corrected. rewrite (cl_uz_eq b Hb aa sv anti tau S). reflexivity.
    - apply cl_uz_eq; auto.
  Qed.
  (** Errors of the call itself do not depend on it. *)
  Lemma int_depths_err e : pydisortz b p lg la jk = Err e <-> pydisort p lg la jk = Err e.
  Proof.
    unfold pydisort, pydisortz. destruct (validate p); cbn [bind]; [|split; intros H; injection H as <-; reflexivity].
    destruct (check _ _); cbn [bind]; [|split; intros H; injection H as <-; reflexivity].
    destruct (scaled_s p) as [ss|]; cbn [bind]; [|split; intros H; injection H as <-; reflexivity].
    destruct (rescale p ss) as [r|]; cbn [bind]; [|split; intros H; injection H as <-; reflexivity].
    cbv zeta. destruct (solve_all _ la jk) as [sv|]; cbn [bind]; [split; discriminate|split; intros H; injection H as <-; reflexivity].
  Qed.
End Call.
