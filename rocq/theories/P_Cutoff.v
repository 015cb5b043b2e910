(** Scattering that is left out because it is weak: the reported intensity jumps. *)
From Coq Require Import String Reals Lra Lia List Bool Arith ZArith.
From Coquelicot Require Import Coquelicot.
From Verif Require Import Base Tensor Spec M_LinAlg Spec_RTE Calc M_Subroutines M_Assemble M_Pydisort Spec_Sol Spec_Valid P_Valid P_Pydisort4 P_Pydisort8 P_Max P_NT3 P_Exist P_Sub3 P_Ints4
  Spec_Calls Spec_Phys Spec_Solved Spec_Mono Spec_Depend Examples Examples2 Examples3 Examples5 P_Error P_Depend2 Examples18.
Import ListNotations.
Local Open Scope R_scope.

Section Wk.
  Variables (T a : R).
  Hypothesis HT : 0 < T.
  Hypothesis Ha : 0 <= a < 1.
  Let p := p_wk T a.
  Variables (lg : leggauss_t) (la : linalg) (jk : junk) (out : py_out).
  Hypothesis Hla : linalg_ok la.
  Hypothesis Hlg : leggauss_ok (half p) (lg (half p)).
  Hypothesis Hok : pydisort p lg la jk = Ok out.

  Lemma dexp c e t : is_derive (fun s => exp (c * s + e)) t (c * exp (c * t + e)).
  Proof. auto_derive; [auto|]. ring. Qed.
  Lemma cont_sub2 u v : 0 <= u -> v <= T -> forall f, cont_on 0 T f -> cont_on u v f.
  Proof. intros Hu Hv f H. apply (cont_on_sub 0 T); assumption. Qed.
  Lemma wk_modes U : modes_of p out U -> forall t, 0 <= t <= T ->
    (a <= 2 / 100000000 -> U 0%nat 0%nat t = 0) /\ (2 / 100000000 < a -> a / 4 * (exp (- 2 * t) - exp (2 * t - 4 * T)) <= U 0%nat 0%nat t).
  Proof.
    intros HU t Ht. destruct (wk_system T a HT Ha lg la jk out U Hla Hlg Hok HU) as (C0 & C1 & E1 & E0 & D0 & D1 & Pos). cbv zeta in D0, D1.
    destruct (Rle_dec a (2 / 100000000)) as [Hs|Hs]; (split; [intros Hc|intros Hc]); try lra.
    - destruct (Req_dec t T) as [->|Hne]; [exact E0|]. assert (Hlt : t < T) by lra.
      pose proof (stay_up t T 2 (fun s => - U 0%nat 0%nat s) (fun _ => 0) Hlt) as X. specialize (Pos 0%nat t ltac:(lia) Ht). cut (0 <= - U 0%nat 0%nat t); [lra|]. apply X.
      + apply (cont_on_ext _ _ (fun s => -1 * U 0%nat 0%nat s)); [intros; ring|]. apply cont_on_scal, cont_sub2; [lra|lra|exact C0].
      + intros s Hx. refine (der_eq _ _ _ _ _ (der_opp _ _ _ (D0 s ltac:(lra)))). ring.
      + intros; lra.
      + rewrite E0. lra.
    - assert (HV : forall s, 0 <= s <= T -> exp (- 2 * s) <= U 0%nat 1%nat s).
      { intros s Hx. destruct (Req_dec s 0) as [->|Hne]; [rewrite E1, Rmult_0_r, exp_0; lra|].
        pose proof (stay_down 0 s 2 (fun s => U 0%nat 1%nat s - exp (- 2 * s)) (fun s => a * (U 0%nat 0%nat s + U 0%nat 1%nat s)) ltac:(lra)) as X. cut (0 <= U 0%nat 1%nat s - exp (- 2 * s)); [lra|]. apply X.
        - apply (cont_on_ext _ _ (fun s => U 0%nat 1%nat s + (-1) * exp (- 2 * s + 0))); [intros; rewrite Rplus_0_r; ring|]. apply cont_on_plus; [apply cont_sub2; [lra|lra|exact C1]|].
          apply cont_on_scal, cont_on_derive. intros y _. eexists. apply dexp.
        - intros y Hy. apply (is_derive_ext (fun s => U 0%nat 1%nat s - exp (- 2 * s + 0))); [intros; rewrite Rplus_0_r; reflexivity|]. refine (der_eq _ _ _ _ _ (der_minus _ _ _ _ _ (D1 y ltac:(lra)) (dexp (-2) 0 y))). rewrite Rplus_0_r. ring.
        - intros y Hy. pose proof (Pos 0%nat y ltac:(lia) ltac:(lra)). pose proof (Pos 1%nat y ltac:(lia) ltac:(lra)). apply Rmult_le_pos; lra.
        - rewrite E1, Rmult_0_r, exp_0. lra. }
      destruct (Req_dec t T) as [->|Hne]. { rewrite E0. replace (- 2 * T) with (2 * T - 4 * T) by ring. lra. }
      set (g := fun s => a / 4 * (exp (- 2 * s + 0) - exp (2 * s + - (4 * T)))).
      assert (Dg : forall s, is_derive g s (2 * g s - a * exp (- 2 * s))).
      { intros s. refine (der_eq _ _ _ _ _ (der_scal _ (a / 4) s _ (der_minus _ _ _ _ _ (dexp (-2) 0 s) (dexp 2 (- (4 * T)) s)))). unfold g. rewrite Rplus_0_r. field. }
      pose proof (stay_up t T 2 (fun s => U 0%nat 0%nat s - g s) (fun s => a * (U 0%nat 0%nat s + U 0%nat 1%nat s) - a * exp (- 2 * s)) ltac:(lra)) as X.
      cut (0 <= U 0%nat 0%nat t - g t); [unfold g; rewrite Rplus_0_r; unfold Rminus; lra|]. apply X.
      + apply (cont_on_ext _ _ (fun s => U 0%nat 0%nat s + (-1) * g s)); [intros; ring|]. apply cont_on_plus; [apply cont_sub2; [lra|lra|exact C0]|].
        apply cont_on_scal, cont_on_derive. intros y _. eexists. apply Dg.
      + intros s Hx. refine (der_eq _ _ _ _ _ (der_minus _ _ _ _ _ (D0 s ltac:(lra)) (Dg s))). ring.
      + intros s Hx. pose proof (Pos 0%nat s ltac:(lia) ltac:(lra)). pose proof (HV s ltac:(lra)). assert (0 <= a * (U 0%nat 0%nat s + U 0%nat 1%nat s - exp (- 2 * s))) by (apply Rmult_le_pos; lra). lra.
      + rewrite E0. unfold g. replace (- 2 * T + 0) with (2 * T + - (4 * T)) by ring. lra.
  Qed.
  Theorem wk_reported t : 0 <= t <= T -> exists A, po_u0 out [t] false false false = Ok (PVal (PT A)) /\ shp A = [2%nat] /\
    (a <= 2 / 100000000 -> elt A [0%nat] = 0) /\ (2 / 100000000 < a -> a / 4 * (exp (- 2 * t) - exp (2 * t - 4 * T)) <= elt A [0%nat]).
  Proof.
    intros Ht. destruct (modes_exist p lg la jk out Hla Hlg Hok) as (U & HU). destruct (proj1 HU [t]) as (A & EA & SA).
    { intros s [<-|[]]. exact Ht. }
    exists A. split; [exact EA|]. pose proof (one_depth p (wk_valid T a HT Ha) A _ 0 ltac:(cbn; lia) SA) as E. cbn [nth] in E. split; [destruct SA as (X & _); rewrite X; reflexivity|]. rewrite E. apply wk_modes; assumption.
  Qed.
End Wk.

Theorem wk_jump : ~ forall p lg la jk out, linalg_ok la -> leggauss_ok (half p) (lg (half p)) -> pydisort p lg la jk = Ok out ->
  forall w vn vp rho, double_gauss (half p) (po_mu out) w -> boundary_data p vn vp rho -> (forall l, (l < nlayers p)%nat -> fwd p l < 1) ->
  (forall i, (i < half p)%nat -> reflectance p (po_mu out) w (rho 0%nat) i < 1) ->
  forall eps, 0 < eps -> exists d, 0 < d /\
  forall q la' jk' out' vn' vp', linalg_ok la' -> pydisort q lg la' jk' = Ok out' -> boundary_data q vn' vp' rho -> same_setting p q -> nearby d p q vn vp vn' vp' ->
  (forall l, (l < nlayers q)%nat -> fwd q l < 1) -> phase_nonneg q (po_mu out) -> passive_surface q (po_mu out) w (rho 0%nat) -> forall tau, depths_ok p tau ->
  exists A B, po_u0 out tau false false false = Ok (PVal (PT A)) /\ po_u0 out' tau false false false = Ok (PVal (PT B)) /\ twithin eps A B.
Proof.
  intros H. set (c := 2 / 100000000). set (p := p_wk 1 c). assert (Hc : 0 <= c < 1) by (unfold c; lra). assert (H1 : 0 < 1) by lra.
  destruct (wk_ok 1 c H1 Hc junk0) as (out & Hp). pose proof (call_valid _ _ _ _ _ Hp) as V.
  destruct (modes_exist p lg_12 la_full junk0 out la_full_ok lg_12_ok1 Hp) as (U & HU). destruct (call_rte p lg_12 la_full junk0 out la_full_ok lg_12_ok1 Hp U HU) as (w & HD & _).
  assert (He : exp (-4) < 1) by (rewrite <- exp_0; apply exp_increasing; lra).
  set (eps := c / 8 * (1 - exp (-4))). assert (Heps : 0 < eps) by (unfold eps, c; apply Rmult_lt_0_compat; lra).
  assert (F1 : forall l, (l < nlayers p)%nat -> fwd p l < 1).
  { intros l Hl. change (nlayers p) with 1%nat in Hl. unfold p. destruct (wk_scl 1 c l Hl) as (_ & _ & -> & _). lra. }
  assert (F2 : forall i, (i < half p)%nat -> reflectance p (po_mu out) w (fun _ _ => 0) i < 1) by (intros i Hi; unfold p; rewrite wk_refl; lra).
  destruct (H p lg_12 la_full junk0 out la_full_ok lg_12_ok1 Hp w _ _ _ HD (wk_bd 1 c (fun _ _ _ => 0)) F1 F2 eps Heps) as (d & Hd & X).
  set (h := Rmin d (1/2)). assert (Hh : 0 < h) by (apply Rmin_pos; lra). assert (Hh1 : h <= d) by apply Rmin_l. assert (Hh2 : h <= 1/2) by apply Rmin_r. clearbody h.
  assert (Hq : 0 <= c + h < 1) by (unfold c; lra). set (q := p_wk 1 (c + h)). destruct (wk_ok 1 (c + h) H1 Hq junk0) as (out' & Hok').
  destruct (X q la_full junk0 out' (fun _ => 1) (fun _ => 0) la_full_ok Hok' (wk_bd 1 (c + h) (fun _ _ _ => 0))) with (tau := [0]) as (A & B & EA & EB & S & W).
  - constructor; reflexivity.
  - constructor.
    + intros l Hl. change (nlayers q) with 1%nat in Hl. unfold p, q. destruct (wk_scl 1 c l Hl) as (_ & _ & _ & ->). destruct (wk_scl 1 (c + h) l Hl) as (_ & _ & _ & ->). rewrite Rabs_left; lra.
    + intros l k Hl Hk. change (phase p l k) with (phase q l k). rewrite Rminus_eq_0, Rabs_R0. lra.
    + intros l Hl. change (fwd p l) with (fwd q l). rewrite Rminus_eq_0, Rabs_R0. lra.
    + intros l t Hl Ht. unfold p, q. rewrite !wk_source, Rminus_eq_0, Rabs_R0. lra.
    + intros i Hi. rewrite Rminus_eq_0, Rabs_R0. lra.
    + intros i Hi. rewrite Rminus_eq_0, Rabs_R0. lra.
  - intros l Hl. change (nlayers q) with 1%nat in Hl. unfold q. destruct (wk_scl 1 (c + h) l Hl) as (_ & _ & -> & _). lra.
  - apply wk_nonneg; assumption.
  - apply wk_passive; assumption.
  - intros t [<-|[]]. unfold p, bottom. cbn. lra.
  - destruct (wk_reported 1 c H1 Hc lg_12 la_full junk0 out la_full_ok lg_12_ok1 Hp 0 ltac:(lra)) as (A' & EA' & SA & XA & _).
    destruct (wk_reported 1 (c + h) H1 Hq lg_12 la_full junk0 out' la_full_ok lg_12_ok1 Hok' 0 ltac:(lra)) as (B' & EB' & SB & _ & XB).
    rewrite EA in EA'. injection EA' as <-. rewrite EB in EB'. injection EB' as <-. specialize (W [0%nat]). rewrite SA in W. specialize (W ltac:(cbn; lia)).
    rewrite (XA (Rle_refl _)) in W. specialize (XB ltac:(unfold c; lra)). rewrite !Rmult_0_r, exp_0 in XB. replace (0 - 4 * 1) with (-4) in XB by ring.
    apply Rabs_le_between in W as [W _]. assert (c / 4 * (1 - exp (-4)) <= (c + h) / 4 * (1 - exp (-4))) by (apply Rmult_le_compat_r; lra). unfold eps in *. lra.
Qed.

Theorem kept_continuous : forall p lg la jk out, linalg_ok la -> leggauss_ok (half p) (lg (half p)) -> pydisort p lg la jk = Ok out ->
  forall w vn vp rho, double_gauss (half p) (po_mu out) w -> boundary_data p vn vp rho -> scattering_kept p ->
  (forall i, (i < half p)%nat -> reflectance p (po_mu out) w (rho 0%nat) i < 1) ->
  forall eps, 0 < eps -> exists d, 0 < d /\
  forall q la' jk' out' vn' vp', linalg_ok la' -> pydisort q lg la' jk' = Ok out' -> boundary_data q vn' vp' rho -> same_setting p q -> nearby d p q vn vp vn' vp' ->
  scattering_kept q -> phase_nonneg q (po_mu out) -> passive_surface q (po_mu out) w (rho 0%nat) -> forall tau, depths_ok p tau ->
  exists A B, po_u0 out tau false false false = Ok (PVal (PT A)) /\ po_u0 out' tau false false false = Ok (PVal (PT B)) /\ twithin eps A B.
Proof.
  intros p lg la jk out Hla Hlg Hok w vn vp rho HD HB HK HR eps Heps. destruct (call_continuous p lg la jk out Hla Hlg Hok w vn vp rho HD HB HK HR eps Heps) as (d & Hd & X).
  exists d. split; [exact Hd|]. intros q la' jk' out' vn' vp' H1 H2 H3 H4 H5 H6 H7 H8 tau Ht. apply (X q la' jk' out' vn' vp' H1 H2 H3 H4 H5 H6 H7 H8 tau Ht).
Qed.

Lemma wk_dg T a jk out : pydisort (p_wk T a) lg_12 la_full jk = Ok out -> exists w, double_gauss (half (p_wk T a)) (po_mu out) w.
Proof.
  intros Hp. destruct (modes_exist (p_wk T a) lg_12 la_full jk out la_full_ok lg_12_ok1 Hp) as (U & HU). destruct (call_rte (p_wk T a) lg_12 la_full jk out la_full_ok lg_12_ok1 Hp U HU) as (w & HD & _). exists w. exact HD.
Qed.
