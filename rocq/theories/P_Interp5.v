(** Interleavings of calls that use different interpolator objects. *)
From Coq Require Import String Reals Lra Lia List Bool Arith ZArith.
From Verif Require Import Base Tensor M_Subroutines M_LinAlg M_Assemble M_Pydisort M_Interp Spec Spec_Sol Spec_Interp Spec_Calls
  P_Sub P_Sub3 P_Interp P_Interp2 P_Interp3 P_Interp4 P_Pydisort2 P_Error Examples Examples3.
Import ListNotations.
Local Open Scope R_scope.

Definition at_mu (mu : list R) (t : thread) : Prop :=
  match t with
  | TStart c _ => ia_mu c = mu
  | TSetPos l => lo_mu l = mu
  | TEvalPos l => lo_mu l = mu /\ exists x, In x mu /\ 0 < x
  | TSetNeg l => lo_mu l = mu
  | TEvalNeg l => lo_mu l = mu /\ exists x, In x mu /\ x <= 0
  | TDone _ => True
  end.
Lemma at_step it mu o t : at_mu mu t -> at_mu mu (snd (step it o t)).
Proof.
  destruct t as [c j|l|l|l|l|r]; cbn [step]; intros H.
  - cbn [snd]. unfold i_start. destruct (negb _); [exact I|]. destruct (fetch _ _) as [[A rest]|]; [exact H|exact I].
  - destruct (existsb is_pos (lo_mu l)) eqn:E; [|exact H]. destruct (set_yi _ _); [|exact I]. cbn in *. split; auto.
    apply existsb_exists in E as (x & Hx & Hp). exists x. rewrite <- H. split; auto. apply Rltb_iff. exact Hp.
  - destruct (bind _ _); [cbn; apply H|exact I].
  - destruct (existsb not_pos (lo_mu l)) eqn:E; [|exact I]. destruct (set_yi _ _); [|exact I]. cbn in *. split; auto.
    apply existsb_exists in E as (x & Hx & Hp). exists x. rewrite <- H. split; auto. unfold not_pos, is_pos in Hp.
    apply Rnot_lt_le. intros L. apply Rltb_iff in L. rewrite L in Hp. discriminate.
  - destruct (bind _ _); exact I.
  - exact I.
Qed.
Lemma nth_upd i t ts : forall k, nth_error (upd i t ts) k = if Nat.eqb k i then match nth_error ts k with Some _ => Some t | None => None end else nth_error ts k.
Proof.
  revert i. induction ts as [|x ts IH]; intros [|i] [|k]; cbn; auto; try (destruct (Nat.eqb k i); reflexivity).
Qed.
Definition apart (mus : list (list R)) : Prop := forall i j mu mu', i <> j -> nth_error mus i = Some mu -> nth_error mus j = Some mu' ->
  ~ ((exists x, In x mu /\ 0 < x) /\ (exists x, In x mu' /\ 0 < x)) /\ ~ ((exists x, In x mu /\ x <= 0) /\ (exists x, In x mu' /\ x <= 0)).
Theorem apart_exclusive it mus : apart mus -> forall sched w,
  (forall i t, nth_error (snd w) i = Some t -> exists mu, nth_error mus i = Some mu /\ at_mu mu t) -> exclusive it sched w.
Proof.
  intros HA. induction sched as [|i sched IH]; intros w Hw; cbn [exclusive]; auto. split.
  - intros j t t' Hne Ht Ht' HC. destruct (Hw _ _ Ht) as (mu & E & M). destruct (Hw _ _ Ht') as (mu' & E' & M').
    destruct (HA i j mu mu' (not_eq_sym Hne) E E') as [A1 A2].
    destruct HC as [(l & l' & -> & -> & x & X)|(l & l' & -> & -> & x & X)]; cbn in M, M'; rewrite M in X; [apply A1|apply A2]; split; eauto; apply M'.
  - apply IH. intros k t Hk. unfold wstep in Hk. destruct (nth_error (snd w) i) as [ti|] eqn:Ei; [|apply Hw; exact Hk].
    destruct (step it (fst w) ti) as [o t'] eqn:Es. cbn [snd] in Hk. rewrite nth_upd in Hk. destruct (Nat.eqb k i) eqn:Eki; [|apply Hw; exact Hk].
    apply Nat.eqb_eq in Eki. subst k. rewrite Ei in Hk. injection Hk as <-. destruct (Hw _ _ Ei) as (mu & E & M). exists mu. split; auto.
    pose proof (at_step it mu (fst w) ti M) as Z. rewrite Es in Z. exact Z.
Qed.
Lemma different_objects it o calls sched : apart (map (fun cj => ia_mu (fst cj)) calls) ->
  exclusive it sched (o, map (fun cj : iargs * (list nat -> R) => TStart (fst cj) (snd cj)) calls).
Proof.
  intros H. apply (apart_exclusive it _ H). cbn [snd]. intros i t E. rewrite nth_error_map in E. destruct (nth_error calls i) as [[c j]|] eqn:Ec; [|discriminate].
  cbn in E. injection E as <-. exists (ia_mu c). rewrite nth_error_map, Ec. split; reflexivity.
Qed.

(** An upward and a downward call whose steps alternate. *)
Lemma interp_facts jk : exists out u it, linalg_ok (la_ex []) /\ leggauss_ok (half p1) (lg_12 (half p1)) /\
  pydisort p1 lg_12 (la_ex []) jk = Ok out /\ po_u out = Some u /\ ~ nt_applies p1 /\ interpolate lg_12 (FU u) = Ok it /\
  cosines_ok [1 / 2; - 1 / 3; 0; 1] /\ exists A, u [0; 1] [0; 1 / 2] false false false = Ok (PVal (PT A)) /\ shp A = [2; 2; 2]%nat.
Proof.
  destruct (p1_facts jk) as (out & U & H1 & H2 & H3 & H4 & (u & Hu) & _ & _ & Hn & _). 
  destruct (interpolate_u p1 lg_12 (la_ex []) jk out H1 H2 H3 u Hu Hn) as (it & Hit). exists out, u, it.
  repeat (split; [assumption|]). split. { intros x [<-|[<-|[<-|[<-|[]]]]]; apply Rabs_le; lra. }
  destruct (proj2 H4 u Hu Hn [0; 1] [0; 1 / 2]) as (A & E & S). { intros t [<-|[<-|[]]]; unfold bottom; cbn; lra. }
  exists A. split; [exact E|]. rewrite (proj1 S). reflexivity.
Qed.

(** Every call ends after at most five of its own steps. *)
Definition left_ (t : thread) : nat :=
  match t with TStart _ _ => 5 | TSetPos _ => 4 | TEvalPos _ => 3 | TSetNeg _ => 2 | TEvalNeg _ => 1 | TDone _ => 0 end.
Lemma left_step it o t : (left_ (snd (step it o t)) <= left_ t - 1)%nat.
Proof.
  destruct t as [c j|l|l|l|l|r]; cbn [step left_].
  - cbn [snd]. unfold i_start. destruct (negb _); [cbn; lia|]. destruct (fetch _ _) as [[A rest]|]; cbn; lia.
  - destruct (existsb _ _); [|cbn; lia]. destruct (set_yi _ _); cbn; lia.
  - destruct (bind _ _); cbn; lia.
  - destruct (existsb _ _); [|cbn; lia]. destruct (set_yi _ _); cbn; lia.
  - destruct (bind _ _); cbn; lia.
  - cbn. lia.
Qed.
Lemma left_run it i : forall sched w t, nth_error (snd w) i = Some t ->
  exists t', nth_error (snd (wrun it sched w)) i = Some t' /\ (left_ t' <= left_ t - count_occ Nat.eq_dec sched i)%nat.
Proof.
  induction sched as [|k sched IH]; intros w t H. { exists t. split; [exact H|cbn; lia]. }
  cbn [wrun fold_left]. change (fold_left (wstep it) sched (wstep it w k)) with (wrun it sched (wstep it w k)).
  assert (X : exists t1, nth_error (snd (wstep it w k)) i = Some t1 /\ (left_ t1 <= left_ t - (if Nat.eq_dec k i then 1 else 0))%nat).
  { unfold wstep. destruct (nth_error (snd w) k) as [tk|] eqn:Ek.
    - destruct (step it (fst w) tk) as [o t'] eqn:Es. cbn [snd]. rewrite nth_upd. destruct (Nat.eq_dec k i) as [->|Hne].
      + rewrite Nat.eqb_refl, H. rewrite H in Ek. injection Ek as <-. eexists. split; [reflexivity|].
        pose proof (left_step it (fst w) t) as L. rewrite Es in L. exact L.
      + replace (Nat.eqb i k) with false by (symmetry; apply Nat.eqb_neq; lia). exists t. split; [exact H|lia].
    - exists t. split; [exact H|]. destruct (Nat.eq_dec k i) as [->|]; [congruence|lia]. }
  destruct X as (t1 & H1 & L1). destruct (IH _ _ H1) as (t' & H' & L'). exists t'. split; [exact H'|].
  cbn [count_occ]. destruct (Nat.eq_dec k i); lia.
Qed.
Theorem finishes it o calls sched i c j : nth_error calls i = Some (c, j) -> (5 <= count_occ Nat.eq_dec sched i)%nat ->
  exists r, nth_error (snd (wrun it sched (o, map (fun cj => TStart (fst cj) (snd cj)) calls))) i = Some (TDone r).
Proof.
  intros Hc Hn. destruct (left_run it i sched (o, map (fun cj => TStart (fst cj) (snd cj)) calls) (TStart c j)) as (t & Ht & L).
  { cbn [snd]. rewrite nth_error_map, Hc. reflexivity. }
  change (left_ (TStart c j)) with 5%nat in L. assert (L0 : left_ t = 0%nat) by lia. clear L. exists (match t with TDone r => r | _ => Err EType end). rewrite Ht. destruct t; cbn in L0; try discriminate. reflexivity.
Qed.

(** ** Statements in the form of the properties *)
Lemma value_nodes p lg la jk out : leggauss_ok (half p) (lg (half p)) -> pydisort p lg la jk = Ok out ->
  forall f it, returned out f -> interpolate lg f = Ok it ->
  forall o mu tau phi anti j A, cosines_ok mu -> plain f tau phi anti = Ok (PVal (PT A)) ->
  exists B F, snd (i_call it o (mkIA mu tau phi anti false false) j) = Ok (PVal (PT B)) /\ squeezed B (length mu :: tl (shp A)) F /\
    forall k i idx, (k < length mu)%nat -> (i < length (po_mu out))%nat -> inb (tl (shp A)) idx ->
      nth k mu 0 = nth i (po_mu out) 0 -> F (k :: idx) = elt A (i :: idx).
Proof.
  intros Hlg H f it Hf Hit o mu tau phi anti j A Hm HA.
  destruct (plain_value p lg la jk out Hlg H f it Hf Hit o mu tau phi anti j A Hm HA) as (B & F & E & S & HI).
  exists B, F. split; [exact E|]. split; [exact S|]. intros k i idx Hk Hi Hidx Hx.
  destruct (pydisort_parts _ _ _ _ _ H) as (V & ss & r0 & sv & _ & _ & _ & Emu & _).
  pose proof (mu_arr_gauss p lg Hlg) as DG. rewrite <- Emu in DG. apply (interpolant_nodes _ _ _ _ _ _ DG HI); auto.
  destruct DG as (L & _). lia.
Qed.
Lemma value_poly p lg la jk out : leggauss_ok (half p) (lg (half p)) -> pydisort p lg la jk = Ok out ->
  forall f it, returned out f -> interpolate lg f = Ok it ->
  forall o mu tau phi anti j A, cosines_ok mu -> plain f tau phi anti = Ok (PVal (PT A)) ->
  exists B F, snd (i_call it o (mkIA mu tau phi anti false false) j) = Ok (PVal (PT B)) /\ squeezed B (length mu :: tl (shp A)) F /\
    forall idx (pu pd : list R), inb (tl (shp A)) idx -> (length pu <= half p)%nat -> (length pd <= half p)%nat ->
      (forall i, (i < length (po_mu out))%nat -> let x := nth i (po_mu out) 0 in
         elt A (i :: idx) = if Rlt_dec 0 x then peval pu x else peval pd x) ->
      forall k, (k < length mu)%nat -> let x := nth k mu 0 in
        F (k :: idx) = if Rlt_dec 0 x then peval pu x else peval pd x.
Proof.
  intros Hlg H f it Hf Hit o mu tau phi anti j A Hm HA.
  destruct (plain_value p lg la jk out Hlg H f it Hf Hit o mu tau phi anti j A Hm HA) as (B & F & E & S & HI).
  exists B, F. split; [exact E|]. split; [exact S|]. intros idx pu pd Hidx Lu Ld HP k Hk x.
  destruct (pydisort_parts _ _ _ _ _ H) as (V & ss & r0 & sv & _ & _ & _ & Emu & _).
  pose proof (mu_arr_gauss p lg Hlg) as DG. rewrite <- Emu in DG. apply (interpolant_poly _ _ _ _ _ _ DG HI k idx pu pd); auto.
  destruct DG as (L & G & _). intros i Hi. destruct (G i Hi) as ([G1 _] & G2 & _). split.
  - rewrite HP by lia. cbv zeta. destruct (Rlt_dec 0 (nth i (po_mu out) 0)); [reflexivity|lra].
  - rewrite HP by lia. cbv zeta. rewrite G2. destruct (Rlt_dec 0 (- nth i (po_mu out) 0)); [lra|reflexivity].
Qed.
Lemma flux_rejected lg g : exists e, interpolate lg (FFlux g) = Err e.
Proof. unfold interpolate. destruct (call00 (FFlux g)) as [r|e]; cbn [bind]; [|eauto]. destruct (py_len r); cbn [bind]; eauto. Qed.
Lemma extra_u p lg la jk out : leggauss_ok (half p) (lg (half p)) -> pydisort p lg la jk = Ok out ->
  forall u it, po_u out = Some u -> interpolate lg (FU u) = Ok it ->
  forall o mu tau phi anti e t j r, cosines_ok mu -> u tau phi anti e t = Ok r ->
  exists r' A B F, snd (i_call it o (mkIA mu tau phi anti e t) j) = Ok r' /\ first_replaced r r' A B /\
    squeezed B (length mu :: tl (shp A)) F /\ interpolant (half p) (po_mu out) mu A F /\
    (t = true -> exists vs, r' = PTup vs /\ last vs (PR 0) = PA (p_tau p)).
Proof. intros Hlg H u it Hu Hit o mu tau phi anti e t j r. apply (flags_u p lg la jk out Hlg H (FU u) it); auto. right. eauto. Qed.
Lemma extra_u0 p lg la jk out : leggauss_ok (half p) (lg (half p)) -> pydisort p lg la jk = Ok out ->
  forall it, interpolate lg (FU0 (po_u0 out)) = Ok it ->
  forall o mu tau phi anti e t j r, cosines_ok mu -> po_u0 out tau anti e t = Ok r ->
  exists r' A B F, snd (i_call it o (mkIA mu tau phi anti e t) j) = Ok r' /\ first_replaced r r' A B /\
    squeezed B (length mu :: tl (shp A)) F /\ interpolant (half p) (po_mu out) mu A F.
Proof. intros Hlg H it Hit o mu tau phi anti e t j r. apply (flags_u0 p lg la jk out Hlg H (FU0 (po_u0 out)) it); auto. left. auto. Qed.
Lemma extra_u0_wrong p lg la jk out : linalg_ok la -> leggauss_ok (half p) (lg (half p)) -> pydisort p lg la jk = Ok out ->
  forall it, interpolate lg (FU0 (po_u0 out)) = Ok it ->
  forall o mu tau phi j, cosines_ok mu -> depths_ok p tau -> (forall l, (l < nlayers p)%nat -> scl p l = 1) ->
  exists B D, snd (i_call it o (mkIA mu tau phi false false true) j) = Ok (PTup [PT B; PT D]) /\ shp D = [] /\ elt D [] = 0.
Proof. intros Hla Hlg H it Hit o mu tau phi j. apply (flags_u0_wrong p lg la jk out Hla Hlg H (FU0 (po_u0 out)) it); auto. left. auto. Qed.
Lemma dif_facts jk : exists out it, linalg_ok la_id /\ leggauss_ok (half p_dif) (lg_12 (half p_dif)) /\
  pydisort p_dif lg_12 la_id jk = Ok out /\ interpolate lg_12 (FU0 (po_u0 out)) = Ok it /\
  depths_ok p_dif [0; 1] /\ forall l, (l < nlayers p_dif)%nat -> scl p_dif l = 1.
Proof.
  destruct (p_dif_ok jk) as (out & H). assert (Hlg : leggauss_ok (half p_dif) (lg_12 (half p_dif))) by exact leggauss1_ok.
  destruct (interpolate_u0 p_dif lg_12 la_id jk out la_id_ok Hlg H) as (it & Hit). exists out, it.
  split; [exact la_id_ok|]. repeat (split; [assumption|]). split. { intros t [<-|[<-|[]]]; unfold bottom; cbn; lra. }
  intros [|l] Hl; [unfold scl, albedo, fwd; cbn; ring|cbn in Hl; lia].
Qed.
Lemma hemispheres p lg la jk out : leggauss_ok (half p) (lg (half p)) -> pydisort p lg la jk = Ok out ->
  forall f it, returned out f -> interpolate lg f = Ok it ->
  forall o calls sched i c j r,
  (forall a b c1 j1 c2 j2 x y, a <> b -> nth_error calls a = Some (c1, j1) -> nth_error calls b = Some (c2, j2) ->
     In x (ia_mu c1) -> In y (ia_mu c2) -> 0 < x /\ y <= 0 \/ x <= 0 /\ 0 < y) ->
  let w := (o, map (fun cj => TStart (fst cj) (snd cj)) calls) in
  nth_error calls i = Some (c, j) -> nth_error (snd (wrun it sched w)) i = Some (TDone r) -> same_ret r (alone it c).
Proof.
  intros Hlg H f it Hf Hit o calls sched i c j r HS w Hc Hr. apply (no_conflict p lg la jk out Hlg H f it Hf Hit o calls sched i c j r); auto.
  apply different_objects. intros a b mu mu' Hne E1 E2. rewrite nth_error_map in E1, E2.
  destruct (nth_error calls a) as [[c1 j1]|] eqn:A1; [|discriminate]. destruct (nth_error calls b) as [[c2 j2]|] eqn:A2; [|discriminate].
  cbn in E1, E2. injection E1 as <-. injection E2 as <-. split; intros ((x & X1 & X2) & (y & Y1 & Y2));
    destruct (HS _ _ _ _ _ _ x y Hne A1 A2 X1 Y1); lra.
Qed.
Lemma two_hemispheres jk : exists out it c c', leggauss_ok (half p1) (lg_12 (half p1)) /\
  pydisort p1 lg_12 (la_ex []) jk = Ok out /\ interpolate lg_12 (FU0 (po_u0 out)) = Ok it /\ ia_mu c = [1 / 2] /\ ia_mu c' = [- 1 / 2] /\
  forall o j j', exclusive it (alternating 5) (o, [TStart c j; TStart c' j']) /\
    exists r r', snd (wrun it (alternating 5) (o, [TStart c j; TStart c' j'])) = [TDone r; TDone r'].
Proof.
  destruct (p1_facts jk) as (out & U & H1 & H2 & H3 & _).
  destruct (interpolate_u0 p1 lg_12 (la_ex []) jk out H1 H2 H3) as (it & Hit).
  set (c := mkIA [1 / 2] [0] [] false false false). set (c' := mkIA [- 1 / 2] [1] [] false false false).
  exists out, it, c, c'. repeat (split; [assumption || reflexivity|]). intros o j j'. split.
  - apply (different_objects it o [(c, j); (c', j')]). intros a b mu mu' Hne E1 E2.
    destruct a as [|[|a]], b as [|[|b]]; cbn in E1, E2; try lia; try (destruct a; discriminate); try (destruct b; discriminate);
      injection E1 as <-; injection E2 as <-; split; intros ((x & [<-|[]] & X2) & (y & [<-|[]] & Y2)); lra.
  - destruct (finishes it o [(c, j); (c', j')] (alternating 5) 0 c j eq_refl ltac:(cbn; lia)) as (r & Er).
    destruct (finishes it o [(c, j); (c', j')] (alternating 5) 1 c' j' eq_refl ltac:(cbn; lia)) as (r' & Er').
    exists r, r'. cbn [map fst snd] in Er, Er'. set (W := snd (wrun it (alternating 5) (o, [TStart c j; TStart c' j']))) in *.
    assert (L : length W = 2%nat).
    { unfold W. generalize (alternating 5). intros sc. 
      assert (G : forall w, length (snd w) = 2%nat -> length (snd (wrun it sc w)) = 2%nat).
      { induction sc as [|k sc IH]; intros w Hw; [exact Hw|]. cbn [wrun fold_left]. apply IH. unfold wstep.
        destruct (nth_error (snd w) k); [|exact Hw]. destruct (step _ _ _) as [o1 t1]. cbn [snd]. rewrite <- Hw. generalize (snd w). clear.
        intros l. revert k. induction l; intros [|k]; cbn; auto. }
      apply G. reflexivity. }
    destruct W as [|x [|y [|]]]; try discriminate. cbn in Er, Er'. congruence.
Qed.
