(** The estimate of the truncation error of the Fourier series (_assemble_intensity_and_fluxes.py, lines 266-313). *)
From Coq Require Import String Reals Lra Lia List Bool Arith ZArith.
From Coquelicot Require Import Coquelicot.
From Verif Require Import Base Tensor Spec M_LinAlg Spec_RTE Calc M_Subroutines M_GenPart M_MathscrV M_Coeffs M_Assemble M_Pydisort
  P_Sub P_Sub3 P_GenPart P_GenPart3 P_Tensor P_Coeffs P_Coeffs2 P_Coeffs3 P_Assemble P_Solve
  Spec_Sol Spec_Valid Spec_Calls P_Valid P_Pydisort P_Pydisort2 P_Pydisort3 P_Pydisort4 P_Pydisort5 P_Whole P_Actinic P_Absorb P_Refute Examples.
Import ListNotations.
Local Open Scope R_scope.

Lemma some_source_r p (V : valid p) ss r : rescale p ss = Ok r -> some_source p -> r <> 0.
Proof.
  intros Hr Hs E. destruct (r_le p ss r Hr) as (mp & mn & E1 & E2 & H). destruct (H E) as (H0 & H1 & H2).
  destruct Hs as [Hs|[(b & idx & Hb & Hi & Hs)|(l & j & Hl & Hj & Hs)]].
  - lra.
  - assert (norm_b b = b). { destruct (norm_b_or b) as [[_ Z]|]; auto. specialize (Z idx Hi). lra. }
    destruct Hb as [-> | ->]; unfold e_bpos, e_bneg in *; rewrite H3 in *.
    + pose proof (tmax_ge _ _ E1 idx Hi). lra.
    + pose proof (tmax_ge _ _ E2 idx Hi). lra.
  - apply (r_iso p ss r Hr); auto. apply has_iso_iff. exists l, j. auto.
Qed.
Lemma rescale_ge p ss r : rescale p ss = Ok r -> p_I0 p <= r.
Proof.
  unfold rescale. destruct (tmax (e_bpos p)) as [mp|]; cbn [bind]; [|discriminate]. destruct (tmax (e_bneg p)) as [mn|]; cbn [bind]; [|discriminate].
  destruct (has_iso p).
  - destruct (Reqb _ 0); [discriminate|]. intros E. assert (E' := f_equal (fun x => match x with Ok r => r | _ => 0 end) E). cbn beta iota in E'. rewrite <- E'.
    apply P_Valid.lmax_ge. left; reflexivity.
  - intros E. assert (E' := f_equal (fun x => match x with Ok r => r | _ => 0 end) E). cbn beta iota in E'. rewrite <- E'.
    apply P_Valid.lmax_ge. left; reflexivity.
Qed.

Section FErr.
  Variable p : py_in.
  Variables (lg : leggauss_t) (la : linalg) (jk : junk) (out : py_out).
  Hypothesis Hla : linalg_ok la.
  Hypothesis Hlg : leggauss_ok (half p) (lg (half p)).
  Hypothesis Hok : pydisort p lg la jk = Ok out.

  (** With a beam the estimate cannot be computed for most numbers of depths. *)
  Theorem fourier_error_fails u tau phi rt : po_u out = Some u -> 0 < p_I0 p -> (2 <= nlayers p)%nat -> (2 <= length tau)%nat ->
    length tau <> nlayers p -> depths_ok p tau -> exists e, u tau phi false true rt = Err e.
  Proof.
    intros Hu HI HL HT Hne Ht. destruct (pydisort_parts _ _ _ _ _ Hok) as (V & ss & r & sv & Hss & Hr & Hsv & Emu & Eup & Edn & Eu0 & Eu).
    set (a := assemble_args p lg r ss) in *. pose proof (a_good p V lg Hlg ss r) as Ha. fold a in Ha.
    assert (EB : exists e, forall x, cl_u a sv tau phi false true rt x = Err e).
    { unfold cl_u, tau_check.
      assert (HR : in_range a tau = true) by (apply in_range_iff; exact Ht). rewrite HR. cbn [check bind].
      destruct (um_all_val a sv (g_NL a Ha) (g_len a Ha) (HKne p V lg Hlg ss r la Hla jk sv Hsv) tau Ht (g_NF a Ha)) as (C & HC & SC & EC).
      rewrite HC. cbn [bind]. unfold Fourier_error, ulast.
      assert (Eb : a_beam a = true) by (cbn; apply Rltb_iff; exact HI). rewrite Eb.
      assert (EE : exists e, err_beam a sv false tau = Err e).
      { unfold err_beam. destruct (forallb _ _); [|eauto]. exists EShape. unfold tmul.
        eapply bcast2_2_err; [reflexivity|reflexivity| | |].
        - rewrite map_length. change (a_NLayers a) with (nlayers p). lia.
        - change (a_NLayers a) with (nlayers p). lia.
        - rewrite map_length. lia. }
      destruct EE as (e & EE). exists e. intros x. rewrite EE. reflexivity. }
    destruct EB as (e & EB). exists e.
    rewrite Hu in Eu. destruct (p_only_flux p); [discriminate|]. injection Eu as ->.
    destruct (NT_active p); [|apply EB]. unfold u_corrected. rewrite EB. reflexivity.
  Qed.

  (** Without a beam it is the documented maximum (the last mode must not be the one that carries
      the isotropic source). *)
  Theorem fourier_error_value : p_I0 p = 0 -> some_source p -> (~ has_source p \/ (2 <= nmodes p)%nat) ->
    forall u tau phi, po_u out = Some u -> depths_ok p tau -> tau <> [] -> phi <> [] ->
    exists U A e thr, modes_of p out U /\ 0 < thr /\
      u tau phi false true false = Ok (PTup [PT A; PR e]) /\
      let val i j k := rsum (nmodes p) (fun m => U m i (nth j tau 0) * cos (INR m * (p_phi0 p - nth k phi 0))) in
      let ratio i j k := if Rltb thr (Rabs (val i j k))
                         then Rabs (U (nmodes p - 1)%nat i (nth j tau 0) * cos (INR (nmodes p - 1) * (p_phi0 p - nth k phi 0))) / Rabs (val i j k)
                         else 0 in
      squeezed A [streams p; length tau; length phi] (fun idx => val (nth 0 idx 0%nat) (nth 1 idx 0%nat) (nth 2 idx 0%nat)) /\
      (forall i j k, (i < streams p)%nat -> (j < length tau)%nat -> (k < length phi)%nat -> ratio i j k <= e) /\
      (exists i j k, (i < streams p)%nat /\ (j < length tau)%nat /\ (k < length phi)%nat /\ ratio i j k = e).
  Proof.
    intros HI Hsrc Hiso u tau phi Hu Ht Htne Hpne.
    destruct (pydisort_parts _ _ _ _ _ Hok) as (V & ss & r & sv & Hss & Hr & Hsv & Emu & Eup & Edn & Eu0 & Eu).
    set (a := assemble_args p lg r ss) in *. pose proof (a_good p V lg Hlg ss r) as Ha. fold a in Ha.
    rewrite Hu in Eu. destruct (p_only_flux p) eqn:Ef; [discriminate|]. injection Eu as ->.
    assert (EN : NT_active p = false).
    { apply not_true_is_false. intros E. apply NT_iff in E; auto. destruct E as (_ & _ & HI' & _). lra. }
    rewrite EN in *.
    assert (Rp : 0 < r).
    { assert (Hn : r <> 0) by (apply (some_source_r p V ss r Hr Hsrc)). pose proof (rescale_ge p ss r Hr). lra. }
    exists (Umode p lg ss r sv).
    assert (HM : modes_of p out (Umode p lg ss r sv)).
    { split.
      - intros tau' Ht'. rewrite Eu0. apply (u0_reports p V lg Hlg ss r la Hla jk sv Hsv tau' false Ht').
      - intros u' Hu' HN tau' phi' Ht'. rewrite Hu in Hu'. injection Hu' as <-.
        apply (u_reports p V lg Hlg ss r la Hla jk sv Hsv tau' phi' false Ht'). }
    unfold cl_u, tau_check.
    assert (HR : in_range a tau = true) by (apply in_range_iff; exact Ht). rewrite HR. cbn [check bind].
    destruct (um_all_val a sv (g_NL a Ha) (g_len a Ha) (HKne p V lg Hlg ss r la Hla jk sv Hsv) tau Ht (g_NF a Ha)) as (C & HC & SC & EC).
    rewrite HC. cbn [bind].
    unfold Fourier_error, ulast.
    assert (Eb : a_beam a = false). { cbn. apply Rltb_f. lra. }
    rewrite Eb. cbn [bind].
    set (h := mkT _ (fun idx => at_tau tau _ _)).
    set (az := map _ phi).
    assert (Saz : length az = length phi) by (unfold az; apply map_length).
    set (NQ := (2 * a_N a)%nat) in *. set (nt := length tau) in *.
    destruct (bcast2_3 Rmult (tnew 2 h) (tnew 0 (tnew 0 (t1 az))) NQ nt 1 1 1 (length phi) NQ nt (length phi)) as (num & Hnum & Snum & Enum);
      [reflexivity|cbn; rewrite Saz; reflexivity|apply bc_1r|apply bc_1r|apply bc_1l|].
    unfold tmul. rewrite Hnum. cbn [bind].
    set (uf := u_full a C phi).
    assert (Suf : shp (tmap Rabs uf) = [NQ; nt; length phi]) by (cbn; rewrite SC; reflexivity).
    destruct (bcast2_3 (fun x y => if Rltb (1 / 100000000) y then x / y else 0) (tmap Rabs num) (tmap Rabs uf) NQ nt (length phi) NQ nt (length phi) NQ nt (length phi))
      as (d & Hd & Sd & Ed); [exact Snum|exact Suf|apply bc_same|apply bc_same|apply bc_same|].
    rewrite Hd. cbn [bind]. rewrite Sd, Suf, list_eqb_refl.
    assert (Hnt : (0 < nt)%nat) by (unfold nt; destruct tau; [congruence|cbn; lia]).
    assert (Hnp : (0 < length phi)%nat) by (destruct phi; [congruence|cbn; lia]).
    assert (HNQ : NQ = streams p) by (symmetry; apply (streams_eq p V)).
    assert (HNQ0 : (0 < NQ)%nat) by (unfold NQ; pose proof (g_N a Ha); lia).
    assert (Em : exists e, tmax d = Ok e /\ In e (entries d) /\ forall x, In x (entries d) -> x <= e).
    { assert (In (elt d [0;0;0]%nat) (entries d)) as Hin.
      { apply entries_In. exists [0;0;0]%nat. split; auto. rewrite Sd. cbn [inb]. repeat split; auto; lia. }
      unfold tmax. destruct (entries d) as [|y ys] eqn:Ee; [destruct Hin|].
      exists (lmax (y :: ys)). split; [reflexivity|]. split; [apply lmax_In; discriminate|]. intros x Hx. apply P_Valid.lmax_ge; auto. }
    destruct Em as (e & Em & Em1 & Em2). rewrite Em. cbn [bind orb app ret].
    exists (tscal r (tsqueeze uf)), e, (r * (1 / 100000000)).
    split; [exact HM|]. split; [lra|]. split; [reflexivity|]. cbv zeta.
    set (val := fun i j k => rsum (nmodes p) (fun m => Umode p lg ss r sv m i (nth j tau 0) * cos (INR m * (p_phi0 p - nth k phi 0)))).
    assert (Ev : forall i j k, (i < NQ)%nat -> (j < nt)%nat -> (k < length phi)%nat -> val i j k = r * elt uf [i; j; k]).
    { intros i j k Hi Hj Hk. unfold val, uf, u_full. cbn [elt nth]. rewrite <- rsum_scal.
      change (a_NFourier a) with (pNF p) in *. rewrite nmodes_eq. apply rsum_ext. intros m Hm.
      rewrite EC; auto. unfold Umode, azimuth. fold a. cbn [a assemble_args a_phi0]. ring. }
    assert (El : forall i j, (i < NQ)%nat -> (j < nt)%nat -> Umode p lg ss r sv (nmodes p - 1) i (nth j tau 0) = r * elt h [i; j]).
    { intros i j Hi Hj. unfold Umode, h, at_tau. cbn [elt nth]. fold a. f_equal. unfold mode_at, fld.
      rewrite <- hom_beam. unfold beam_part. rewrite Eb. rewrite nmodes_eq. change (a_NFourier a) with (pNF p).
      assert (Z : (Nat.eqb (pNF p - 1) 0 && a_iso a)%bool = false).
      { destruct Hiso as [Hiso|Hiso].
        - rewrite andb_false_intro2; auto. cbn. apply not_true_is_false. intros E. apply Hiso, has_iso_iff, E.
        - rewrite nmodes_eq in Hiso. rewrite (proj2 (Nat.eqb_neq _ _)) by lia. reflexivity. }
      rewrite Z. ring. }
    assert (Er : forall i j k, (i < NQ)%nat -> (j < nt)%nat -> (k < length phi)%nat ->
      (if Rltb (r * (1 / 100000000)) (Rabs (val i j k))
       then Rabs (Umode p lg ss r sv (nmodes p - 1) i (nth j tau 0) * cos (INR (nmodes p - 1) * (p_phi0 p - nth k phi 0))) / Rabs (val i j k)
       else 0) = elt d [i; j; k]).
    { intros i j k Hi Hj Hk. rewrite Ed, !bi_lt by auto. cbn [tmap elt]. rewrite Enum, (bi_lt NQ), (bi_lt nt) by auto. rewrite ?bi_1.
      cbn [tnew t1 elt firstn skipn app nth]. unfold az. cbn [hd]. rewrite bi_lt by auto. rewrite (nth_map_d _ _ _ 0) by auto.
      rewrite Ev, El by auto. rewrite !Rabs_mult, (Rabs_right r) by lra.
      replace (azimuth a (a_NFourier a - 1) (nth k phi 0)) with (cos (INR (nmodes p - 1) * (p_phi0 p - nth k phi 0))) by (rewrite nmodes_eq; reflexivity).
      unfold Rltb. destruct (Rlt_dec _ _) as [Q|Q]; destruct (Rlt_dec _ _) as [Q'|Q']; auto.
      - field. split; [|lra]. lra.
      - exfalso. apply Q'. apply (Rmult_lt_reg_l r); lra.
      - exfalso. apply Q. apply Rmult_lt_compat_l; lra. }
    split; [|split].
    - apply squeezed_scal; [unfold uf, u_full; cbn [shp]; rewrite SC, HNQ; reflexivity|]. intros idx Hi.
      apply inb_3 in Hi as (i & j & k & -> & Hi & Hj & Hk). cbn [nth]. symmetry. apply Ev; auto. lia.
    - intros i j k Hi Hj Hk. refine (eq_ind_r (fun x => x <= e) _ (Er i j k ltac:(lia) Hj Hk)). apply Em2, entries_In. exists [i; j; k]. split; auto. rewrite Sd. cbn [inb]. repeat split; auto; lia.
    - apply entries_In in Em1 as (idx & Hi & He). rewrite Sd in Hi. apply inb_3 in Hi as (i & j & k & -> & Hi & Hj & Hk).
      exists i, j, k. split; [lia|]. split; [exact Hj|]. split; [exact Hk|]. exact (eq_trans (Er i j k Hi Hj Hk) He).
  Qed.
End FErr.

(** Two non-scattering layers and a beam. *)
Definition p_two : py_in := p_abs [1; 2] [0; 0] [0; 0] 1 1 0 0 [] false.
Lemma p_two_ok jk : exists out, pydisort p_two lg_12 la_id jk = Ok out.
Proof.
  apply abs_ok; cbn; try lra; try lia; auto.
  - intros [|[|l]] Hl; cbn; [lra|lra|lia].
  - split; auto. intros w [<-|[<-|[]]]; lra.
  - split; auto. intros w [<-|[<-|[]]]; lra.
  - intros [|[|l]] Hl; [left; reflexivity|left; reflexivity|lia].
Qed.
Theorem fourier_error_refuted jk : exists p lg la out u tau phi, linalg_ok la /\ leggauss_ok (half p) (lg (half p)) /\ pydisort p lg la jk = Ok out /\
  po_u out = Some u /\ depths_ok p tau /\ forall rt, exists e, u tau phi false true rt = Err e.
Proof.
  destruct (p_two_ok jk) as (out & H). destruct (pydisort_parts _ _ _ _ _ H) as (V & ss & r & sv & _ & _ & _ & _ & _ & _ & _ & Eu).
  change (p_only_flux p_two) with false in Eu. cbn iota in Eu.
  match type of Eu with _ = Some ?f => remember f as u eqn:Q; clear Q end.
  exists p_two, lg_12, la_id, out, u, [0; 1; 2], [0].
  split; [exact la_id_ok|]. split; [exact leggauss1_ok|]. split; [exact H|]. split; [exact Eu|].
  assert (D : depths_ok p_two [0; 1; 2]). { unfold depths_ok, bottom. cbn. intros t [<-|[<-|[<-|[]]]]; lra. }
  split; [exact D|]. intros rt. apply (fourier_error_fails p_two lg_12 la_id jk out la_id_ok leggauss1_ok H u [0; 1; 2] [0] rt Eu); auto; cbn; try lia; lra.
Qed.

(** ** Further examples *)
(** Diffuse light from above, no beam. *)
Definition p_dif : py_in := p_abs [1] [0] [0] 1 0 0 1 [] false.
Lemma p_dif_ok jk : exists out, pydisort p_dif lg_12 la_id jk = Ok out.
Proof.
  apply abs_ok; cbn; try lra; try lia; auto.
  - intros [|l] Hl; cbn; [lra|lia].
  - split; auto. intros w [<-|[]]. lra.
  - split; auto. intros w [<-|[]]. lra.
  - intros [|l] Hl; [left; reflexivity|lia].
Qed.
Lemma p_dif_source : some_source p_dif.
Proof. right. left. exists (t0 1), []. cbn. repeat split; auto. lra. Qed.
Lemma p_dif_nosource : ~ has_source p_dif.
Proof. intros (i & j & _ & Hj & _). cbn in Hj. lia. Qed.
(** Negative light from below and positive light from above. *)
Definition p_mix : py_in := p_abs [1] [0] [0] 1 0 (-1) 1 [] false.
Lemma p_mix_ok jk : exists out, pydisort p_mix lg_12 la_id jk = Ok out.
Proof.
  apply abs_ok; cbn; try lra; try lia; auto.
  - intros [|l] Hl; cbn; [lra|lia].
  - split; auto. intros w [<-|[]]. lra.
  - split; auto. intros w [<-|[]]. lra.
  - intros [|l] Hl; [left; reflexivity|lia].
Qed.
Lemma p_mix_source : some_source p_mix.
Proof. right. left. exists (t0 1), []. cbn. repeat split; auto. lra. Qed.
(** A layer with forward fraction 1 and the corrections. *)
Definition p_nt1 : py_in := p_abs [1] [1/2] [1] 1 1 0 0 [] true.
Lemma p_nt1_ok jk : exists out, pydisort p_nt1 lg_12 la_id jk = Ok out.
Proof.
  apply abs_ok; cbn; try lra; try lia; auto.
  - intros [|l] Hl; cbn; [lra|lia].
  - split; auto. intros w [<-|[]]. lra.
  - split; auto. intros w [<-|[]]. lra.
  - intros [|l] Hl; [right; reflexivity|lia].
Qed.
Lemma p_nt1_nt : nt_applies p_nt1.
Proof. repeat split; cbn; try lra; try lia; [exists 1|exists (1/2)]; split; auto; lra. Qed.
Theorem nt_division_refuted jk : exists p lg la out u, linalg_ok la /\ leggauss_ok (half p) (lg (half p)) /\ pydisort p lg la jk = Ok out /\
  po_u out = Some u /\ forall t phi, 0 <= t <= bottom p -> u [t] phi false false false = Err ENonFinite.
Proof.
  destruct (p_nt1_ok jk) as (out & H). destruct (call_u p_nt1 lg_12 la_id jk out H eq_refl) as (u & Hu).
  exists p_nt1, lg_12, la_id, out, u. split; [exact la_id_ok|]. split; [exact leggauss1_ok|]. split; [exact H|]. split; [exact Hu|].
  intros t phi Ht. apply (nt_divides_by_zero p_nt1 lg_12 la_id jk out la_id_ok leggauss1_ok H u [t] phi t p_nt1_nt Hu).
  - intros x [<-|[]]. exact Ht.
  - left; auto.
  - unfold lay. cbn -[Rltb]. unfold bottom in Ht. cbn in Ht. rewrite Rltb_f by lra. reflexivity.
Qed.
(** Matrix boundary sources: what a successful call returns. *)
Theorem matrix_boundary p lg la jk out : linalg_ok la -> leggauss_ok (half p) (lg (half p)) -> pydisort p lg la jk = Ok out ->
  forall U, modes_of p out U ->
  (shp (p_bneg p) = [half p; nmodes p] -> nonneg (p_bneg p) \/ some_source p ->
     forall m i, seen p m -> (i < half p)%nat -> U m (half p + i)%nat 0 = elt (p_bneg p) [i; m]) /\
  (shp (p_bpos p) = [half p; nmodes p] -> nonneg (p_bpos p) \/ some_source p -> p_BDRF p = [] ->
     forall m i, seen p m -> (i < half p)%nat -> U m i (bottom p) = elt (p_bpos p) [i; m]).
Proof.
  intros Hla Hlg Hok U HU. split.
  - intros Hs Hn m i Hm Hi. destruct (matrix_values p lg la jk out _ Hlg Hok (or_intror eq_refl) Hs) as (v & Hv & E).
    rewrite (call_top p lg la jk out Hla Hlg Hok U HU v Hn Hv m i Hm Hi). apply E; auto. apply Hm.
  - intros Hs Hn Hb m i Hm Hi. destruct (matrix_values p lg la jk out _ Hlg Hok (or_introl eq_refl) Hs) as (v & Hv & E).
    destruct (call_bottom p lg la jk out Hla Hlg Hok U HU Hn) as (w & _ & H).
    rewrite (H v (fun _ _ _ => 0) Hv) by (rewrite ?Hb; cbn; auto; lia). rewrite Hb. cbn [length Nat.ltb Nat.leb].
    rewrite E by (auto; apply Hm). ring.
Qed.
(** A single-stream matrix. *)
Definition p_mat1 : py_in := {|
  p_tau := [1]; p_omega := [0]; p_NQuad := 2; p_Leg := mkA2 1 3 (fun _ k => match k with 0%nat => 1 | _ => 1/10 end);
  p_mu0 := 1/4; p_I0 := 1; p_phi0 := 0; p_NLeg := None; p_NFourier := Some 1%Z;
  p_bpos := t0 0; p_bneg := mkT [1%nat; 1%nat] (fun _ => 2); p_only_flux := false; p_f := [0]; p_NT := false;
  p_BDRF := []; p_s := mkA2 1 0 (fun _ _ => 0); p_banded := 3; p_autograd := false |}.
Lemma p_mat1_ok jk : exists out, pydisort p_mat1 lg_12 la_id jk = Ok out.
Proof.
  apply absorbing_ok.
  - constructor; cbn -[Rlt Rle PI map nth top_of bot_of]; auto; try lra; try lia.
    + intros [|l] Hl; cbn; [lra|lia].
    + intros [|l] Hl; cbn; [lra|lia].
    + intros w [<-|[]]. lra.
    + intros l [|k] _ Hk; [lia|]. lra.
    + pose proof PI_RGT_0. lra.
    + right. left. reflexivity.
    + right. right. exists 1%nat, [1%nat]. split; [reflexivity|right; reflexivity].
    + intros x [<-|[]]. lra.
  - exact leggauss1_ok.
  - apply la_id_complete.
  - intros [|l] Hl; [left; reflexivity|cbn in Hl; lia].
  - exists (fun _ => 0). apply bc_scal; auto.
  - exists (fun _ => 2). eapply (bc_row _ _ _ 1); auto.
  - intros m Hm. cbn in Hm. lia.
  - intros _. left. reflexivity.
  - intros (i & j & _ & Hj & _). cbn in Hj. lia.
  - discriminate.
Qed.
Lemma prep_facts p : valid p ->
  (~ has_source p -> nrow (p_s p) = 1%nat \/ nrow (p_s p) = nlayers p) ->
  (has_source p -> 0 < p_I0 p \/ positive_entry (p_bpos p) \/ positive_entry (p_bneg p)) ->
  (forall l, (l < nlayers p)%nat -> 0 < 1 - albedo p l * fwd p l) /\
  exists ss r, scaled_s p = Ok ss /\ rescale p ss = Ok r /\ divisor r <> 0.
Proof.
  intros V H1 H2. split; [intros l Hl; apply (scl_pos p V l Hl)|]. destruct (prep_ok p V H1 H2) as (ss & r & E1 & E2).
  exists ss, r. repeat split; auto. unfold divisor. destruct (Reqb r 0) eqn:E; [lra|]. apply Reqb_false in E. exact E.
Qed.
Theorem signed_boundary p lg la jk out : linalg_ok la -> leggauss_ok (half p) (lg (half p)) -> pydisort p lg la jk = Ok out ->
  forall U, modes_of p out U -> some_source p ->
  (forall v, bc_values (p_bneg p) (half p) v -> forall m i, seen p m -> (i < half p)%nat -> U m (half p + i)%nat 0 = if Nat.eqb m 0 then v i else 0) /\
  (p_BDRF p = [] -> forall v, bc_values (p_bpos p) (half p) v -> forall m i, seen p m -> (i < half p)%nat -> U m i (bottom p) = if Nat.eqb m 0 then v i else 0).
Proof.
  intros Hla Hlg Hok U HU Hs. split.
  - intros v Hv m i Hm Hi. apply (call_top p lg la jk out Hla Hlg Hok U HU v (or_intror Hs) Hv m i Hm Hi).
  - intros Hb v Hv m i Hm Hi. destruct (call_bottom p lg la jk out Hla Hlg Hok U HU (or_intror Hs)) as (w & _ & H).
    rewrite (H v (fun _ _ _ => 0) Hv) by (rewrite ?Hb; cbn; auto; lia). rewrite Hb. cbn [length Nat.ltb Nat.leb]. ring.
Qed.
Definition junk0 : junk := let z := (fun (_ _ _ : nat) => 0) in let v := (fun (_ _ : nat) => 0) in mkJ z v z v z v v (fun _ => 0).
