(** Superposition of sources: the corrected intensity. *)
From Coq Require Import Classical String Reals Lra Lia List Bool Arith ZArith.
From Coquelicot Require Import Coquelicot.
From Verif Require Import Base Tensor Spec M_LinAlg Spec_RTE Calc M_Subroutines M_GenPart M_MathscrV M_Coeffs M_Assemble M_Pydisort
  Spec_Sol Spec_Valid Spec_Calls Spec_Unique Spec_Phys Spec_NT P_Special P_Quad P_Sub P_Solve P_Energy P_Valid P_Pydisort P_Pydisort2 P_Pydisort3 P_Pydisort4 P_Pydisort5 P_Pydisort6 P_Pydisort8 P_Assemble P_Teq P_NT P_NT2 P_NT3 P_Unique2 P_Refine P_Max P_Max2 P_Max3 P_Max4 P_Super.
Import ListNotations.
Local Open Scope R_scope.

(** The same call without the corrections. *)
Definition no_nt (p : py_in) : py_in := {|
  p_tau := p_tau p; p_omega := p_omega p; p_NQuad := p_NQuad p; p_Leg := p_Leg p;
  p_mu0 := p_mu0 p; p_I0 := p_I0 p; p_phi0 := p_phi0 p; p_NLeg := p_NLeg p; p_NFourier := p_NFourier p;
  p_bpos := p_bpos p; p_bneg := p_bneg p; p_only_flux := p_only_flux p; p_f := p_f p; p_NT := false;
  p_BDRF := p_BDRF p; p_s := p_s p; p_banded := p_banded p; p_autograd := p_autograd p |}.
Lemma no_nt_not p : ~ nt_applies (no_nt p).
Proof. intros (H & _). discriminate. Qed.

Section Form.
  Variables (p : py_in) (lg : leggauss_t) (la : linalg) (jk : junk) (out : py_out).
  Hypothesis Hla : linalg_ok la.
  Hypothesis Hlg : leggauss_ok (half p) (lg (half p)).
  Hypothesis Hok : pydisort p lg la jk = Ok out.

  (** What the corrections add. *)
  Definition added (i : nat) (t phi : R) : R := missing p (lay p t) (nth i (po_mu out) 0) phi * Gu p lg out i t + Vc p lg out i t phi.

  Lemma full_form : exists out0 U, pydisort (no_nt p) lg la jk = Ok out0 /\ modes_of (no_nt p) out0 U /\
    forall u, po_u out = Some u -> forall tau phi, nt_args p tau phi ->
    (nt_applies p -> nt_finite p (po_mu out)) ->
    exists A, u tau phi false false false = Ok (PVal (PT A)) /\
    ((nt_applies p /\ squeezed A [streams p; length tau; length phi] (fun idx => let i := nth 0 idx 0%nat in let t := nth (nth 1 idx 0%nat) tau 0 in let ph := nth (nth 2 idx 0%nat) phi 0 in
       rsum (nmodes p) (fun m => U m i t * cos (INR m * (p_phi0 p - ph))) + added i t ph)) \/
     (~ nt_applies p /\ squeezed A [streams p; length tau; length phi] (fun idx => let i := nth 0 idx 0%nat in let t := nth (nth 1 idx 0%nat) tau 0 in let ph := nth (nth 2 idx 0%nat) phi 0 in
       rsum (nmodes p) (fun m => U m i t * cos (INR m * (p_phi0 p - ph)))))).
  Proof.
    destruct (pydisort_parts _ _ _ _ _ Hok) as (V & ss & r & sv & Hss & Hr & Hsv & Emu & Eup & Edn & Eu0 & Eu).
    set (a := assemble_args p lg r ss) in *.
    set (out0 := mkPO (mu_arr p lg) (cl_flux_up a sv) (cl_flux_down a sv) (cl_u0 a sv)
       (if p_only_flux p then None else Some (fun tau phi anti e t => cl_u a sv tau phi anti e t false)) (mkA2 (nrow (p_Leg p)) (ncol (p_Leg p)) (Leg_all p))).
    exists out0, (Umode p lg ss r sv).
    assert (HU : forall tau phi, depths_ok p tau -> exists A, cl_u a sv tau phi false false false false = Ok (PVal (PT A)) /\
       squeezed A [streams p; length tau; length phi] (fun idx => rsum (nmodes p) (fun m => Umode p lg ss r sv m (nth 0 idx 0%nat) (nth (nth 1 idx 0%nat) tau 0) * cos (INR m * (p_phi0 p - nth (nth 2 idx 0%nat) phi 0))))).
    { intros tau phi Ht. exact (u_reports p V lg Hlg ss r la Hla jk sv Hsv tau phi false Ht). }
    split; [|split; [split|]].
    - unfold pydisort. change (validate (no_nt p)) with (validate p). rewrite (proj2 (validate_iff p) V). cbn [bind].
      replace (NT_angle_ok (no_nt p) lg) with true by reflexivity. cbn [check bind].
      change (scaled_s (no_nt p)) with (scaled_s p). rewrite Hss. cbn [bind]. change (rescale (no_nt p)) with (rescale p). rewrite Hr. cbn [bind].
      change (assemble_args (no_nt p) lg r ss) with a. rewrite Hsv. cbn [bind]. change (NT_active (no_nt p)) with false. reflexivity.
    - intros tau Ht. exact (u0_reports p V lg Hlg ss r la Hla jk sv Hsv tau false Ht).
    - intros v Hv _ tau phi Ht. cbn [out0 po_u] in Hv. destruct (p_only_flux p); [discriminate|]. injection Hv as <-. exact (HU tau phi Ht).
    - intros u Hu tau phi HA HF. destruct (classic (nt_applies p)) as [HN|HN].
      + pose proof (HF HN) as HF1. rewrite Eu in Hu. assert (Eo : p_only_flux p = false) by apply HN. rewrite Eo, (proj2 (NT_iff p) HN) in Hu. injection Hu as <-.
        pose proof HA as (_ & Ht & _). pose proof (a_good p V lg Hlg ss r) as Ha. fold a in Ha.
        pose proof (HKne p V lg Hlg ss r la Hla jk sv Hsv) as HK. fold a in HK.
        destruct (um_all_val a sv (g_NL a Ha) (g_len a Ha) HK tau Ht (g_NF a Ha)) as (C & HC & SC & EC).
        assert (HF' : nt_finite p (mu_arr p lg)) by (rewrite <- Emu; exact HF1).
        destruct (uc_val p V lg Hlg ss r Hr HF' sv (mode_at a sv) tau phi false C HA HC SC EC) as (A & EA & SA).
        exists A. split; [exact EA|]. left. split; [exact HN|]. apply (squeezed_ext _ _ _ _ SA). intros idx Hi. cbv zeta. set (i := nth 0 idx 0%nat). set (t := nth (nth 1 idx 0%nat) tau 0). set (ph := nth (nth 2 idx 0%nat) phi 0).
        unfold added, corr, Bc, Vc, Gu, Umode. rewrite Emu. fold a. f_equal. f_equal. ring.
      + rewrite Eu in Hu. destruct (p_only_flux p) eqn:Eo; [discriminate|]. destruct (NT_active p) eqn:Ea; [exfalso; apply HN, NT_iff; exact Ea|]. injection Hu as <-.
        destruct (HU tau phi (proj1 (proj2 HA))) as (A & EA & SA). exists A. split; [exact EA|]. right. split; [exact HN|exact SA].
  Qed.
End Form.

(** The corrections of calls on the same medium are proportional to the beams. *)
Definition alt (q : py_in) (I0 : R) (nf : option Z) (bp bn : tensor) (fl nt : bool) (s : arr2) (bd : Z) (ag : bool) : py_in := {|
  p_tau := p_tau q; p_omega := p_omega q; p_NQuad := p_NQuad q; p_Leg := p_Leg q;
  p_mu0 := p_mu0 q; p_I0 := I0; p_phi0 := p_phi0 q; p_NLeg := p_NLeg q; p_NFourier := nf;
  p_bpos := bp; p_bneg := bn; p_only_flux := fl; p_f := p_f q; p_NT := nt;
  p_BDRF := p_BDRF q; p_s := s; p_banded := bd; p_autograd := ag |}.
Lemma alt_eq p q : same_medium p q -> p_phi0 p = p_phi0 q ->
  p = alt q (p_I0 p) (p_NFourier p) (p_bpos p) (p_bneg p) (p_only_flux p) (p_NT p) (p_s p) (p_banded p) (p_autograd p).
Proof. intros [S1 S2 S3 S4 S5 S6 S7 S8] E. destruct p, q. cbn in *. subst. reflexivity. Qed.
Section Alt.
  Variables (q : py_in) (I0 : R) (nf : option Z) (bp bn : tensor) (fl nt : bool) (s : arr2) (bd : Z) (ag : bool) (lg : leggauss_t).
  Local Notation p := (alt q I0 nf bp bn fl nt s bd ag).
  Lemma alt_psi : psi p lg = psi q lg. Proof. reflexivity. Qed.
  Lemma alt_lay : lay p = lay q. Proof. reflexivity. Qed.
  Lemma alt_chi : chi p lg = chi q lg. Proof. reflexivity. Qed.
  Lemma alt_missing l x phi : p_I0 q * missing p l x phi = I0 * missing q l x phi.
  Proof.
    unfold missing. change (albedo_s p l) with (albedo_s q l). change (p_exact p l) with (p_exact q l). change (p_trunc p l) with (p_trunc q l). change (fwd p l) with (fwd q l).
    change (scat_cos p x phi) with (scat_cos q x phi). change (p_I0 p) with I0. unfold Rdiv. ring.
  Qed.
  Lemma alt_ims x phi : p_I0 q * ims_factor p x phi = I0 * ims_factor q x phi.
  Proof.
    unfold ims_factor. change (wavg p) with (wavg q). change (favg p) with (favg q). change (gavg p) with (gavg q). change (p_Leg p) with (p_Leg q).
    change (scat_cos p x phi) with (scat_cos q x phi). change (p_I0 p) with I0. unfold Rdiv. ring.
  Qed.
  Lemma alt_added out out' i t phi : po_mu out = po_mu out' -> p_I0 q * added p lg out i t phi = I0 * added q lg out' i t phi.
  Proof.
    intros E. unfold added, Gu, Vc. rewrite E, alt_psi, alt_lay, alt_chi. change (half p) with (half q). change (p_mu0 p) with (p_mu0 q).
    rewrite !Rmult_plus_distr_l, <- !Rmult_assoc, alt_missing. f_equal. destruct (Nat.ltb i (half q)); [ring|]. rewrite <- !Rmult_assoc, alt_ims. ring.
  Qed.
End Alt.
Lemma added_beam p q lg out out' : same_medium p q -> p_phi0 p = p_phi0 q -> po_mu out = po_mu out' ->
  forall i t phi, p_I0 q * added p lg out i t phi = p_I0 p * added q lg out' i t phi.
Proof.
  intros S E Em i t phi. rewrite (alt_eq p q S E) at 1. apply alt_added. exact Em.
Qed.

Definition unit_beam (q : py_in) : py_in := alt q 1 (p_NFourier q) (p_bpos q) (p_bneg q) (p_only_flux q) (p_NT q) (p_s q) (p_banded q) (p_autograd q).
Lemma sm_unit p q : same_medium p q -> same_medium p (unit_beam q).
Proof. intros []. constructor; assumption. Qed.
Lemma nt_medium p q : same_medium p q -> p_NT p = p_NT q -> p_only_flux p = p_only_flux q -> 0 < p_I0 q -> nt_applies p -> nt_applies q.
Proof.
  intros [S1 S2 S3 S4 S5 S6 S7 S8] H1 H2 H3 (A & B & _ & C & D & E). repeat split; try congruence.
  - rewrite <- S6. exact C.
  - unfold ncoeffs in *. rewrite <- S5, <- S3, <- S4. exact D.
  - rewrite <- S2. exact E.
Qed.

Section Super.
  Variables (a b : R) (p p' q : py_in) (lg : leggauss_t) (la la' la'' : linalg) (jk jk' jk'' : junk) (out out' out'' : py_out).
  Hypothesis Hla : linalg_ok la.
  Hypothesis Hla' : linalg_ok la'.
  Hypothesis Hla'' : linalg_ok la''.
  Hypothesis Hlu : linalg_unique la''.
  Hypothesis Hlg : leggauss_ok (half q) (lg (half q)).
  Hypothesis Hp : pydisort p lg la jk = Ok out.
  Hypothesis Hp' : pydisort p' lg la' jk' = Ok out'.
  Hypothesis Hq : pydisort q lg la'' jk'' = Ok out''.
  Hypothesis SM : same_medium p q.
  Hypothesis SM' : same_medium p' q.
  Variables (vn vp vn' vp' vn'' vp'' : nat -> R) (rho : nat -> R -> R -> R).
  Hypothesis BD : boundary_data p vn vp rho.
  Hypothesis BD' : boundary_data p' vn' vp' rho.
  Hypothesis BD'' : boundary_data q vn'' vp'' rho.
  Hypothesis SU : superposed a b p p' q vn vp vn' vp' vn'' vp''.

  Lemma added_unit x o : same_medium x q -> p_phi0 x = p_phi0 q -> po_mu o = po_mu out'' ->
    forall i t phi, added x lg o i t phi = p_I0 x * added (unit_beam q) lg out'' i t phi.
  Proof.
    intros S E Em i t phi. pose proof (added_beam x (unit_beam q) lg o out'' (sm_unit x q S) E Em i t phi) as H. change (p_I0 (unit_beam q)) with 1 in H. rewrite Rmult_1_l in H. exact H.
  Qed.
  Lemma off_dark x y : same_medium x y -> p_NT x = p_NT y -> p_only_flux x = p_only_flux y -> valid y -> nt_applies x -> ~ nt_applies y -> p_I0 y = 0.
  Proof.
    intros S H1 H2 V H3 H4. destruct (Rlt_le_dec 0 (p_I0 y)) as [H|H]; [exfalso; apply H4; exact (nt_medium x y S H1 H2 H H3)|]. pose proof (v_I0 y V). lra.
  Qed.

  Theorem call_super_corrected u u' u'' : po_u out = Some u -> po_u out' = Some u' -> po_u out'' = Some u'' ->
    p_phi0 p = p_phi0 q -> p_phi0 p' = p_phi0 q -> nmodes p = nmodes q -> nmodes p' = nmodes q ->
    p_NT p = p_NT q -> p_NT p' = p_NT q ->
    (nt_applies p -> nt_finite p (po_mu out)) -> (nt_applies p' -> nt_finite p' (po_mu out')) -> (nt_applies q -> nt_finite q (po_mu out'')) ->
    forall tau phi, nt_args q tau phi ->
    exists A B C, u tau phi false false false = Ok (PVal (PT A)) /\ u' tau phi false false false = Ok (PVal (PT B)) /\
      u'' tau phi false false false = Ok (PVal (PT C)) /\ tcomb a b A B C.
  Proof.
    intros Eu Eu' Eu'' P1 P2 M1 M2 T1 T2 F1 F2 F3 tau phi HA.
    pose proof (lg_p p q lg Hlg SM) as L1. pose proof (lg_p p' q lg Hlg SM') as L2.
    pose proof (mu_p p q lg la la'' jk jk'' out out'' Hp Hq SM) as Em1. pose proof (mu_p p' q lg la' la'' jk' jk'' out' out'' Hp' Hq SM') as Em2.
    pose proof (call_valid p lg la jk out Hp) as V1. pose proof (call_valid p' lg la' jk' out' Hp') as V2. pose proof (call_valid q lg la'' jk'' out'' Hq) as V3.
    assert (A1 : forall x, same_medium x q -> nt_args x tau phi).
    { intros x S. destruct HA as (H1 & H2 & H3 & H4). split; [exact H1|]. split; [intros t Ht; rewrite (sm_bottom x q S); auto|]. split; [|rewrite (sm_half x q S); exact H4].
      intros t Ht. pose proof (H3 t Ht) as K. unfold lay, fwd, bot_of in *. rewrite (sm_tau x q S), (sm_f x q S). exact K. }
    assert (O : forall x o lx jx ux, pydisort x lg lx jx = Ok o -> po_u o = Some ux -> p_only_flux x = false).
    { intros x o lx jx ux Hx Hux. destruct (pydisort_parts _ _ _ _ _ Hx) as (_ & ss & r & sv & _ & _ & _ & _ & _ & _ & _ & E). rewrite E in Hux. destruct (p_only_flux x); [discriminate|reflexivity]. }
    pose proof (O _ _ _ _ _ Hp Eu) as O1. pose proof (O _ _ _ _ _ Hp' Eu') as O2. pose proof (O _ _ _ _ _ Hq Eu'') as O3.
    destruct (full_form p lg la jk out Hla L1 Hp) as (o1 & U1 & C1 & Q1 & R1). destruct (full_form p' lg la' jk' out' Hla' L2 Hp') as (o2 & U2 & C2 & Q2 & R2). destruct (full_form q lg la'' jk'' out'' Hla'' Hlg Hq) as (o3 & U3 & C3 & Q3 & R3).
    destruct (R1 u Eu tau phi (A1 p SM) F1) as (A & EA & SA). destruct (R2 u' Eu' tau phi (A1 p' SM') F2) as (B & EB & SB). destruct (R3 u'' Eu'' tau phi HA F3) as (C & EC & SC).
    exists A, B, C. split; [exact EA|]. split; [exact EB|]. split; [exact EC|].
    assert (HU : forall m i t, (m < nmodes q)%nat -> (i < streams q)%nat -> 0 <= t <= bottom q -> U3 m i t = a * U1 m i t + b * U2 m i t).
    { intros m i t Hm Hi Ht.
      refine (super_modes a b (no_nt p) (no_nt p') (no_nt q) lg la la' la'' jk jk' jk'' o1 o2 o3 Hla Hla' Hla'' Hlu Hlg C1 C2 C3 _ _ vn vp vn' vp' vn'' vp'' rho _ _ _ _ U1 U2 U3 m Q1 Q2 Q3 _ _ _ i t Hi Ht).
      - destruct SM; constructor; assumption.
      - destruct SM'; constructor; assumption.
      - destruct BD; constructor; assumption.
      - destruct BD'; constructor; assumption.
      - destruct BD''; constructor; assumption.
      - destruct SU; constructor; assumption.
      - split; [change (m < nmodes p)%nat; rewrite M1; exact Hm|right; apply no_nt_not].
      - split; [change (m < nmodes p')%nat; rewrite M2; exact Hm|right; apply no_nt_not].
      - split; [exact Hm|right; apply no_nt_not]. }
    assert (HK : exists k : nat -> R -> R -> R, forall x o W, same_medium x q -> p_phi0 x = p_phi0 q -> po_mu o = po_mu out'' -> p_NT x = p_NT q -> p_only_flux x = false -> valid x ->
      nmodes x = nmodes q -> x = p \/ x = p' \/ x = q -> forall D,
      ((nt_applies x /\ squeezed D [streams x; length tau; length phi] (fun idx => let i := nth 0 idx 0%nat in let t := nth (nth 1 idx 0%nat) tau 0 in let ph := nth (nth 2 idx 0%nat) phi 0 in
         rsum (nmodes x) (fun m => W m i t * cos (INR m * (p_phi0 x - ph))) + added x lg o i t ph)) \/
       (~ nt_applies x /\ squeezed D [streams x; length tau; length phi] (fun idx => let i := nth 0 idx 0%nat in let t := nth (nth 1 idx 0%nat) tau 0 in let ph := nth (nth 2 idx 0%nat) phi 0 in
         rsum (nmodes x) (fun m => W m i t * cos (INR m * (p_phi0 x - ph)))))) ->
      squeezed D [streams q; length tau; length phi] (fun idx => let i := nth 0 idx 0%nat in let t := nth (nth 1 idx 0%nat) tau 0 in let ph := nth (nth 2 idx 0%nat) phi 0 in
         rsum (nmodes q) (fun m => W m i t * cos (INR m * (p_phi0 q - ph))) + p_I0 x * k i t ph)).
    { destruct (classic (exists y, (y = p \/ y = p' \/ y = q) /\ nt_applies y)) as [(y & Hy & Ny)|HN].
      - exists (fun i t ph => added (unit_beam q) lg out'' i t ph).
        assert (Sy : same_medium q y /\ p_NT y = p_NT q /\ p_only_flux y = false).
        { destruct Hy as [-> | [-> | ->]]; (split; [|auto]); [destruct SM|destruct SM'|]; constructor; congruence. }
        destruct Sy as (Sy & Ty & Oy). intros x o W S E Em T Ox Vx M _ D [(_ & H)|(N & H)]; rewrite (sm_streams x q S), M, E in H.
        + apply (squeezed_ext _ _ _ _ H). intros idx _. cbv zeta. rewrite (added_unit x o S E Em). reflexivity.
        + assert (Z : p_I0 x = 0).
          { apply (off_dark y x); auto; [|congruence|congruence]. destruct S, Sy. constructor; congruence. }
          apply (squeezed_ext _ _ _ _ H). intros idx _. cbv zeta. rewrite Z. ring.
      - exists (fun _ _ _ => 0). intros x o W S E Em T Ox Vx M Hx D [(N & H)|(N & H)]; [exfalso; eauto|]. rewrite (sm_streams x q S), M, E in H.
        apply (squeezed_ext _ _ _ _ H). intros idx _. cbv zeta. ring. }
    destruct HK as (k & HK).
    assert (SQ : same_medium q q) by (constructor; reflexivity).
    pose proof (HK p out U1 SM P1 Em1 T1 O1 V1 M1 ltac:(auto) A SA) as KA.
    pose proof (HK p' out' U2 SM' P2 Em2 T2 O2 V2 M2 ltac:(auto) B SB) as KB.
    pose proof (HK q out'' U3 SQ eq_refl eq_refl eq_refl O3 V3 eq_refl ltac:(auto) C SC) as KC.
    refine (squeezed_comb _ _ _ _ _ _ _ _ _ KA KB KC _). intros idx Hi. apply inb_3 in Hi as (i & j & h & -> & Hi & Hj & Hh). cbn [nth]. cbv zeta.
    rewrite (su_I0 _ _ _ _ _ _ _ _ _ _ _ SU).
    rewrite (rsum_ext _ _ (fun m => a * (U1 m i (nth j tau 0) * cos (INR m * (p_phi0 q - nth h phi 0))) + b * (U2 m i (nth j tau 0) * cos (INR m * (p_phi0 q - nth h phi 0))))).
    2: { intros m Hm. rewrite HU; [ring|exact Hm|exact Hi|]. apply (proj1 (proj2 HA)), nth_In. exact Hj. }
    rewrite rsum_plus, !rsum_scal. ring.
  Qed.
End Super.
