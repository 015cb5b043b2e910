(** What a successful run of the solver stages means for the field of every mode:
    differential equation, boundary conditions, continuity. *)
From Coq Require Import String Reals Lra Lia List Bool Arith ZArith.
From Coquelicot Require Import Coquelicot.
From Verif Require Import Base Tensor Spec M_LinAlg Spec_RTE Calc M_Subroutines M_GenPart M_MathscrV M_Coeffs M_Assemble
  P_GenPart P_GenPart3 P_Tensor P_MathscrV P_Coeffs P_Coeffs2 P_Coeffs3 P_Assemble.
Import ListNotations.
Local Open Scope R_scope.

Record as_good (a : as_in) : Prop := mkAG {
  g_N : (1 <= a_N a)%nat;
  g_NF : (1 <= a_NFourier a)%nat;
  g_NL : (1 <= a_NLayers a)%nat;
  g_len : length (a_tau a) = a_NLayers a;
  g_inc : forall l, (l < a_NLayers a)%nat -> lay_top a l < lay_bot a l;
  g_mu : forall i, (i < a_N a)%nat -> 0 < a_mu a i /\ a_M_inv a i = 1 / a_mu a i;
  g_multi : a_multi a = Nat.ltb 1 (a_NLayers a);
  g_st0 : a_stau0 a 0%nat = 0;
  g_stS : forall l, (l < a_NLayers a)%nat -> a_stau0 a (S l) = a_stau0 a l + a_scale a l * (lay_bot a l - lay_top a l);
  g_scale : forall l, (l < a_NLayers a)%nat -> 0 < a_scale a l
}.

(** The differential equations, whatever the integers of the platform. *)
Section Ode.
  Context {IM : IntModel}.
  Variable a : as_in.
  Hypothesis Ha : as_good a.
  Variable la : linalg.
  Hypothesis Hla : linalg_ok la.
  Variable jk : junk.
  Variable sv : solved.
  Hypothesis Hsv : solve_all a la jk = Ok sv.
  Let N := a_N a.
  Let NQ := (2 * a_N a)%nat.
  Let NL := a_NLayers a.
  Let NF := a_NFourier a.

  (** The intermediate results. *)
  Lemma solve_stage : exists o C, gen_and_part_sols (gp_of a) la (j_G jk) (j_K jk) (j_A jk) (j_X jk) (j_Gi jk) = Ok o /\
    sv_G sv = o_G o /\ sv_K sv = o_K o /\ sv_B sv = o_B o /\ sv_gmi sv = inv_mu_inv a (o_Ginv o) /\
    sv_GC sv = fun m l i j => o_G o m l i j * C m (l * NQ + j)%nat.
  Proof.
    unfold solve_all in Hsv. apply bind_Ok in Hsv as (o & Ho & H). apply bind_Ok in H as (GC & HGC & H). injection H as <-.
    unfold solve_for_coeffs in HGC. apply bind_Ok in HGC as (s & _ & HGC). injection HGC as <-.
    exists o, (ss_C s). split; [exact Ho|]. repeat (split; [reflexivity|]). reflexivity.
  Qed.

  Lemma sv_eigen m l wg' : (m < NF)%nat -> (l < NL)%nat ->
    is_cutoff (a_omega a l) (a_wLeg a l) (a_NLeg a) m wg' ->
    let A := A_spec N (a_mu a) (a_W a) (a_omega a l) wg' (a_NLeg a) m in
    (forall i j, (i < NQ)%nat -> (j < NQ)%nat -> rsum NQ (fun p => A i p * sv_G sv m l p j) = sv_G sv m l i j * sv_K sv m l j) /\
    (forall j, (j < N)%nat -> 0 < sv_K sv m l (N + j)%nat /\ sv_K sv m l j = - sv_K sv m l (N + j)%nat).
  Proof.
    intros Hm Hl Hc. destruct solve_stage as (o & C & Ho & -> & -> & _).
    exact (eigen_pairs (gp_of a) (g_mu a Ha) la Hla _ _ _ _ _ o Ho m l wg' Hm Hl Hc).
  Qed.

  (** Some coefficients after the cut-off always exist. *)
  Lemma cutoff_ex om wg NLeg m : exists wg', is_cutoff om wg NLeg m wg'.
  Proof.
    destruct (Classical_Prop.classic (negligible om wg NLeg m)) as [H|H].
    - exists (fun _ => 0). split; [reflexivity|tauto].
    - exists wg. split; [tauto|reflexivity].
  Qed.

  Lemma sv_K_sign m l j : (m < NF)%nat -> (l < NL)%nat -> (j < N)%nat ->
    0 < sv_K sv m l (N + j)%nat /\ sv_K sv m l j = - sv_K sv m l (N + j)%nat.
  Proof.
    intros Hm Hl. destruct (cutoff_ex (a_omega a l) (a_wLeg a l) (a_NLeg a) m) as (wg' & Hc).
    destruct (sv_eigen m l wg' Hm Hl Hc) as [_ H]. apply H.
  Qed.
  Lemma sv_K_ne m l k : (m < NF)%nat -> (l < NL)%nat -> (k < NQ)%nat -> sv_K sv m l k <> 0.
  Proof.
    intros Hm Hl Hk. destruct (Nat.lt_ge_cases k N).
    - destruct (sv_K_sign m l k Hm Hl H) as [A B]. lra.
    - destruct (sv_K_sign m l (k - N) Hm Hl ltac:(unfold NQ, N in *; lia)) as [A B]. replace (N + (k - N))%nat with k in A by lia. lra.
  Qed.

  Lemma nu_inv j : (j < NQ)%nat -> 1 / node N (a_mu a) j = (if Nat.ltb j N then a_M_inv a j else - a_M_inv a (j - N)%nat).
  Proof.
    intros Hj. unfold node. destruct (Nat.ltb_spec j N).
    - destruct (g_mu a Ha j H) as [_ ->]. reflexivity.
    - destruct (g_mu a Ha (j - N)%nat ltac:(unfold NQ, N in *; lia)) as [H0 ->]. field. lra.
  Qed.

  Lemma iso_ode l wg' : a_iso a = true -> (l < NL)%nat -> is_cutoff (a_omega a l) (a_wLeg a l) (a_NLeg a) 0 wg' ->
    let A := A_spec N (a_mu a) (a_W a) (a_omega a l) wg' (a_NLeg a) 0 in
    forall i x, (i < NQ)%nat ->
    is_derive (fld_iso a sv l i) x
      (rsum NQ (fun j => A i j * fld_iso a sv l j x) - rsum (a_Ns a) (fun j => a_s a l j * x ^ j) / node N (a_mu a) i).
  Proof.
    intros Hiso Hl Hc A i x Hi. destruct solve_stage as (o & C & Ho & EG & EK & _ & Egm & _).
    unfold fld_iso. fold NQ. apply (vsol_ode NQ (a_Ns a) (a_s a l) A (sv_G sv 0%nat l) (o_Ginv o l)); auto.
    - apply (sv_eigen 0 l wg'); auto. apply (g_NF a Ha).
    - intros j Hj. apply sv_K_ne; auto. apply (g_NF a Ha).
    - rewrite EG. apply (ginv_spec (gp_of a) la Hla _ _ _ _ _ o Ho l); auto. apply (g_NF a Ha).
    - intros k Hk. rewrite Egm. unfold inv_mu_inv. apply rsum_ext. intros j Hj. rewrite nu_inv by auto. reflexivity.
  Qed.

  Theorem fld_ode m l wg' : (m < NF)%nat -> (l < NL)%nat ->
    is_cutoff (a_omega a l) (a_wLeg a l) (a_NLeg a) m wg' ->
    let A := A_spec N (a_mu a) (a_W a) (a_omega a l) wg' (a_NLeg a) m in
    let nu := node N (a_mu a) in
    forall i x, (i < NQ)%nat ->
    is_derive (fld a sv m l i) x
      (rsum NQ (fun j => A i j * fld a sv m l j x)
       - (if a_beam a then X_spec (a_I0_div_4pi a) (a_omega a l) wg' (a_NLeg a) m (a_mu0 a) (nu i) / nu i * exp (- x / a_mu0 a) else 0)
       - (if (Nat.eqb m 0 && a_iso a)%bool then rsum (a_Ns a) (fun j => a_s a l j * x ^ j) / nu i else 0)).
  Proof.
    intros Hm Hl Hc A nu i x Hi.
    destruct solve_stage as (o & C & Ho & EG & EK & EB & _ & EGC).
    pose proof (sv_eigen m l wg' Hm Hl Hc) as [HA _]. fold A in HA.
    (* homogeneous part *)
    assert (D1 : is_derive (fun x => rsum NQ (fun k => sv_GC sv m l i k * exp (sv_K sv m l k * (x - ref_top a l k)))) x
              (rsum NQ (fun j => A i j * rsum NQ (fun k => sv_GC sv m l j k * exp (sv_K sv m l k * (x - ref_top a l k)))))).
    { apply (der_eq _ _ (rsum NQ (fun k => sv_GC sv m l i k * (sv_K sv m l k * exp (sv_K sv m l k * (x - ref_top a l k)))))).
      - rewrite (rsum_ext NQ (fun j => A i j * _) (fun j => rsum NQ (fun k => A i j * (sv_GC sv m l j k * exp (sv_K sv m l k * (x - ref_top a l k))))))
          by (intros; symmetry; apply rsum_scal).
        rewrite rsum_swap. apply rsum_ext. intros k Hk.
        rewrite (rsum_ext NQ _ (fun j => A i j * sv_G sv m l j k * (C m (l * NQ + k)%nat * exp (sv_K sv m l k * (x - ref_top a l k))))).
        2:{ intros j Hj. rewrite EGC, EG. ring. }
        rewrite rsum_scal_r, HA by auto. rewrite EGC, EG. ring.
      - apply (der_sum NQ (fun k y => sv_GC sv m l i k * exp (sv_K sv m l k * (y - ref_top a l k)))). intros k Hk.
        apply der_scal. apply (der_exp (fun y => sv_K sv m l k * (y - ref_top a l k))).
        apply (der_eq _ _ (sv_K sv m l k * (1 - 0))); [ring|]. apply der_scal. apply der_minus; [apply der_id|apply der_const]. }
    (* beam part *)
    assert (D2 : is_derive (fun x => if a_beam a then sv_B sv m l i * exp (- x / a_mu0 a) else 0) x
              (rsum NQ (fun j => A i j * (if a_beam a then sv_B sv m l j * exp (- x / a_mu0 a) else 0))
               - (if a_beam a then X_spec (a_I0_div_4pi a) (a_omega a l) wg' (a_NLeg a) m (a_mu0 a) (nu i) / nu i * exp (- x / a_mu0 a) else 0))).
    { destruct (a_beam a) eqn:Eb.
      - destruct (beam_particular (gp_of a) (g_mu a Ha) la Hla _ _ _ _ _ o Ho m l wg' Eb Hm Hl Hc) as [HB _].
        specialize (HB i Hi).
        change (rsum NQ (fun j => (A i j + delta i j / a_mu0 a) * o_B o m l j)
                = X_spec (a_I0_div_4pi a) (a_omega a l) wg' (a_NLeg a) m (a_mu0 a) (nu i) / nu i) in HB.
        apply (der_eq _ _ (sv_B sv m l i * (- 1 / a_mu0 a * exp (- x / a_mu0 a)))).
        + rewrite <- HB.
          rewrite (rsum_ext NQ (fun j => A i j * _) (fun j => (A i j * sv_B sv m l j) * exp (- x / a_mu0 a))) by (intros; ring).
          rewrite rsum_scal_r.
          rewrite (rsum_ext NQ (fun j => (A i j + delta i j / a_mu0 a) * o_B o m l j) (fun j => A i j * sv_B sv m l j + delta i j * (sv_B sv m l j / a_mu0 a))).
          2:{ intros j Hj. rewrite EB. unfold Rdiv. ring. }
          rewrite rsum_plus, (rsum_single NQ i (fun j => delta i j * _)); auto.
          * rewrite delta_eq. unfold Rdiv. ring.
          * intros j Hj Hne. rewrite delta_ne by auto. ring.
        + apply der_scal. apply (der_exp (fun y => - y / a_mu0 a)). apply der_div. apply (der_opp (fun y => y)), der_id.
      - apply (der_eq _ _ 0); [|apply der_const]. rewrite rsum_0; [ring|]. intros. ring. }
    (* isotropic source *)
    assert (D3 : is_derive (fun x => if (Nat.eqb m 0 && a_iso a)%bool then fld_iso a sv l i x else 0) x
              (rsum NQ (fun j => A i j * (if (Nat.eqb m 0 && a_iso a)%bool then fld_iso a sv l j x else 0))
               - (if (Nat.eqb m 0 && a_iso a)%bool then rsum (a_Ns a) (fun j => a_s a l j * x ^ j) / nu i else 0))).
    { destruct (Nat.eqb m 0 && a_iso a)%bool eqn:Ei.
      - apply andb_prop in Ei as [E0 Ei]. apply Nat.eqb_eq in E0. subst m. apply (iso_ode l wg' Ei Hl Hc i x Hi).
      - apply (der_eq _ _ 0); [|apply der_const]. rewrite rsum_0; [ring|]. intros. ring. }
    refine (der_eq _ _ _ _ _ (der_plus _ _ _ _ _ (der_plus _ _ _ _ _ D1 D2) D3)).
    rewrite (rsum_ext NQ (fun j => A i j * fld a sv m l j x) (fun j =>
        A i j * rsum NQ (fun k => sv_GC sv m l j k * exp (sv_K sv m l k * (x - ref_top a l k)))
        + A i j * (if a_beam a then sv_B sv m l j * exp (- x / a_mu0 a) else 0)
        + A i j * (if (Nat.eqb m 0 && a_iso a)%bool then fld_iso a sv l j x else 0))).
    2:{ intros j Hj. unfold fld, fld_hb. fold NQ. ring. }
    rewrite !rsum_plus. ring.
  Qed.

End Ode.

Section Solve.
  Variable a : as_in.
  Hypothesis Ha : as_good a.
  Variable la : linalg.
  Hypothesis Hla : linalg_ok la.
  Variable jk : junk.
  Variable sv : solved.
  Hypothesis Hsv : solve_all a la jk = Ok sv.
  Let N := a_N a.
  Let NQ := (2 * a_N a)%nat.
  Let NL := a_NLayers a.
  Let NF := a_NFourier a.

  (** The intermediate results. *)
  Lemma solve_parts : exists o, gen_and_part_sols (gp_of a) la (j_G jk) (j_K jk) (j_A jk) (j_X jk) (j_Gi jk) = Ok o /\
    sv_G sv = o_G o /\ sv_K sv = o_K o /\ sv_B sv = o_B o /\ sv_gmi sv = inv_mu_inv a (o_Ginv o) /\
    forall m, (m < NF)%nat -> exists C, mode_coeffs (sc_of a o) la m = Ok C /\
      sv_GC sv m = fun l i j => o_G o m l i j * of_list C (l * NQ + j)%nat.
  Proof.
    unfold solve_all in Hsv. apply bind_Ok in Hsv as (o & Ho & H). apply bind_Ok in H as (GC & HGC & H). injection H as <-.
    exists o. split; [exact Ho|]. repeat (split; [reflexivity|]). intros m Hm.
    pose proof (coeffs_char (sc_of a o) (g_N a Ha) (g_NL a Ha) la (j_clob jk) (j_C jk) (j_R jk)) as HC. rewrite HGC in HC.
    destruct (HC m Hm) as (C & E1 & E2). exists C. split; [exact E1|]. exact E2.
  Qed.

  (** Boundary conditions. *)
  Theorem fld_bc m : (m < NF)%nat ->
    exists bd bneg bpos o, bd_terms (sc_of a o) m = Ok bd /\
      b_mode (sc_of a o) (a_bneg_scalar a) (a_bneg_vector a) (a_bneg a) m = Ok bneg /\
      b_mode (sc_of a o) (a_bpos_scalar a) (a_bpos_vector a) (a_bpos a) m = Ok bpos /\
      (forall i, (i < N)%nat -> fld a sv m 0 (N + i) 0 = bneg i) /\
      (forall l i, (S l < NL)%nat -> (i < NQ)%nat -> fld a sv m l i (a_stau0 a (S l)) = fld a sv m (S l) i (a_stau0 a (S l))) /\
      (forall i, (i < N)%nat -> fld a sv m (NL - 1) i (a_stau0 a NL) = bpos i
         + rsum N (fun p => bdR bd i p * fld a sv m (NL - 1) (N + p) (a_stau0 a NL))
         + (if a_beam a then bdX bd i else 0) * exp (- a_stau0 a NL / a_mu0 a)).
  Proof.
    intros Hm. destruct solve_parts as (o & Ho & EG & EK & EB & Egm & HGC). destruct (HGC m Hm) as (C & HC & EGC).
    destruct (mode_system (sc_of a o) (g_N a Ha) (g_NL a Ha) la Hla m C HC) as (bd & r0 & r1 & Hbd & H0 & H1 & Hsys).
    assert (HK' : sc_iso (sc_of a o) = true -> forall l k, (l < sc_NLayers (sc_of a o))%nat -> (k < 2 * sc_N (sc_of a o))%nat -> sc_K (sc_of a o) 0%nat l k <> 0).
    { intros _ l k Hl Hk. cbn. rewrite <- EK. apply (sv_K_ne a Ha la Hla jk sv Hsv); auto. apply (g_NF a Ha). }
    assert (Hanti : forall l j, (l < sc_NLayers (sc_of a o))%nat -> (j < sc_N (sc_of a o))%nat -> sc_K (sc_of a o) m l j = - sc_K (sc_of a o) m l (sc_N (sc_of a o) + j)%nat).
    { intros l j Hl Hj. cbn. rewrite <- EK. apply (sv_K_sign a Ha la Hla jk sv Hsv); auto. }
    assert (Hf : forall l q x, field (sc_of a o) m (fun l i j => sc_G (sc_of a o) m l i j * of_list C (l * (2 * sc_N (sc_of a o)) + j)%nat) l q x = fld a sv m l q x).
    { intros l q x. unfold field, fld, fld_hb, part_beam, part_iso, ref_depth, fld_iso, ref_top. cbn [sc_of sc_N sc_G sc_K sc_beam sc_B sc_mu0 sc_iso sc_Ns sc_s sc_gmi sc_tau0].
      fold N NQ. rewrite EGC, EG, EK, EB, Egm. f_equal. f_equal.
      - apply rsum_ext. intros k Hk. rewrite Nat.add_1_r. reflexivity.
      - destruct (a_beam a); [reflexivity|ring]. }
    destruct (system_bc (sc_of a o) (g_N a Ha) (g_NL a Ha) (g_multi a Ha) m HK' bd Hanti (g_st0 a Ha) (of_list C)
                (fun _ _ => 0) (fun _ => 0) r0 r1 (zero_out_0 _) H0 H1 Hsys) as (bneg & bpos & E1 & E2 & B1 & B2 & B3).
    exists bd, bneg, bpos, o. split; [exact Hbd|]. split; [exact E1|]. split; [exact E2|]. split; [|split].
    - intros i Hi. rewrite <- Hf. apply B1; auto.
    - intros l i Hl Hi. rewrite <- !Hf. specialize (B2 l i). rewrite Nat.add_1_r in B2. apply B2; auto. cbn. fold NL. lia.
    - intros i Hi. rewrite <- Hf. etransitivity; [exact (B3 i Hi)|]. f_equal. f_equal. apply rsum_ext. intros p Hp. rewrite <- Hf. reflexivity.
  Qed.
End Solve.
