(** Every physical atmosphere without resonance is solved. *)
From Coq Require Import Classical String Reals Lra Lia List Bool Arith ZArith.
From Coquelicot Require Import Coquelicot.
From Verif Require Import Base Tensor Spec M_LinAlg Spec_RTE Calc M_Subroutines M_GenPart M_MathscrV M_Coeffs M_Assemble M_Pydisort
  P_Sub P_Special P_GenPart P_GenPart2 P_GenPart3 P_GenPart4 P_Tensor P_MathscrV P_Coeffs P_Coeffs2 P_Coeffs3 P_Assemble P_Solve P_LinA
  Spec_Sol Spec_Valid Spec_Calls Spec_Unique Spec_Phys Spec_Solved Spec_Rates P_Valid P_Pydisort P_Pydisort2 P_Pydisort3 P_Pydisort4 P_Pydisort5 P_NT3 P_Absorb P_Unique
  P_Max P_Max2 P_Spec1 P_Spec2 P_Spec3 P_Spec4.
Import ListNotations.
Local Open Scope R_scope.

(** The boundary system of a mode is solved if it has no free solution. *)
Section Mode.
  Variable g : sc_in.
  Hypothesis HN : (1 <= sc_N g)%nat.
  Hypothesis HNL : (1 <= sc_NLayers g)%nat.
  Hypothesis Hmulti : sc_multi g = Nat.ltb 1 (sc_NLayers g).
  Variable m : nat.
  Hypothesis HK : sc_iso g = true -> forall l k, (l < sc_NLayers g)%nat -> (k < 2 * sc_N g)%nat -> sc_K g 0%nat l k <> 0.
  Hypothesis Hanti : forall l j, (l < sc_NLayers g)%nat -> (j < sc_N g)%nat -> sc_K g m l j = - sc_K g m l (sc_N g + j)%nat.
  Hypothesis Ht0 : sc_tau0 g 0%nat = 0.
  Local Notation N := (sc_N g).
  Local Notation NL := (sc_NLayers g).
  Local Notation NQ := (2 * sc_N g)%nat.
  Local Notation t := (sc_tau0 g).

  Definition quiet_sc : sc_in :=
    mkSC (sc_NFourier g) (sc_G g) (sc_K g) (sc_B g) (sc_gmi g) (sc_tau0 g) (sc_mu g) (sc_muW g) (sc_N g) (sc_NLayers g)
      (sc_multi g) (sc_BDRF g) (sc_mu0 g) (sc_I0_div_4pi g) false (t0 0) (t0 0) true true false false (sc_Ns g) (sc_s g) false (sc_banded g).
  Definition hf (C : vec) (l q : nat) (x : R) : R :=
    rsum NQ (fun k => sc_G g m l q k * C (l * NQ + k)%nat * exp (sc_K g m l k * (x - ref_depth g l k))).
  Lemma field_hf C l q x : field quiet_sc m (fun l i j => sc_G g m l i j * C (l * NQ + j)%nat) l q x = hf C l q x.
  Proof. unfold field, part_beam, part_iso. cbn [quiet_sc sc_beam sc_iso]. rewrite andb_false_r. change (sc_N quiet_sc) with N. rewrite Rmult_0_l, !Rplus_0_r. reflexivity. Qed.
  Lemma zero_rhs : exists r, rhs_bc quiet_sc m (fun _ => 0) = Ok r /\ rhs_iso quiet_sc m None r = Ok r /\ forall i, r i = 0.
  Proof.
    assert (E : b_mode quiet_sc true false (t0 0) m = Ok (fun _ => 0)) by (unfold b_mode, as_vec; cbn; destruct (Nat.eqb m 0); reflexivity).
    unfold rhs_bc. cbn [quiet_sc sc_bneg_scalar sc_bneg_vector sc_bneg sc_bpos_scalar sc_bpos_vector sc_bpos]. fold quiet_sc. rewrite E. cbn [bind].
    eexists. split; [reflexivity|]. split; [unfold rhs_iso; cbn [quiet_sc sc_iso]; rewrite andb_false_r; reflexivity|].
    intros i. unfold setseg. repeat match goal with |- context [if ?b then _ else _] => destruct b end; reflexivity.
  Qed.
  Lemma kernel_bc bd C : (forall i, (i < NL * NQ)%nat -> rsum (NL * NQ) (fun j => dense_lhs g m bd (fun _ _ => 0) i j * C j) = 0) ->
    (forall i, (i < N)%nat -> hf C 0 (N + i) 0 = 0) /\
    (forall l a, (l < NL - 1)%nat -> (a < NQ)%nat -> hf C l a (t (l + 1)%nat) = hf C (l + 1) a (t (l + 1)%nat)) /\
    (forall a, (a < N)%nat -> hf C (NL - 1) a (t NL) = rsum N (fun p => bdR bd a p * hf C (NL - 1) (N + p) (t NL))).
  Proof.
    intros H. destruct zero_rhs as (r & Er & Ei & Er0).
    assert (Ei' : rhs_iso quiet_sc m bd r = Ok r) by (unfold rhs_iso; cbn [quiet_sc sc_iso]; rewrite andb_false_r; reflexivity).
    destruct (system_bc quiet_sc HN HNL Hmulti m ltac:(discriminate) bd Hanti Ht0 C (fun _ _ => 0) (fun _ => 0) r r (zero_out_0 _) Er Ei') as (bn & bp & En & Ep & B1 & B2 & B3).
    - intros i Hi. unfold rhs_beam. cbn [quiet_sc sc_beam]. rewrite Er0. exact (H i Hi).
    - assert (Z : bn = (fun _ => 0) /\ bp = (fun _ => 0)).
      { assert (E : b_mode quiet_sc true false (t0 0) m = Ok (fun _ => 0)) by (unfold b_mode, as_vec; cbn; destruct (Nat.eqb m 0); reflexivity).
        cbn [quiet_sc sc_bneg_scalar sc_bneg_vector sc_bneg sc_bpos_scalar sc_bpos_vector sc_bpos] in En, Ep. fold quiet_sc in En, Ep. rewrite E in En, Ep. split; congruence. }
      destruct Z as [-> ->]. cbn [quiet_sc sc_N sc_NLayers sc_tau0 sc_beam sc_mu0 sc_G] in B1, B2, B3. fold quiet_sc in B1, B2, B3. split; [|split].
      + intros i Hi. rewrite <- field_hf. exact (B1 i Hi).
      + intros l a Hl Ha. rewrite <- !field_hf. exact (B2 l a Hl Ha).
      + intros a Ha'. rewrite <- field_hf. etransitivity; [exact (B3 a Ha')|]. rewrite Rmult_0_l, Rplus_0_r, Rplus_0_l.
        apply rsum_ext. intros q Hq. rewrite <- field_hf. reflexivity.
  Qed.

  Theorem injective_mode la bd : linalg_complete la -> bd_terms g m = Ok bd ->
    (exists bneg, b_mode g (sc_bneg_scalar g) (sc_bneg_vector g) (sc_bneg g) m = Ok bneg) ->
    (exists bpos, b_mode g (sc_bpos_scalar g) (sc_bpos_vector g) (sc_bpos g) m = Ok bpos) ->
    (forall C, (forall i, (i < N)%nat -> hf C 0 (N + i) 0 = 0) ->
      (forall l a, (l < NL - 1)%nat -> (a < NQ)%nat -> hf C l a (t (l + 1)%nat) = hf C (l + 1) a (t (l + 1)%nat)) ->
      (forall a, (a < N)%nat -> hf C (NL - 1) a (t NL) = rsum N (fun p => bdR bd a p * hf C (NL - 1) (N + p) (t NL))) ->
      forall l k, (l < NL)%nat -> (k < NQ)%nat -> C (l * NQ + k)%nat = 0) ->
    exists C, mode_coeffs g la m = Ok C.
  Proof.
    intros Hc Ebd (bneg & En) (bpos & Ep) Hz.
    assert (exists r0, rhs_bc g m (fun _ => 0) = Ok r0) as (r0 & E0) by (unfold rhs_bc; rewrite En, Ep; cbn [bind]; eauto).
    destruct (rhs_iso_val g HN HNL Hmulti m HK bd r0) as (r1 & E1 & _).
    assert (HI : inj (NL * NQ) (dense_lhs g m bd (fun _ _ => 0))).
    { intros v Hv j Hj. destruct (kernel_bc bd v Hv) as (B1 & B2 & B3).
      assert (Eq : j = (j / NQ * NQ + j mod NQ)%nat) by (pose proof (Nat.div_mod j NQ ltac:(lia)); lia).
      rewrite Eq. apply (Hz v B1 B2 B3).
      - apply Nat.div_lt_upper_bound; lia.
      - apply Nat.mod_upper_bound. lia. }
    destruct (inj_surj _ _ HI (rhs_beam g m bd r1)) as (y & Hy).
    apply (mode_unique_ok la g m y bd r0 r1 Hc HN HNL Ebd E0 E1 Hy).
    intros z Hz' i Hi. apply Rminus_diag_uniq. apply (HI (fun i => z i - y i)); auto. intros q Hq.
    rewrite (rsum_ext _ _ (fun j => dense_lhs g m bd (fun _ _ => 0) q j * z j - dense_lhs g m bd (fun _ _ => 0) q j * y j)) by (intros; ring).
    rewrite rsum_minus, Hz', Hy by auto. ring.
  Qed.
End Mode.

Section Call.
  Variable p : py_in.
  Hypothesis V : valid p.
  Variable lg : leggauss_t.
  Hypothesis Hlg : leggauss_ok (half p) (lg (half p)).
  Variables (ss : nat -> vec) (r : R).
  Let a := assemble_args p lg r ss.
  Let N := half p.
  Let NL := nlayers p.
  Let mu := mu_arr p lg.
  Let w := quad_W p lg.
  Variable la : linalg.
  Hypothesis Hla : linalg_ok la.
  Hypothesis Hlc : linalg_complete la.
  Hypothesis Hlt : linalg_total la.
  Let Ha : as_good a := a_good p V lg Hlg ss r.
  Variable rho : nat -> R -> R -> R.
  (** Radiation of either symmetry loses in every layer and mode that scatter, and there is none
      without sources. *)
  Hypothesis Hloss : forall m l s, (m < nmodes p)%nat -> (l < nlayers p)%nat -> ~ negligible (albedo_s p l) (wphase_s p l) (ncoeffs p) m -> s = 1 \/ s = -1 -> loses p mu w m l s.
  Hypothesis Hzero : forall m F, (m < nmodes p)%nat -> free p mu w m (Rmat p mu w rho m) F -> forall i t, (i < 2 * half p)%nat -> 0 <= t <= bottom p -> F i t = 0.
  Let Hdg : double_gauss (half p) mu w := mu_arr_gauss p lg Hlg.

  Lemma nu_node k : (k < 2 * N)%nat -> node N (quad_mu p lg) k = nth k mu 0.
  Proof. intros Hk. symmetry. apply mu_arr_node; auto. Qed.
  Lemma W_pos i : (i < N)%nat -> 0 < a_W a i.
  Proof. intros Hi. destruct Hdg as (_ & H & _). apply (H i Hi). Qed.
  Lemma w_cut m l : (l < NL)%nat -> exists wg, is_cutoff (albedo_s p l) (wphase_s p l) (ncoeffs p) m wg /\
    (scatters (gp_of a) m l = true -> forall x y, D_spec (a_omega a l) (a_wLeg a l) (a_NLeg a) m x y = D_spec (albedo_s p l) wg (ncoeffs p) m x y).
  Proof.
    intros Hl. assert (Hom : a_omega a l = albedo_s p l) by (apply scaled_omega_eq; auto).
    destruct (cutoff_ex (a_omega a l) (a_wLeg a l) (a_NLeg a) m) as (wg' & Hc').
    rewrite Hom in Hc' |- *.
    destruct (cutoff_transfer (albedo_s p l) (wphase_s p l) (weighted_scaled_Leg p l) (ncoeffs p) m wg') as (wg & Hc & Hw); auto.
    { intros k. symmetry. apply wleg_eq; auto. }
    exists wg. split; [exact Hc|]. intros Hs x y. apply scatters_iff in Hs. cbn [gp_of gp_omega gp_wLeg gp_NLeg] in Hs. rewrite Hom in Hs.
    apply D_spec_om. intros k. rewrite Hw. destruct Hc' as [_ H2]. rewrite (H2 Hs k). reflexivity.
  Qed.
  Lemma scat_neg m l : (l < NL)%nat -> scatters (gp_of a) m l = true <-> ~ negligible (albedo_s p l) (wphase_s p l) (ncoeffs p) m.
  Proof.
    intros Hl. rewrite (scatters_iff (gp_of a) m l). cbn [gp_of gp_omega gp_wLeg gp_NLeg]. change (a_NLeg a) with (ncoeffs p).
    assert (Hom : a_omega a l = albedo_s p l) by (apply scaled_omega_eq; auto). rewrite Hom.
    assert (E : forall k, albedo_s p l * a_wLeg a l k = albedo_s p l * wphase_s p l k) by (intros k; apply wleg_eq; auto).
    assert (E2 : forall k, albedo_s p l / 2 * a_wLeg a l k = albedo_s p l / 2 * wphase_s p l k).
    { intros k. replace (albedo_s p l / 2 * a_wLeg a l k) with (albedo_s p l * a_wLeg a l k / 2) by field. rewrite E. field. }
    unfold negligible. split; intros H G; apply H; intros k Hk; [rewrite E2|rewrite <- E2]; auto.
  Qed.
  (** The two ways to write the eigenvalue equation of the beam. *)
  Lemma res_eq m l (v : vec) i : (l < NL)%nat -> (i < 2 * N)%nat -> 0 < p_mu0 p ->
    rsum (2 * N) (fun j => Af (gp_of a) m l (gp_wLeg (gp_of a) l) i j * v j) + v i * (1 / gp_mu0 (gp_of a)) = 0 <->
    nth i mu 0 * (- / p_mu0 p * v i) = v i - rsum (2 * N) (fun j => wnode N w j * D_spec (albedo_s p l) (wphase_s p l) (ncoeffs p) m (nth i mu 0) (nth j mu 0) * v j).
  Proof.
    intros Hl Hi Hmu0. pose proof (nu_ne p mu w Hdg i Hi) as Hnu.
    assert (Hom : a_omega a l = albedo_s p l) by (apply scaled_omega_eq; auto).
    assert (E : rsum (2 * N) (fun j => Af (gp_of a) m l (gp_wLeg (gp_of a) l) i j * v j) =
       (v i - rsum (2 * N) (fun j => wnode N w j * D_spec (albedo_s p l) (wphase_s p l) (ncoeffs p) m (nth i mu 0) (nth j mu 0) * v j)) / nth i mu 0).
    { rewrite (rsum_ext (2 * N) _ (fun j => (delta i j * v j - wnode N w j * D_spec (albedo_s p l) (wphase_s p l) (ncoeffs p) m (nth i mu 0) (nth j mu 0) * v j) / nth i mu 0)).
      - rewrite rsum_div, rsum_minus, rsum_delta_l by auto. reflexivity.
      - intros j Hj. unfold Af, A_spec. change (gp_N (gp_of a)) with N. change (gp_mu (gp_of a)) with (quad_mu p lg). change (gp_W (gp_of a)) with w. rewrite !nu_node by auto.
        cbn [gp_of gp_omega gp_wLeg gp_NLeg]. rewrite Hom. change (a_NLeg a) with (ncoeffs p).
        rewrite (D_spec_om (albedo_s p l) (a_wLeg a l) (wphase_s p l)) by (intros k; apply wleg_eq; auto). unfold Rdiv. ring. }
    rewrite E. change (gp_mu0 (gp_of a)) with (p_mu0 p).
    set (S := v i - rsum (2 * N) (fun j => wnode N w j * D_spec (albedo_s p l) (wphase_s p l) (ncoeffs p) m (nth i mu 0) (nth j mu 0) * v j)) in *.
    split; intros H.
    - replace S with (S / nth i mu 0 * nth i mu 0) by (field; exact Hnu). replace (S / nth i mu 0) with (- (v i * (1 / p_mu0 p))) by lra. field. lra.
    - rewrite <- H. field. split; lra.
  Qed.
  (** In every layer and mode absorption dominates. *)
  Lemma form_loss m l s y : (l < NL)%nat -> dot N y (mv N (S_form (gp_of a) m l s) y) = net_loss p mu w m l s y.
  Proof.
    intros Hl. assert (Hom : a_omega a l = albedo_s p l) by (apply scaled_omega_eq; auto).
    assert (Ew : forall u v, D_spec (a_omega a l) (a_wLeg a l) (a_NLeg a) m u v = D_spec (albedo_s p l) (wphase_s p l) (ncoeffs p) m u v).
    { intros u v. rewrite Hom. apply D_spec_om. intros k. apply wleg_eq; auto. }
    assert (En : forall i, (i < N)%nat -> nth i mu 0 = a_mu a i).
    { intros i Hi. rewrite <- nu_node by lia. unfold node. rewrite (proj2 (Nat.ltb_lt i N)) by auto. reflexivity. }
    unfold dot, net_loss. cbv zeta. apply rsum_ext. intros i Hi. fold N. rewrite (En i) by auto. unfold mv, S_form. cbn [gp_of gp_W gp_omega gp_wLeg gp_NLeg gp_mu].
    rewrite (rsum_ext N _ (fun j => delta i j * (a_W a i * y j) - a_W a i * (w j * ((D_spec (albedo_s p l) (wphase_s p l) (ncoeffs p) m (a_mu a i) (nth j mu 0)
      + s * D_spec (albedo_s p l) (wphase_s p l) (ncoeffs p) m (a_mu a i) (- nth j mu 0)) * y j)))).
    - rewrite rsum_minus, rsum_delta_l, rsum_scal by auto. cbn [a assemble_args a_W]. fold w. ring.
    - intros j Hj. rewrite !Ew, !En by auto. cbn [a assemble_args a_W]. fold w. ring.
  Qed.
  Lemma form_pd m l s : (m < gp_NFourier (gp_of a))%nat -> (l < gp_NLayers (gp_of a))%nat -> scatters (gp_of a) m l = true -> s = 1 \/ s = -1 -> pd (gp_N (gp_of a)) (S_form (gp_of a) m l s).
  Proof.
    intros Hm Hl Hs Es. change (gp_NLayers (gp_of a)) with NL in Hl. change (gp_NFourier (gp_of a)) with (pNF p) in Hm. rewrite <- nmodes_eq in Hm. split; [apply S_form_sym|].
    intros y Hy. pose proof (form_loss m l s y Hl) as E. change (gp_N (gp_of a)) with N in *. rewrite E. apply (Hloss m l s Hm Hl); auto. apply (scat_neg m l Hl). exact Hs.
  Qed.

  Section Out.
    Variable jk : junk.
    Variable o : gp_out.
    Hypothesis Ho : gen_and_part_sols (gp_of a) la (j_G jk) (j_K jk) (j_A jk) (j_X jk) (j_Gi jk) = Ok o.
    Variable m : nat.
    Hypothesis Hm : (m < nmodes p)%nat.
    Let HmF : (m < a_NFourier a)%nat. Proof. cbn. rewrite <- nmodes_eq. exact Hm. Qed.

    Lemma o_inj l : (l < NL)%nat -> inj (2 * N) (o_G o m l).
    Proof.
      intros Hl. exact (out_inj (gp_of a) (g_mu a Ha) W_pos la Hla Hlt form_pd _ _ _ _ _ o Ho m l HmF Hl).
    Qed.
    Lemma o_eigen l wg : (l < NL)%nat -> is_cutoff (a_omega a l) (a_wLeg a l) (a_NLeg a) m wg ->
      (forall i j, (i < 2 * N)%nat -> (j < 2 * N)%nat -> rsum (2 * N) (fun q => A_spec N (a_mu a) (a_W a) (a_omega a l) wg (a_NLeg a) m i q * o_G o m l q j) = o_G o m l i j * o_K o m l j) /\
      (forall j, (j < N)%nat -> 0 < o_K o m l (N + j)%nat /\ o_K o m l j = - o_K o m l (N + j)%nat).
    Proof. intros Hl Hc. exact (eigen_pairs (gp_of a) (g_mu a Ha) la Hla _ _ _ _ _ o Ho m l wg HmF Hl Hc). Qed.

    (** A free combination of the exponential solutions vanishes. *)
    Variable C : vec.
    Let h l q x := hf (sc_of a o) m C l q x.
    Variable bd : option (mat * vec).
    Hypothesis Hbd : bd_terms (sc_of a o) m = Ok bd.
    Hypothesis Hrho : (m < length (p_BDRF p))%nat -> mode_is (nth m (p_BDRF p) (MScal 0)) (rho m).
    Hypothesis B1 : forall i, (i < N)%nat -> h 0 (N + i) 0 = 0.
    Hypothesis B2 : forall l i, (l < NL - 1)%nat -> (i < 2 * N)%nat -> h l i (a_stau0 a (l + 1)%nat) = h (l + 1) i (a_stau0 a (l + 1)%nat).
    Hypothesis B3 : forall i, (i < N)%nat -> h (NL - 1) i (a_stau0 a NL) = rsum N (fun q => bdR bd i q * h (NL - 1) (N + q) (a_stau0 a NL)).
    Let Z (i : nat) (x : R) : R := h (lay p x) i (sdepth p x).

    Lemma Z_layer l i x : (l < NL)%nat -> (i < 2 * N)%nat -> top_of p l <= x <= bot_of p l -> Z i x = h l i (depth_s p l x).
    Proof.
      intros Hl Hi Hx. assert (Hr : 0 <= x <= bottom p) by (apply (layer_range p V l); auto).
      unfold Z. rewrite (sdepth_closed p V l x Hl Hx).
      destruct (Rle_lt_or_eq_dec _ _ (proj1 Hx)) as [Hlt'|E].
      - rewrite (lay_of_at p V x l); [reflexivity|]. split; [exact Hl|]. left. lra.
      - subst x. destruct l as [|l].
        + rewrite (lay_of_at p V _ 0%nat); [reflexivity|]. split; [exact Hl|]. right. auto.
        + change (top_of p (S l)) with (bot_of p l) in *. pose proof (v_inc p V l ltac:(unfold NL, nlayers in *; lia)) as Hinc. change (top_of p l < bot_of p l) in Hinc.
          rewrite (lay_of_at p V (bot_of p l) l); [|split; [lia|left; lra]].
          assert (Ed : depth_s p (S l) (bot_of p l) = a_stau0 a (l + 1)%nat).
          { rewrite depth_s_join by auto. rewrite Nat.add_1_r. symmetry. apply (depth_s_bot p V l). unfold NL in *. lia. }
          rewrite Ed. rewrite (B2 l i) by (auto; lia). rewrite Nat.add_1_r. reflexivity.
    Qed.
    Lemma h_der l i x wg : (l < NL)%nat -> (i < 2 * N)%nat -> is_cutoff (a_omega a l) (a_wLeg a l) (a_NLeg a) m wg ->
      is_derive (h l i) x (rsum (2 * N) (fun q => A_spec N (a_mu a) (a_W a) (a_omega a l) wg (a_NLeg a) m i q * h l q x)).
    Proof.
      intros Hl Hi Hc. destruct (o_eigen l wg Hl Hc) as [HA _]. unfold h, hf. change (sc_N (sc_of a o)) with N.
      apply (der_eq _ _ (rsum (2 * N) (fun k => sc_G (sc_of a o) m l i k * C (l * (2 * N) + k)%nat * (sc_K (sc_of a o) m l k * exp (sc_K (sc_of a o) m l k * (x - ref_depth (sc_of a o) l k)))))).
      - rewrite (rsum_ext (2 * N) (fun q => A_spec N (a_mu a) (a_W a) (a_omega a l) wg (a_NLeg a) m i q * _)
          (fun q => rsum (2 * N) (fun k => A_spec N (a_mu a) (a_W a) (a_omega a l) wg (a_NLeg a) m i q * (sc_G (sc_of a o) m l q k * C (l * (2 * N) + k)%nat * exp (sc_K (sc_of a o) m l k * (x - ref_depth (sc_of a o) l k)))))) by (intros; symmetry; apply rsum_scal).
        rewrite rsum_swap. apply rsum_ext. intros k Hk.
        rewrite (rsum_ext (2 * N) _ (fun q => A_spec N (a_mu a) (a_W a) (a_omega a l) wg (a_NLeg a) m i q * o_G o m l q k * (C (l * (2 * N) + k)%nat * exp (sc_K (sc_of a o) m l k * (x - ref_depth (sc_of a o) l k)))))
          by (intros; cbn [sc_of sc_G]; ring).
        rewrite rsum_scal_r, HA by auto. cbn [sc_of sc_G sc_K]. ring.
      - apply (der_sum (2 * N) (fun k y => sc_G (sc_of a o) m l i k * C (l * (2 * N) + k)%nat * exp (sc_K (sc_of a o) m l k * (y - ref_depth (sc_of a o) l k)))). intros k Hk.
        apply der_scal. refine (der_eq _ _ _ _ _ (der_exp (fun y => sc_K (sc_of a o) m l k * (y - ref_depth (sc_of a o) l k)) x _ _)).
        2:{ apply der_scal. apply der_minus; [apply der_id|apply der_const]. } ring.
    Qed.
    Lemma Z_free : free p mu w m (Rmat p mu w rho m) Z.
    Proof.
      assert (HL : (1 <= NL)%nat) by exact (v_ne p V).
      assert (Hb : bottom p = bot_of p (NL - 1)) by apply bottom_eq.
      assert (Hinc : forall l, (l < NL)%nat -> top_of p l < bot_of p l) by (intros l Hl; exact (v_inc p V l Hl)).
      assert (Zb : forall i, (i < 2 * N)%nat -> Z i (bottom p) = h (NL - 1) i (a_stau0 a NL)).
      { intros i Hi. pose proof (Hinc (NL - 1)%nat ltac:(lia)) as Q. rewrite Hb, (Z_layer (NL - 1) i) by first [lia | exact Hi | lra].
        rewrite <- depth_s_bot by (auto; fold NL; lia). cbn [a assemble_args a_stau0]. f_equal. f_equal. lia. }
      split; [|split; [|split]]; fold N.
      - intros i Hi. apply (cont_layers p V). intros l Hl. apply (cont_on_ext _ _ (fun x => h l i (depth_s p l x))).
        + intros x Hx. symmetry. apply Z_layer; auto.
        + apply cont_on_derive. intros x Hx. destruct (cutoff_ex (a_omega a l) (a_wLeg a l) (a_NLeg a) m) as (wg & Hc).
          eexists. apply (der_comp (h l i) (fun t => depth_s p l t) x _ _ (depth_s_der p l x) (h_der l i _ wg Hl Hi Hc)).
      - intros l i x Hl Hi Hx.
        assert (Hom : a_omega a l = albedo_s p l) by (apply scaled_omega_eq; auto).
        destruct (cutoff_ex (a_omega a l) (a_wLeg a l) (a_NLeg a) m) as (wg' & Hc'). pose proof Hc' as Hc0. rewrite Hom in Hc'.
        destruct (cutoff_transfer (albedo_s p l) (wphase_s p l) (weighted_scaled_Leg p l) (ncoeffs p) m wg') as (wg & Hc & Hw); auto.
        { intros k. symmetry. apply wleg_eq; auto. }
        exists wg. split; [exact Hc|].
        refine (der_ext_loc _ _ x _ (top_of p l) (bot_of p l) Hx _ (der_eq _ _ _ _ _ (der_comp (h l i) (fun t => depth_s p l t) x _ _ (depth_s_der p l x) (h_der l i _ wg' Hl Hi Hc0)))).
        { intros y Hy. symmetry. apply Z_layer; auto. lra. }
        rewrite (rsum_ext (2 * N) (fun j => wnode N w j * D_spec (albedo_s p l) wg (ncoeffs p) m (nth i mu 0) (nth j mu 0) * Z j x)
          (fun j => wnode N w j * D_spec (albedo_s p l) wg (ncoeffs p) m (nth i mu 0) (nth j mu 0) * h l j (depth_s p l x))) by (intros j Hj; rewrite (Z_layer l j) by (auto; lra); reflexivity).
        rewrite (Z_layer l i) by (auto; lra).
        rewrite (rsum_ext (2 * N) (fun q => A_spec N (a_mu a) (a_W a) (a_omega a l) wg' (a_NLeg a) m i q * h l q (depth_s p l x))
           (fun j => (delta i j * h l j (depth_s p l x) - wnode N w j * D_spec (albedo_s p l) wg (ncoeffs p) m (nth i mu 0) (nth j mu 0) * h l j (depth_s p l x)) / nth i mu 0)).
        + rewrite rsum_div, rsum_minus. rewrite (rsum_single (2 * N) i (fun j => delta i j * h l j (depth_s p l x))) by (auto; intros j Hj Hne; rewrite delta_ne by auto; ring).
          rewrite delta_eq. unfold Rdiv. ring.
        + intros j Hj. unfold A_spec. change (a_mu a) with (quad_mu p lg). change (a_W a) with w. rewrite !nu_node by auto. rewrite Hom, (D_spec_om _ wg' wg) by auto. change (a_NLeg a) with (ncoeffs p). unfold Rdiv. ring.
      - intros i Hi. rewrite (Z_layer 0 (N + i)) by (try lia; cbn [top_of]; pose proof (Hinc 0%nat ltac:(lia)) as Q; cbn [top_of] in Q; lra).
        replace (depth_s p 0 0) with 0 by (unfold depth_s; cbn [top_of rsum]; ring). exact (B1 i Hi).
      - intros i Hi. rewrite Zb by lia. rewrite B3 by auto. apply rsum_ext. intros q Hq. rewrite Zb by lia. f_equal.
        destruct (bd_terms_val (sc_of a o) m (g_N a Ha) bd Hbd (rho m) Hrho i Hi) as [ER _]. rewrite ER by auto.
        cbn [sc_of sc_BDRF sc_mu sc_muW]. change (a_BDRF a) with (p_BDRF p). unfold Rmat. destruct (Nat.ltb m (length (p_BDRF p))); [|reflexivity].
        rewrite <- !nu_node by lia. unfold node. rewrite !(proj2 (Nat.ltb_lt _ N)) by auto. cbn [a assemble_args a_mu a_W]. unfold w. ring.
    Qed.
    Theorem C_zero l k : (l < NL)%nat -> (k < 2 * N)%nat -> C (l * (2 * N) + k)%nat = 0.
    Proof.
      intros Hl Hk. pose proof (v_inc p V l Hl) as Hinc. change (top_of p l < bot_of p l) in Hinc.
      set (x := depth_s p l (top_of p l)).
      assert (Hz : C (l * (2 * N) + k)%nat * exp (o_K o m l k * (x - ref_depth (sc_of a o) l k)) = 0).
      { refine (o_inj l Hl (fun k => C (l * (2 * N) + k)%nat * exp (o_K o m l k * (x - ref_depth (sc_of a o) l k))) _ k Hk). intros i Hi.
        assert (E : h l i x = 0).
        { unfold x. rewrite <- (Z_layer l i (top_of p l)) by (auto; lra).
          apply (Hzero m Z Hm Z_free i); auto. apply (layer_range p V l); auto. lra. }
        rewrite <- E. unfold h, hf. change (sc_N (sc_of a o)) with N. apply rsum_ext. intros j Hj. cbn [sc_of sc_G sc_K]. ring. }
      apply Rmult_integral in Hz as [Hz|Hz]; [exact Hz|]. pose proof (exp_pos (o_K o m l k * (x - ref_depth (sc_of a o) l k))). lra.
    Qed.
  End Out.

  Theorem phys_solve jk :
    (a_beam a = true -> forall m l, (m < nmodes p)%nat -> (l < NL)%nat -> ~ resonant p mu w m l) -> (a_beam a = true -> 0 < p_mu0 p) ->
    (forall m, (m < length (p_BDRF p))%nat -> mode_is (nth m (p_BDRF p) (MScal 0)) (rho m)) ->
    (forall o m, exists b, b_mode (sc_of a o) (a_bneg_scalar a) (a_bneg_vector a) (a_bneg a) m = Ok b) ->
    (forall o m, exists b, b_mode (sc_of a o) (a_bpos_scalar a) (a_bpos_vector a) (a_bpos a) m = Ok b) ->
    exists sv, solve_all a la jk = Ok sv.
  Proof.
    intros Hres Hmu0 Hrho Hbn Hbp. unfold solve_all.
    destruct (gp_total (gp_of a) la (j_G jk) (j_K jk) (j_A jk) (j_X jk) (j_Gi jk)) as (o & Ho).
    { apply (gp_solved (gp_of a) (g_mu a Ha) W_pos la Hla Hlt form_pd); auto.
      - intros Hb m l Hm Hl Hs v Hv. apply NNPP. intros Hne. change (gp_NFourier (gp_of a)) with (pNF p) in Hm. rewrite <- nmodes_eq in Hm.
        apply (Hres Hb m l Hm Hl). split; [apply (scat_neg m l Hl); exact Hs|]. exists v. split.
        + apply not_all_ex_not in Hne as (i & Hi). apply imply_to_and in Hi as (Hi & Hvi). exists i. split; [rewrite (streams_eq p V); exact Hi|exact Hvi].
        + intros i Hi. rewrite (streams_eq p V) in *. apply (res_eq m l v i Hl Hi (Hmu0 Hb)). exact (Hv i Hi). }
    rewrite Ho. cbn [bind].
    match goal with |- exists sv, bind ?x _ = Ok sv => assert (X : exists GC, x = Ok GC); [|destruct X as (GC & ->); cbn [bind]; eauto] end.
    pose proof (coeffs_char (sc_of a o) (g_N a Ha) (g_NL a Ha) la (j_clob jk) (j_C jk) (j_R jk)) as CC.
    destruct (solve_for_coeffs _ _ _ _ _) as [GC|e]; [eauto|]. exfalso. destruct CC as (m & Hm & E & _).
    change (sc_NFourier (sc_of a o)) with (pNF p) in Hm. rewrite <- nmodes_eq in Hm.
    assert (Kne : forall m' l k, (m' < nmodes p)%nat -> (l < NL)%nat -> (k < 2 * N)%nat -> o_K o m' l k <> 0).
    { intros m' l k Hm' Hl Hk. destruct (cutoff_ex (a_omega a l) (a_wLeg a l) (a_NLeg a) m') as (wg & Hc). destruct (o_eigen jk o Ho m' Hm' l wg Hl Hc) as [_ HK].
      destruct (Nat.lt_ge_cases k N) as [H|H]; [destruct (HK k H); lra|]. destruct (HK (k - N)%nat ltac:(lia)). replace (N + (k - N))%nat with k in * by lia. lra. }
    assert (Hbd : exists bd, bd_terms (sc_of a o) m = Ok bd) by (apply bd_total; [exact (g_N a Ha)|intros H; exists (rho m); apply Hrho; exact H]).
    destruct Hbd as (bd & Ebd).
    destruct (injective_mode (sc_of a o) (g_N a Ha) (g_NL a Ha) (g_multi a Ha) m) with (la := la) (bd := bd) as (C & EC); auto; [| |exact (g_st0 a Ha)| |congruence].
    - intros _ l k Hl Hk. cbn. apply Kne; auto. apply nmodes_pos; auto.
    - intros l j Hl Hj. cbn. destruct (cutoff_ex (a_omega a l) (a_wLeg a l) (a_NLeg a) m) as (wg & Hc). destruct (o_eigen jk o Ho m Hm l wg Hl Hc) as [_ HK]. apply (HK j Hj).
    - intros C B1 B2 B3. exact (C_zero jk o Ho m Hm C bd Ebd (Hrho m) B1 B2 B3).
  Qed.
End Call.
