(** Sign, bounds, equilibrium and superposition of the reported radiation. *)
From Coq Require Import Classical String Reals Lra Lia List Bool Arith ZArith.
From Coquelicot Require Import Coquelicot.
From Verif Require Import Base Tensor Spec M_LinAlg Spec_RTE Calc M_Subroutines M_GenPart M_MathscrV M_Coeffs M_Assemble M_Pydisort
  Spec_Sol Spec_Valid Spec_Calls Spec_Unique Spec_Phys P_Special P_Quad P_Sub P_Solve P_Energy P_Pydisort P_Pydisort2 P_Pydisort3 P_Pydisort4 P_Pydisort5 P_Pydisort6 P_Pydisort8 P_Teq P_NT3 P_Unique2 P_Refine P_Max P_Max2 P_Max3.
Import ListNotations.
Local Open Scope R_scope.

(** The same medium with the uniform isotropic source [B] and no other. *)
Definition uniform (q : py_in) (B : R) : py_in :=
  mkPI (p_tau q) (p_omega q) (p_NQuad q) (p_Leg q) (p_mu0 q) 0 (p_phi0 q) (p_NLeg q) (p_NFourier q) (p_bpos q) (p_bneg q) (p_only_flux q)
    (p_f q) (p_NT q) (p_BDRF q) (mkA2 (nlayers q) 1 (fun _ _ => B)) (p_banded q) (p_autograd q).
Lemma uniform_medium q B : same_medium (uniform q B) q.
Proof. constructor; reflexivity. Qed.
Lemma uniform_source q B l t : (l < nlayers q)%nat -> source (uniform q B) l t = B.
Proof. intros H. unfold source. cbn [uniform p_s nrow ncol at2]. rewrite (proj2 (Nat.ltb_lt _ _) H). cbn [rsum pow]. ring. Qed.

(** A constant field solves the uniform problem, if no layer is cut off; the field 0 always. *)
Lemma const_bvp q mu w rho B : valid q -> double_gauss (half q) mu w ->
  (forall l wg, (l < nlayers q)%nat -> is_cutoff (albedo_s q l) (wphase_s q l) (ncoeffs q) 0 wg -> albedo_s q l * wg 0%nat * B = albedo_s q l * B) ->
  bvp (uniform q B) mu w (fun _ => B) (fun i => (1 - reflectance q mu w rho i) * B) rho 0 (fun _ _ => B).
Proof.
  intros V Hdg Hc. set (p := uniform q B). pose proof (uniform_medium q B) as S. fold p in S. constructor.
  - intros l i wg t Hl Hi Ht Hw. rewrite (sm_nlayers p q S) in Hl. rewrite (sm_albedo_s p q S), (sm_wphase p q S), (sm_ncoeffs p q S) in Hw.
    refine (der_eq _ _ _ _ _ (is_derive_const B t)). unfold rte. cbn [Nat.eqb]. change (p_I0 p) with 0.
    rewrite (sm_scl p q S), (sm_streams p q S), (sm_half p q S), (sm_albedo_s p q S), (sm_ncoeffs p q S), (sm_albedo p q S), (streams_eq q V), X_spec_0m.
    unfold p. rewrite (uniform_source q B l t Hl).
    rewrite (rsum_ext _ _ (fun j => B * (wnode (half q) w j * D_spec (albedo_s q l) wg (ncoeffs q) 0 (nth i mu 0) (nth j mu 0)))) by (intros; ring).
    rewrite rsum_scal, (D_row_sum q V mu w Hdg l wg i Hl Hw).
    specialize (Hc l wg Hl Hw). pose proof (scl_pos q V l Hl) as Hs.
    assert (E : scl q l * (1 - albedo_s q l) = 1 - albedo q l) by (unfold albedo_s, scl in *; field; lra).
    change zero with 0.
    replace (scl q l * (B - B * (albedo_s q l * wg 0%nat) - 2 * (0 / (4 * PI)) * D_spec (albedo_s q l) wg (ncoeffs q) 0 (nth i mu 0) (- p_mu0 (uniform q B)) * exp (- depth_s (uniform q B) l t / p_mu0 (uniform q B))) - (1 - albedo q l) * B) with 0; [unfold Rdiv; ring|].
    replace (B * (albedo_s q l * wg 0%nat)) with (albedo_s q l * B) by lra. rewrite <- E. unfold Rdiv. ring.
  - intros i Hi x Hx eps He. exists 1. split; [lra|]. intros. rewrite Rminus_eq_0, Rabs_R0. exact He.
  - intros i Hi. reflexivity.
  - intros i Hi. cbn [Nat.eqb]. change (p_I0 p) with 0. rewrite (sm_BDRF p q S), (sm_half p q S). unfold reflectance. destruct (Nat.ltb 0 (length (p_BDRF q))); [|ring].
    rewrite (rsum_ext _ (fun j => rho (nth i mu 0) (nth j mu 0) * nth j mu 0 * w j * B) (fun j => B * (rho (nth i mu 0) (nth j mu 0) * nth j mu 0 * w j))) by (intros; ring).
    rewrite rsum_scal. unfold Rdiv. ring.
Qed.

Lemma dg_first n mu w : (0 < n)%nat -> double_gauss n mu w -> rsum n (fun i => w i * nth i mu 0) = 1 / 2.
Proof.
  intros Hn H. rewrite (rsum_ext _ _ (fun i => w i * peval [0; 1] (nth i mu 0))) by (intros; cbn; ring). rewrite (dg_rule n mu w [0; 1] H) by (cbn; lia).
  apply is_RInt_unique. replace (1 / 2) with (minus (1 ^ 2 / 2) (0 ^ 2 / 2)) by (unfold minus, plus, opp; cbn; field).
  apply (is_RInt_derive (fun x => x ^ 2 / 2)).
  - intros x _. auto_derive; [auto|]. cbn. field.
  - intros x _. apply (ex_derive_continuous (peval [0; 1])). cbn. auto_derive. auto.
Qed.

Section One.
  Variables (q : py_in) (lg : leggauss_t) (la : linalg) (jk : junk) (out : py_out).
  Hypothesis Hla : linalg_ok la.
  Hypothesis Hlg : leggauss_ok (half q) (lg (half q)).
  Hypothesis Hq : pydisort q lg la jk = Ok out.
  Variables (w vn vp : nat -> R) (rho : nat -> R -> R -> R).
  Hypothesis Hw : double_gauss (half q) (po_mu out) w.
  Hypothesis BD : boundary_data q vn vp rho.

  Lemma bd_bvp U m : modes_of q out U -> seen q m -> bvp q (po_mu out) w vn vp (rho m) m (U m).
  Proof. intros HU Hm. destruct BD as [b1 b2 b3 b4]. exact (call_bvp q lg la jk out Hla Hlg Hq U w vn vp rho HU Hw ltac:(tauto) ltac:(tauto) b1 b2 b3 m Hm). Qed.

  Section Nonneg.
    Hypothesis Hph : phase_nonneg q (po_mu out).
    Hypothesis Hsurf : passive_surface q (po_mu out) w (rho 0%nat).

    Theorem modes_nonneg U : beam_phase_nonneg q (po_mu out) ->
      (forall l t, (l < nlayers q)%nat -> top_of q l <= t <= bot_of q l -> 0 <= source q l t) ->
      (forall i, (i < half q)%nat -> 0 <= vn i) -> (forall i, (i < half q)%nat -> 0 <= vp i) ->
      modes_of q out U -> forall i t, (i < streams q)%nat -> 0 <= t <= bottom q -> 0 <= U 0%nat i t.
    Proof.
      intros Hb Hs Hn Hp HU. pose proof (call_valid q lg la jk out Hq) as V. pose proof (bd_bvp U 0 HU (seen_0 q V)) as B.
      pose proof (const_bvp q (po_mu out) w (rho 0%nat) 0 V Hw ltac:(intros; ring)) as Z.
      refine (bvp_le (uniform q 0) q (po_mu out) w _ _ vn vp (rho 0%nat) _ (U 0%nat) V Hw (uniform_medium q 0) Hph Hb Hsurf (v_I0 q V) (Rle_refl 0) _ _ _ Z B).
      - intros l t Hl Ht. rewrite uniform_source by exact Hl. auto.
      - auto.
      - intros i Hi. rewrite Rmult_0_r. auto.
    Qed.

    Theorem modes_bounded U B : p_I0 q = 0 -> 0 <= B ->
      (forall l t, (l < nlayers q)%nat -> top_of q l <= t <= bot_of q l -> source q l t <= B) ->
      (forall i, (i < half q)%nat -> vn i <= B) -> (forall i, (i < half q)%nat -> vp i <= (1 - reflectance q (po_mu out) w (rho 0%nat) i) * B) ->
      modes_of q out U -> forall i t, (i < streams q)%nat -> 0 <= t <= bottom q -> U 0%nat i t <= B.
    Proof.
      intros HI HB Hs Hn Hp HU i t Hi Ht. pose proof (call_valid q lg la jk out Hq) as V. pose proof (bd_bvp U 0 HU (seen_0 q V)) as [B1 B2 B3 B4].
      set (mu := po_mu out) in *. rewrite (streams_eq q V) in *. enough (0 <= B - U 0%nat i t) by lra.
      refine (field_nonneg q V mu w Hw (fun i t => B - U 0%nat i t)
        (fun i j => if Nat.ltb 0 (length (p_BDRF q)) then 2 * (rho 0%nat (nth i mu 0) (nth j mu 0) * nth j mu 0 * w j) else 0) Hph _ _ _ _ _ _ i t Hi Ht).
      - intros k Hk. apply (cont_on_ext _ _ (fun x => B + (-1) * U 0%nat k x)); [intros; ring|]. apply cont_on_plus; [|apply cont_on_scal, B2; exact Hk].
        intros x Hx eps He. exists 1. split; [lra|]. intros. rewrite Rminus_eq_0, Rabs_R0. exact He.
      - intros l k x Hl Hk Hx. destruct (cutoff_ex (albedo_s q l) (wphase_s q l) (ncoeffs q) 0) as (wg & Hc).
        set (nc := rsum (2 * half q) (fun j => wnode (half q) w j * D_spec (albedo_s q l) wg (ncoeffs q) 0 (nth k mu 0) (nth j mu 0))).
        exists wg, (scl q l * B * (1 - nc) - (1 - albedo q l) * source q l x). split; [exact Hc|]. pose proof (scl_pos q V l Hl) as Hsc. split.
        + pose proof (D_row_le q V mu w Hw l wg k Hl Hc) as Hnc. fold nc in Hnc. pose proof (Hs l x Hl ltac:(lra)). pose proof (albedo_range q V l Hl).
          assert (E : scl q l * (1 - albedo_s q l) = 1 - albedo q l) by (unfold albedo_s, scl in *; field; lra).
          assert (0 <= (1 - albedo q l) * (B - source q l x)) by (apply Rmult_le_pos; lra).
          assert (0 <= (scl q l * B) * (albedo_s q l - nc)) by (apply Rmult_le_pos; [apply Rmult_le_pos; lra|lra]).
          replace (scl q l * B * (1 - nc) - (1 - albedo q l) * source q l x) with (scl q l * (1 - albedo_s q l) * B - (1 - albedo q l) * source q l x + scl q l * B * (albedo_s q l - nc)) by ring.
          rewrite E. lra.
        + refine (der_eq _ _ _ _ _ (der_minus _ _ _ _ _ (is_derive_const B x) (B1 l k wg x Hl Hk Hx Hc))). unfold rte. cbn [Nat.eqb]. rewrite HI, X_spec_0m, (streams_eq q V). change zero with 0.
          rewrite (rsum_ext _ (fun j => wnode (half q) w j * D_spec (albedo_s q l) wg (ncoeffs q) 0 (nth k mu 0) (nth j mu 0) * (B - U 0%nat j x))
            (fun j => B * (wnode (half q) w j * D_spec (albedo_s q l) wg (ncoeffs q) 0 (nth k mu 0) (nth j mu 0)) - wnode (half q) w j * D_spec (albedo_s q l) wg (ncoeffs q) 0 (nth k mu 0) (nth j mu 0) * U 0%nat j x)) by (intros; ring).
          rewrite rsum_minus, rsum_scal. fold nc. unfold Rdiv. ring.
      - intros k Hk. rewrite (B3 k Hk). cbn [Nat.eqb]. pose proof (Hn k Hk). lra.
      - intros k Hk. rewrite (B4 k Hk). cbn [Nat.eqb]. rewrite HI. pose proof (Hp k Hk) as Hpk. unfold reflectance in Hpk. destruct (Nat.ltb 0 (length (p_BDRF q))).
        + rewrite (rsum_ext _ (fun j => 2 * (rho 0%nat (nth k mu 0) (nth j mu 0) * nth j mu 0 * w j) * (B - U 0%nat (half q + j)%nat (bottom q)))
            (fun j => 2 * B * (rho 0%nat (nth k mu 0) (nth j mu 0) * nth j mu 0 * w j) - 2 * (rho 0%nat (nth k mu 0) (nth j mu 0) * nth j mu 0 * w j * U 0%nat (half q + j)%nat (bottom q)))) by (intros; ring).
          rewrite rsum_minus, !rsum_scal. unfold Rdiv. lra.
        + rewrite rsum_0 by (intros; ring). lra.
      - intros k j Hk Hj. cbv beta. destruct (Nat.ltb 0 (length (p_BDRF q))); [|apply Rle_refl]. destruct Hw as (_ & H2 & _). destruct (H2 j Hj) as (P1 & _ & P2). pose proof (ps_nonneg _ _ _ _ Hsurf k j Hk Hj).
        apply Rmult_le_pos; [lra|]. apply Rmult_le_pos; [|lra]. apply Rmult_le_pos; [assumption|lra].
      - intros k Hk. pose proof (ps_albedo _ _ _ _ Hsurf k Hk) as Ha. unfold reflectance in Ha. fold mu in Ha. destruct (Nat.ltb 0 (length (p_BDRF q))); [rewrite rsum_scal; exact Ha|].
        rewrite rsum_0 by reflexivity. lra.
    Qed.

    Lemma squeezed_all_le A s f x : squeezed A s f -> (forall idx, inb s idx -> f idx <= x) -> all_le A x.
    Proof. intros [S1 E1] H idx Hi. rewrite E1 by exact Hi. unfold tsqueeze. cbn [elt]. apply H. apply inb_unsq. rewrite S1 in Hi. exact Hi. Qed.
    Lemma squeezed_all_eq A s f x : squeezed A s f -> (forall idx, inb s idx -> f idx = x) -> all_eq A x.
    Proof. intros [S1 E1] H idx Hi. rewrite E1 by exact Hi. unfold tsqueeze. cbn [elt]. apply H. apply inb_unsq. rewrite S1 in Hi. exact Hi. Qed.

    Theorem call_nonneg : beam_phase_nonneg q (po_mu out) ->
      (forall l t, (l < nlayers q)%nat -> top_of q l <= t <= bot_of q l -> 0 <= source q l t) ->
      (forall i, (i < half q)%nat -> 0 <= vn i) -> (forall i, (i < half q)%nat -> 0 <= vp i) ->
      forall tau, depths_ok q tau ->
      (exists A, po_u0 out tau false false false = Ok (PVal (PT A)) /\ nonneg A) /\
      (exists A, po_flux_up out tau false false = Ok (PVal (PT A)) /\ nonneg A) /\
      (exists A B, po_flux_down out tau false false = Ok (PTup [PT A; PT B]) /\ nonneg A /\ nonneg B).
    Proof.
      intros Hb Hs Hn Hp tau Ht. pose proof (call_valid q lg la jk out Hq) as V. destruct (modes_exist q lg la jk out Hla Hlg Hq) as (U & HU).
      pose proof (modes_nonneg U Hb Hs Hn Hp HU) as HP. rewrite (streams_eq q V) in HP.
      assert (Hin : forall k, (k < length tau)%nat -> 0 <= nth k tau 0 <= bottom q) by (intros k Hk; apply Ht, nth_In; exact Hk).
      destruct (call_fluxes q lg la jk out Hla Hlg Hq U HU) as (w1 & (_ & D1 & _) & R1 & R1'). pose proof PI_RGT_0.
      assert (Hc : forall i, (i < half q)%nat -> 0 <= w1 i * nth i (po_mu out) 0) by (intros i Hi; destruct (D1 i Hi) as (P1 & _ & P2); apply Rmult_le_pos; lra).
      assert (Hdir : forall t, 0 <= direct q t).
      { intros t. unfold direct. pose proof (v_I0 q V) as [HI|<-]; [|lra]. pose proof (v_mu0 q V HI). apply Rmult_le_pos; [apply Rmult_le_pos; lra|left; apply exp_pos]. }
      split; [|split].
      - destruct (proj1 HU tau Ht) as (A & EA & SA). exists A. split; [exact EA|]. refine (squeezed_nonneg _ _ _ SA _). intros idx Hi. apply inb_2 in Hi as (a & b & -> & Ha & Hb'). cbn [nth].
        apply HP; [rewrite <- (streams_eq q V); exact Ha|apply Hin; exact Hb'].
      - destruct (R1 tau Ht) as (A & EA & SA). exists A. split; [exact EA|]. refine (squeezed_nonneg _ _ _ SA _). intros idx Hi. apply inb_1 in Hi as (a & -> & Ha). cbn [nth].
        apply Rmult_le_pos; [lra|]. apply rsum_nonneg. intros i Hi. apply Rmult_le_pos; [auto|]. apply HP; [lia|apply Hin; exact Ha].
      - destruct (R1' tau Ht) as (A & B & EA & SA & SB & SB'). exists A, B. split; [exact EA|]. split.
        + refine (squeezed_nonneg _ _ _ SA _). intros idx Hi. apply inb_1 in Hi as (a & -> & Ha). cbn [nth]. set (t := nth a tau 0). pose proof (Hin a Ha) as Hta. fold t in Hta.
          assert (0 <= 2 * PI * rsum (half q) (fun i => w1 i * nth i (po_mu out) 0 * U 0%nat (half q + i)%nat t)).
          { apply Rmult_le_pos; [lra|]. apply rsum_nonneg. intros i Hi. apply Rmult_le_pos; [auto|]. apply HP; [lia|exact Hta]. }
          assert (0 <= p_I0 q * (p_mu0 q * (exp (- sdepth q t / p_mu0 q) - exp (- t / p_mu0 q)))).
          { pose proof (v_I0 q V) as [HI|<-]; [|lra]. pose proof (v_mu0 q V HI). apply Rmult_le_pos; [lra|]. apply Rmult_le_pos; [lra|]. pose proof (sdepth_le q V t Hta).
            assert (exp (- t / p_mu0 q) <= exp (- sdepth q t / p_mu0 q)); [|lra].
            destruct (Req_dec (sdepth q t) t) as [->|]; [lra|]. left. apply exp_increasing. apply Rmult_lt_compat_r; [apply Rinv_0_lt_compat; lra|lra]. }
          unfold direct. lra.
        + destruct (v_I0 q V) as [HI|HI].
          * refine (squeezed_nonneg _ _ _ (SB HI) _). intros idx Hi. apply Hdir.
          * refine (squeezed_nonneg _ _ _ (SB' (eq_sym HI)) _). intros. lra.
    Qed.

    Theorem call_bounded B : p_I0 q = 0 -> 0 <= B ->
      (forall l t, (l < nlayers q)%nat -> top_of q l <= t <= bot_of q l -> source q l t <= B) ->
      (forall i, (i < half q)%nat -> vn i <= B) -> (forall i, (i < half q)%nat -> vp i <= (1 - reflectance q (po_mu out) w (rho 0%nat) i) * B) ->
      forall tau, depths_ok q tau ->
      (exists A, po_u0 out tau false false false = Ok (PVal (PT A)) /\ all_le A B) /\
      (exists A, po_flux_up out tau false false = Ok (PVal (PT A)) /\ all_le A (PI * B)) /\
      (exists A A0, po_flux_down out tau false false = Ok (PTup [PT A; PT A0]) /\ all_le A (PI * B)).
    Proof.
      intros HI HB Hs Hn Hp tau Ht. pose proof (call_valid q lg la jk out Hq) as V. destruct (modes_exist q lg la jk out Hla Hlg Hq) as (U & HU).
      pose proof (modes_bounded U B HI HB Hs Hn Hp HU) as HP. rewrite (streams_eq q V) in HP.
      assert (Hin : forall k, (k < length tau)%nat -> 0 <= nth k tau 0 <= bottom q) by (intros k Hk; apply Ht, nth_In; exact Hk).
      destruct (call_fluxes q lg la jk out Hla Hlg Hq U HU) as (w1 & D & R1 & R1'). pose proof D as (_ & D1 & _). pose proof PI_RGT_0.
      assert (Hc : forall i, (i < half q)%nat -> 0 <= w1 i * nth i (po_mu out) 0) by (intros i Hi; destruct (D1 i Hi) as (P1 & _ & P2); apply Rmult_le_pos; lra).
      assert (HS : forall f, (forall i, (i < half q)%nat -> f i <= B) -> 2 * PI * rsum (half q) (fun i => w1 i * nth i (po_mu out) 0 * f i) <= PI * B).
      { intros f Hf. assert (rsum (half q) (fun i => w1 i * nth i (po_mu out) 0 * f i) <= 1 / 2 * B).
        - rewrite <- (dg_first (half q) (po_mu out) w1 (half_pos q V) D), Rmult_comm, <- rsum_scal. apply rsum_le. intros i Hi. rewrite (Rmult_comm B). apply Rmult_le_compat_l; auto.
        - apply Rle_trans with (2 * PI * (1 / 2 * B)); [apply Rmult_le_compat_l; lra|right; field]. }
      split; [|split].
      - destruct (proj1 HU tau Ht) as (A & EA & SA). exists A. split; [exact EA|]. refine (squeezed_all_le _ _ _ _ SA _). intros idx Hi. apply inb_2 in Hi as (a & b & -> & Ha & Hb'). cbn [nth].
        apply HP; [rewrite <- (streams_eq q V); exact Ha|apply Hin; exact Hb'].
      - destruct (R1 tau Ht) as (A & EA & SA). exists A. split; [exact EA|]. refine (squeezed_all_le _ _ _ _ SA _). intros idx Hi. apply inb_1 in Hi as (a & -> & Ha). cbn [nth].
        apply (HS (fun i => U 0%nat i (nth a tau 0))). intros i Hi. apply HP; [lia|apply Hin; exact Ha].
      - destruct (R1' tau Ht) as (A & A0 & EA & SA & _). exists A, A0. split; [exact EA|].
        refine (squeezed_all_le _ _ _ _ SA _). intros idx Hi. apply inb_1 in Hi as (a & -> & Ha). cbn [nth]. set (t := nth a tau 0). pose proof (Hin a Ha) as Hta. fold t in Hta.
        pose proof (HS (fun i => U 0%nat (half q + i)%nat t) ltac:(intros i Hi; apply HP; [lia|exact Hta])) as HS'. cbv beta in HS'.
        unfold direct. rewrite HI. lra.
    Qed.
  End Nonneg.

  (** Equilibrium: everything emits the same intensity [B]. *)
  Section Equi.
    Variable B : R.
    Hypothesis HI : p_I0 q = 0.
    Hypothesis Hk : scattering_kept q.
    Hypothesis Hs : forall l t, (l < nlayers q)%nat -> top_of q l < t < bot_of q l -> source q l t = B.
    Hypothesis Hn : forall i, (i < half q)%nat -> vn i = B.
    Hypothesis Hp : forall i, (i < half q)%nat -> vp i = (1 - reflectance q (po_mu out) w (rho 0%nat) i) * B.

    Lemma equi_bvp : bvp q (po_mu out) w vn vp (rho 0%nat) 0 (fun _ _ => B).
    Proof.
      pose proof (call_valid q lg la jk out Hq) as V. pose proof (uniform_medium q B) as S.
      assert (Z : bvp (uniform q B) (po_mu out) w (fun _ => B) (fun i => (1 - reflectance q (po_mu out) w (rho 0%nat) i) * B) (rho 0%nat) 0 (fun _ _ => B)).
      { apply const_bvp; auto. intros l wg Hl Hc. pose proof (albedo_norm q l Hl) as E. destruct (Hk l Hl) as [->|Hg]; [ring|].
        rewrite (proj2 Hc); [rewrite E; ring|]. intros Hng. specialize (Hng 0%nat ltac:(pose proof (nc_range q V); lia)).
        replace (albedo_s q l / 2 * wphase_s q l 0%nat) with (albedo_s q l / 2) in Hng by (unfold Rdiv; rewrite <- E at 1; ring). rewrite Rabs_pos_eq in Hng; lra. }
      destruct Z as [Z1 Z2 Z3 Z4]. constructor.
      - intros l i wg t Hl Hi Ht Hc. refine (der_eq _ _ _ _ _ (Z1 l i wg t Hl Hi Ht Hc)). f_equal. unfold rte. cbn [Nat.eqb]. change (p_I0 (uniform q B)) with 0. rewrite HI, (uniform_source q B l t Hl), (Hs l t Hl Ht). reflexivity.
      - exact Z2.
      - intros i Hi. rewrite (Hn i Hi). reflexivity.
      - intros i Hi. rewrite (Hp i Hi), HI. exact (Z4 i Hi).
    Qed.

    Theorem call_equi : linalg_unique la -> forall tau, depths_ok q tau ->
      (exists A, po_u0 out tau false false false = Ok (PVal (PT A)) /\ all_eq A B) /\
      (exists A, po_flux_up out tau false false = Ok (PVal (PT A)) /\ all_eq A (PI * B)) /\
      (exists A A0, po_flux_down out tau false false = Ok (PTup [PT A; PT A0]) /\ all_eq A (PI * B)).
    Proof.
      intros Hlu tau Ht. pose proof (call_valid q lg la jk out Hq) as V. destruct (modes_exist q lg la jk out Hla Hlg Hq) as (U & HU).
      assert (HP : forall i t, (i < streams q)%nat -> 0 <= t <= bottom q -> U 0%nat i t = B).
      { intros i t Hi Hti. symmetry. destruct BD as [b1 b2 b3 b4].
        refine (proj2 (call_only q lg la jk out Hla Hlu Hlg Hq U HU w Hw ltac:(tauto) ltac:(tauto) vn vp b1 b2 rho b3 0%nat (seen_0 q V)) (fun _ _ => B) equi_bvp i t Hi Hti). }
      rewrite (streams_eq q V) in HP.
      assert (Hin : forall k, (k < length tau)%nat -> 0 <= nth k tau 0 <= bottom q) by (intros k Hk'; apply Ht, nth_In; exact Hk').
      destruct (call_fluxes q lg la jk out Hla Hlg Hq U HU) as (w1 & D & R1 & R1').
      assert (HS : forall f, (forall i, (i < half q)%nat -> f i = B) -> 2 * PI * rsum (half q) (fun i => w1 i * nth i (po_mu out) 0 * f i) = PI * B).
      { intros f Hf. rewrite (rsum_ext _ _ (fun i => B * (w1 i * nth i (po_mu out) 0))) by (intros i Hi; rewrite Hf by exact Hi; ring).
        rewrite rsum_scal, (dg_first (half q) (po_mu out) w1 (half_pos q V) D). field. }
      split; [|split].
      - destruct (proj1 HU tau Ht) as (A & EA & SA). exists A. split; [exact EA|]. refine (squeezed_all_eq _ _ _ _ SA _). intros idx Hi. apply inb_2 in Hi as (a & b & -> & Ha & Hb'). cbn [nth].
        apply HP; [rewrite <- (streams_eq q V); exact Ha|apply Hin; exact Hb'].
      - destruct (R1 tau Ht) as (A & EA & SA). exists A. split; [exact EA|]. refine (squeezed_all_eq _ _ _ _ SA _). intros idx Hi. apply inb_1 in Hi as (a & -> & Ha). cbn [nth].
        apply (HS (fun i => U 0%nat i (nth a tau 0))). intros i Hi. apply HP; [lia|apply Hin; exact Ha].
      - destruct (R1' tau Ht) as (A & A0 & EA & SA & _). exists A, A0. split; [exact EA|].
        refine (squeezed_all_eq _ _ _ _ SA _). intros idx Hi. apply inb_1 in Hi as (a & -> & Ha). cbn [nth]. set (t := nth a tau 0). pose proof (Hin a Ha) as Hta. fold t in Hta.
        pose proof (HS (fun i => U 0%nat (half q + i)%nat t) ltac:(intros i Hi; apply HP; [lia|exact Hta])) as HS'. cbv beta in HS'.
        rewrite HS'. unfold direct. rewrite HI. ring.
    Qed.
  End Equi.
End One.
