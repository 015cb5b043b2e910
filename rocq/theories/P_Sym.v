(** Reciprocity, and the atmosphere upside down. *)
From Coq Require Import Classical String Reals Lra Lia List Bool Arith ZArith.
From Coquelicot Require Import Coquelicot.
From Verif Require Import Base Tensor Spec M_LinAlg Spec_RTE Calc M_Subroutines M_GenPart M_MathscrV M_Coeffs M_Assemble M_Pydisort
  Spec_Sol Spec_Valid Spec_Calls Spec_Unique Spec_Phys Spec_Sym P_Special P_Quad P_Sub P_Solve P_Energy P_Pydisort P_Pydisort2 P_Pydisort3 P_Pydisort4 P_Pydisort5 P_Pydisort6 P_Pydisort8 P_Teq P_NT3 P_Unique2 P_Refine P_Max P_Max2 P_Max3 P_Max4.
Import ListNotations.
Local Open Scope R_scope.

Lemma clamp_back a b f : a <= b -> (forall x, continuity_pt (clamp a b f) x) -> cont_on a b f.
Proof.
  intros H C x Hx eps He. destruct (C x eps He) as (d & Hd & Hc). exists d. split; [exact Hd|]. intros y Hy Hyx.
  destruct (Req_dec x y) as [->|Hne]; [rewrite Rminus_eq_0, Rabs_R0; exact He|].
  assert (Hy' : D_x no_cond x y /\ Rabs (y - x) < d) by (split; [split; [exact I|exact Hne]|exact Hyx]). specialize (Hc y Hy'). unfold dist in Hc. cbn in Hc. unfold R_dist in Hc.
  rewrite !clamp_in in Hc by auto. exact Hc.
Qed.
Lemma cont_on_mult a b f g : a <= b -> cont_on a b f -> cont_on a b g -> cont_on a b (fun x => f x * g x).
Proof.
  intros H F G. apply clamp_back; [exact H|]. intros x. apply (continuity_pt_ext (mult_fct (clamp a b f) (clamp a b g))); [intros; reflexivity|].
  apply continuity_pt_mult; apply clamp_cont; auto.
Qed.
(** A continuous function whose derivative vanishes inside the layers is constant. *)
Lemma layers_const p f : valid p -> cont_on 0 (bottom p) f -> (forall l t, (l < nlayers p)%nat -> top_of p l < t < bot_of p l -> is_derive f t 0) -> f (bottom p) = f 0.
Proof.
  intros V C D. assert (H : forall l, (l < nlayers p)%nat -> f (bot_of p l) = f (top_of p l)).
  { intros l Hl. pose proof (v_inc p V l Hl) as Hi.
    assert (R : 0 <= top_of p l /\ bot_of p l <= bottom p).
    { split; [destruct l; [cbn; lra|apply Rlt_le, (v_tau p V); unfold nlayers in *; lia]|]. rewrite (bottom_eq p). apply (bots_mono p V); unfold nlayers in *; lia. }
    destruct (cont_mvt (top_of p l) (bot_of p l) f (fun _ => 0) Hi) as (c & _ & E); [apply (cont_on_sub 0 (bottom p)); tauto|intros t Ht; apply (D l); auto|lra]. }
  assert (G : forall l, (l < nlayers p)%nat -> f (bot_of p l) = f 0).
  { induction l as [|l IH]; intros Hl; rewrite H by exact Hl; [reflexivity|]. change (top_of p (S l)) with (bot_of p l). apply IH. lia. }
  rewrite (bottom_eq p). apply G. pose proof (v_ne p V). unfold nlayers in *. lia.
Qed.

Lemma D_spec_opp om wg n m x y : D_spec om wg n m (- x) (- y) = D_spec om wg n m x y.
Proof.
  unfold D_spec. f_equal. apply rsum_ext. intros k _. destruct (Nat.leb m k); [|reflexivity]. rewrite !lpmv_parity.
  assert (E : (-1) ^ (m + k) * (-1) ^ (m + k) = 1) by (rewrite <- Rpow_mult_distr; replace (-1 * -1) with 1 by ring; apply pow1).
  transitivity ((-1) ^ (m + k) * (-1) ^ (m + k) * (wg k * poch_term m k * lpmv m k x * lpmv m k y)); [ring|rewrite E; ring].
Qed.
Lemma opp_lt n i : (i < 2 * n)%nat -> (opposite n i < 2 * n)%nat.
Proof. intros H. unfold opposite. destruct (Nat.ltb_spec i n); lia. Qed.
Lemma opp_inv n i : (i < 2 * n)%nat -> opposite n (opposite n i) = i.
Proof. intros H. unfold opposite. destruct (Nat.ltb_spec i n); [rewrite (proj2 (Nat.ltb_ge _ _)) by lia; lia|rewrite (proj2 (Nat.ltb_lt _ _)) by lia; lia]. Qed.
Lemma opp_up n i : (i < n)%nat -> opposite n i = (n + i)%nat.
Proof. intros H. unfold opposite. rewrite (proj2 (Nat.ltb_lt _ _)) by lia. reflexivity. Qed.
Lemma opp_down n i : (i < n)%nat -> opposite n (n + i) = i.
Proof. intros H. unfold opposite. rewrite (proj2 (Nat.ltb_ge _ _)) by lia. lia. Qed.
Lemma rsum_opposite n f : rsum (2 * n) (fun i => f (opposite n i)) = rsum (2 * n) f.
Proof.
  replace (2 * n)%nat with (n + n)%nat by lia. rewrite !rsum_split. rewrite Rplus_comm. f_equal; apply rsum_ext; intros i Hi; [rewrite opp_down by exact Hi|rewrite opp_up by exact Hi]; reflexivity.
Qed.
Lemma mu_opp n mu w i : double_gauss n mu w -> (i < 2 * n)%nat -> nth (opposite n i) mu 0 = - nth i mu 0.
Proof.
  intros (_ & H & _) Hi. unfold opposite. destruct (Nat.ltb_spec i n) as [L|L]; [apply H; exact L|]. destruct (H (i - n)%nat ltac:(lia)) as (_ & E & _). replace (n + (i - n))%nat with i in E by lia. rewrite E. ring.
Qed.
Lemma mu_nz n mu w i : double_gauss n mu w -> (i < 2 * n)%nat -> nth i mu 0 <> 0.
Proof.
  intros (_ & H & _) Hi. destruct (Nat.lt_ge_cases i n) as [L|L]; [destruct (H i L); lra|]. destruct (H (i - n)%nat ltac:(lia)) as (P & E & _). replace (n + (i - n))%nat with i in E by lia. rewrite E. lra.
Qed.
Lemma wnode_opp n w i : (i < 2 * n)%nat -> wnode n w (opposite n i) = wnode n w i.
Proof. intros Hi. unfold wnode, opposite. destruct (Nat.ltb_spec i n); [rewrite (proj2 (Nat.ltb_ge _ _)) by lia; f_equal; lia|rewrite (proj2 (Nat.ltb_lt _ _)) by lia; reflexivity]. Qed.

(** Reciprocity of two problems with the same medium. *)
Section Recip.
  Variables (p q : py_in) (mu : list R) (w vn vp vn' vp' : nat -> R) (rho : R -> R -> R) (F G : nat -> R -> R).
  Hypothesis V : valid p.
  Hypothesis Hdg : double_gauss (half p) mu w.
  Hypothesis S : same_medium p q.
  Hypothesis NE : no_emission p.
  Hypothesis NE' : no_emission q.
  Hypothesis RS : reciprocal_surface p mu rho.
  Hypothesis BF : bvp p mu w vn vp rho 0 F.
  Hypothesis BG : bvp q mu w vn' vp' rho 0 G.
  Let N := half p.

  Definition wronskian (t : R) : R := rsum (2 * N) (fun i => wnode N w i * nth i mu 0 * (F i t * G (opposite N i) t)).
  Lemma wronskian_const : wronskian (bottom p) = wronskian 0.
  Proof.
    pose proof BF as [A1 A2 A3 A4]. pose proof BG as [B1 B2 B3 B4]. rewrite (streams_eq p V) in A1, A2. rewrite <- (sm_streams p q S), (streams_eq p V) in B1, B2. rewrite <- (sm_bottom p q S) in B2.
    assert (Hb : 0 < bottom p) by (rewrite (bottom_eq p); apply (v_tau p V); pose proof (v_ne p V); unfold nlayers in *; lia).
    apply (layers_const p); [exact V| |].
    - apply cont_on_sum. intros i Hi. apply cont_on_scal. apply cont_on_mult; [lra|apply A2; exact Hi|apply B2; apply opp_lt; exact Hi].
    - intros l t Hl Ht. destruct (cutoff_ex (albedo_s p l) (wphase_s p l) (ncoeffs p) 0) as (wg & Hc).
      set (D := fun i j => D_spec (albedo_s p l) wg (ncoeffs p) 0 (nth i mu 0) (nth j mu 0)).
      set (f := fun i => scl p l * (F i t - rsum (2 * N) (fun j => wnode N w j * D i j * F j t))).
      set (g := fun i => scl p l * (G i t - rsum (2 * N) (fun j => wnode N w j * D i j * G j t))).
      assert (DF : forall i, (i < 2 * N)%nat -> is_derive (F i) t (f i / nth i mu 0)).
      { intros i Hi. refine (der_eq _ _ _ _ _ (A1 l i wg t Hl Hi Ht Hc)). unfold rte. cbn [Nat.eqb]. rewrite (proj1 NE), (proj2 NE l t Hl Ht), X_spec_0m, (streams_eq p V). unfold f, D, N, Rdiv. ring. }
      assert (DG : forall i, (i < 2 * N)%nat -> is_derive (G i) t (g i / nth i mu 0)).
      { intros i Hi. refine (der_eq _ _ _ _ _ (B1 l i wg t _ Hi _ _)); [|rewrite <- (sm_nlayers p q S); exact Hl|rewrite <- (sm_top p q S), <- (sm_bot p q S); exact Ht|rewrite <- (sm_albedo_s p q S), <- (sm_wphase p q S), <- (sm_ncoeffs p q S); exact Hc].
        unfold rte. cbn [Nat.eqb]. rewrite (proj1 NE'), (proj2 NE' l t) by (rewrite <- ?(sm_nlayers p q S), <- ?(sm_top p q S), <- ?(sm_bot p q S); assumption).
        rewrite X_spec_0m, <- (sm_streams p q S), <- (sm_half p q S), <- (sm_scl p q S), <- (sm_albedo_s p q S), <- (sm_ncoeffs p q S), (streams_eq p V). unfold g, D, N, Rdiv. ring. }
      unfold wronskian.
      refine (der_eq _ _ (rsum (2 * N) (fun i => wnode N w i * nth i mu 0 * (f i / nth i mu 0 * G (opposite N i) t + F i t * (g (opposite N i) / nth (opposite N i) mu 0)))) _ _ _).
      2:{ apply der_sum. intros i Hi. apply der_scal. apply der_mult; [apply DF; exact Hi|apply DG; apply opp_lt; exact Hi]. }
      rewrite (rsum_ext _ _ (fun i => wnode N w i * f i * G (opposite N i) t - wnode N w i * F i t * g (opposite N i))).
      2:{ intros i Hi. rewrite (mu_opp N mu w) by auto. field. apply (mu_nz N mu w); auto. }
      rewrite rsum_minus.
      rewrite (rsum_ext _ (fun i => wnode N w i * f i * G (opposite N i) t) (fun i => scl p l * (wnode N w i * F i t * G (opposite N i) t) -
        rsum (2 * N) (fun j => scl p l * (wnode N w i * wnode N w j * D i j * F j t * G (opposite N i) t)))).
      2:{ intros i Hi. unfold f. rewrite rsum_scal. rewrite (rsum_ext _ (fun j => wnode N w i * wnode N w j * D i j * F j t * G (opposite N i) t) (fun j => wnode N w i * G (opposite N i) t * (wnode N w j * D i j * F j t))) by (intros; ring).
          rewrite rsum_scal. ring. }
      rewrite (rsum_ext _ (fun i => wnode N w i * F i t * g (opposite N i)) (fun i => scl p l * (wnode N w i * F i t * G (opposite N i) t) -
        rsum (2 * N) (fun j => scl p l * (wnode N w j * wnode N w i * D j i * F i t * G (opposite N j) t)))).
      2:{ intros i Hi. unfold g. rewrite rsum_scal. rewrite <- (rsum_opposite N (fun j => wnode N w j * D (opposite N i) j * G j t)).
          rewrite (rsum_ext _ (fun j => wnode N w (opposite N j) * D (opposite N i) (opposite N j) * G (opposite N j) t) (fun j => wnode N w j * D j i * G (opposite N j) t)).
          2:{ intros j Hj. rewrite wnode_opp by exact Hj. unfold D. rewrite !(mu_opp N mu w) by auto. rewrite D_spec_opp, D_spec_sym. reflexivity. }
          rewrite (rsum_ext _ (fun j => wnode N w j * wnode N w i * D j i * F i t * G (opposite N j) t) (fun j => wnode N w i * F i t * (wnode N w j * D j i * G (opposite N j) t))) by (intros; ring).
          rewrite rsum_scal. ring. }
      rewrite !rsum_minus. rewrite (rsum_swap (2 * N) (2 * N) (fun i j => scl p l * (wnode N w j * wnode N w i * D j i * F i t * G (opposite N j) t))). ring.
  Qed.
  Lemma wronskian_halves t : wronskian t = rsum N (fun i => w i * nth i mu 0 * (F i t * G (N + i)%nat t - F (N + i)%nat t * G i t)).
  Proof.
    unfold wronskian. replace (2 * N)%nat with (N + N)%nat by lia. rewrite rsum_split, <- rsum_plus. apply rsum_ext. intros i Hi.
    rewrite opp_up, opp_down by exact Hi. destruct Hdg as (_ & H & _). destruct (H i Hi) as (_ & E & _). fold N in E. rewrite E. unfold wnode.
    rewrite (proj2 (Nat.ltb_lt _ _)) by exact Hi. rewrite (proj2 (Nat.ltb_ge (N + i) N)) by lia. replace (N + i - N)%nat with i by lia. ring.
  Qed.
  Theorem bvp_recip :
    rsum N (fun i => w i * nth i mu 0 * (F i 0 * vn' i + F (N + i)%nat (bottom p) * vp' i)) =
    rsum N (fun i => w i * nth i mu 0 * (G i 0 * vn i + G (N + i)%nat (bottom p) * vp i)).
  Proof.
    pose proof wronskian_const as E. rewrite !wronskian_halves in E. pose proof BF as [A1 A2 A3 A4]. pose proof BG as [B1 B2 B3 B4]. cbn [Nat.eqb] in *.
    rewrite <- (sm_half p q S) in B3, B4. rewrite <- (sm_bottom p q S) in B4. rewrite <- (sm_BDRF p q S) in B4. fold N in A3, A4, B3, B4.
    rewrite (rsum_ext _ (fun i => w i * nth i mu 0 * (F i 0 * G (N + i)%nat 0 - F (N + i)%nat 0 * G i 0)) (fun i => w i * nth i mu 0 * (F i 0 * vn' i) - w i * nth i mu 0 * (G i 0 * vn i))) in E
      by (intros i Hi; rewrite A3, B3 by exact Hi; ring).
    set (T := bottom p) in *.
    set (sF := fun i => F i T - vp i). set (sG := fun i => G i T - vp' i).
    assert (SR : rsum N (fun i => w i * nth i mu 0 * (sF i * G (N + i)%nat T)) = rsum N (fun i => w i * nth i mu 0 * (F (N + i)%nat T * sG i))).
    { unfold sF, sG. rewrite (rsum_ext _ _ (fun i => rsum N (fun j => if Nat.ltb 0 (length (p_BDRF p)) then 2 * (w i * nth i mu 0 * (rho (nth i mu 0) (nth j mu 0) * nth j mu 0 * w j) * F (N + j)%nat T * G (N + i)%nat T) else 0))).
      2:{ intros i Hi. rewrite (A4 i Hi), (proj1 NE). destruct (Nat.ltb 0 (length (p_BDRF p))).
          - rewrite (rsum_ext _ (fun j => 2 * (w i * nth i mu 0 * (rho (nth i mu 0) (nth j mu 0) * nth j mu 0 * w j) * F (N + j)%nat T * G (N + i)%nat T)) (fun j => 2 * (w i * nth i mu 0 * G (N + i)%nat T) * (rho (nth i mu 0) (nth j mu 0) * nth j mu 0 * w j * F (N + j)%nat T))) by (intros; ring).
            rewrite rsum_scal. unfold Rdiv. ring.
          - rewrite rsum_0 by reflexivity. ring. }
      rewrite (rsum_ext _ (fun i => w i * nth i mu 0 * (F (N + i)%nat T * (G i T - vp' i))) (fun i => rsum N (fun j => if Nat.ltb 0 (length (p_BDRF p)) then 2 * (w j * nth j mu 0 * (rho (nth j mu 0) (nth i mu 0) * nth i mu 0 * w i) * F (N + i)%nat T * G (N + j)%nat T) else 0))).
      2:{ intros i Hi. rewrite (B4 i Hi), (proj1 NE'). destruct (Nat.ltb_spec 0 (length (p_BDRF p))) as [L|L].
          - rewrite (rsum_ext _ (fun j => 2 * (w j * nth j mu 0 * (rho (nth j mu 0) (nth i mu 0) * nth i mu 0 * w i) * F (N + i)%nat T * G (N + j)%nat T)) (fun j => 2 * (w i * nth i mu 0 * F (N + i)%nat T) * (rho (nth i mu 0) (nth j mu 0) * nth j mu 0 * w j * G (N + j)%nat T)))
              by (intros j Hj; rewrite (RS L j i Hj Hi); ring).
            rewrite rsum_scal. unfold Rdiv. ring.
          - rewrite rsum_0 by reflexivity. ring. }
      apply (rsum_swap N N (fun i j => if Nat.ltb 0 (length (p_BDRF p)) then 2 * (w i * nth i mu 0 * (rho (nth i mu 0) (nth j mu 0) * nth j mu 0 * w j) * F (N + j)%nat T * G (N + i)%nat T) else 0)). }
    rewrite (rsum_ext _ (fun i => w i * nth i mu 0 * (F i T * G (N + i)%nat T - F (N + i)%nat T * G i T))
      (fun i => w i * nth i mu 0 * (G (N + i)%nat T * vp i) - w i * nth i mu 0 * (F (N + i)%nat T * vp' i) + (w i * nth i mu 0 * (sF i * G (N + i)%nat T) - w i * nth i mu 0 * (F (N + i)%nat T * sG i)))) in E by (intros; unfold sF, sG; ring).
    rewrite rsum_plus, !rsum_minus in E. rewrite SR in E.
    rewrite (rsum_ext _ (fun i => w i * nth i mu 0 * (F i 0 * vn' i + F (N + i)%nat T * vp' i)) (fun i => w i * nth i mu 0 * (F i 0 * vn' i) + w i * nth i mu 0 * (F (N + i)%nat T * vp' i))) by (intros; ring).
    rewrite (rsum_ext _ (fun i => w i * nth i mu 0 * (G i 0 * vn i + G (N + i)%nat T * vp i)) (fun i => w i * nth i mu 0 * (G i 0 * vn i) + w i * nth i mu 0 * (G (N + i)%nat T * vp i))) by (intros; ring).
    rewrite !rsum_plus. lra.
  Qed.
End Recip.

(** Upside down: [F] solves the problem of [p]. *)
Section Flip.
  Variables (p q : py_in) (mu : list R) (w vn vp : nat -> R) (rho rho' : R -> R -> R) (F : nat -> R -> R).
  Hypothesis Vp : valid p.
  Hypothesis Vq : valid q.
  Hypothesis Hdg : double_gauss (half p) mu w.
  Hypothesis UD : upside_down p q.
  Hypothesis BF : bvp p mu w vn vp rho 0 F.
  Let N := half p.
  Let fl l := (nlayers p - 1 - l)%nat.
  Lemma ud_half : half q = N. Proof. unfold N, half. rewrite (ud_NQuad _ _ UD). reflexivity. Qed.
  Lemma ud_streams : streams q = (2 * N)%nat. Proof. rewrite (streams_eq q Vq), ud_half. reflexivity. Qed.
  Lemma ud_bottom : bottom q = bottom p.
  Proof.
    rewrite (bottom_eq q), (ud_layers _ _ UD). pose proof (v_ne p Vp) as H. change (1 <= nlayers p)%nat in H. rewrite (ud_bot _ _ UD) by lia. replace (nlayers p - 1 - (nlayers p - 1))%nat with 0%nat by lia. cbn [top_of]. ring.
  Qed.
  Lemma ud_scl l : (l < nlayers p)%nat -> scl q l = scl p (fl l). Proof. intros H. unfold scl. rewrite (ud_albedo _ _ UD), (ud_fwd _ _ UD) by exact H. reflexivity. Qed.
  Lemma ud_albedo_s l : (l < nlayers p)%nat -> albedo_s q l = albedo_s p (fl l). Proof. intros H. unfold albedo_s. rewrite ud_scl, (ud_albedo _ _ UD), (ud_fwd _ _ UD) by exact H. reflexivity. Qed.
  Lemma ud_wphase l k : (l < nlayers p)%nat -> (k < ncoeffs p)%nat -> wphase_s q l k = wphase_s p (fl l) k.
  Proof. intros H Hk. unfold wphase_s, phase_s. rewrite (ud_phase _ _ UD), (ud_fwd _ _ UD) by auto. reflexivity. Qed.

  Theorem bvp_flip : bvp q mu w vp vn rho' 0 (fun i t => F (opposite N i) (bottom p - t)).
  Proof.
    pose proof BF as [A1 A2 A3 A4]. rewrite (streams_eq p Vp) in A1, A2. cbn [Nat.eqb] in *. fold N in A3, A4.
    constructor; rewrite ?ud_streams, ?ud_half, ?ud_bottom.
    - intros l i wg t Hl Hi Ht Hc. rewrite (ud_layers _ _ UD) in Hl. assert (Hl' : (fl l < nlayers p)%nat) by (unfold fl; lia).
      pose proof (mu_nz N mu w i Hdg Hi) as Hz. pose proof (mu_opp N mu w i Hdg Hi) as Ho.
      assert (Ht' : top_of p (fl l) < bottom p - t < bot_of p (fl l)) by (rewrite (ud_top _ _ UD), (ud_bot _ _ UD) in Ht by exact Hl; unfold fl; lra).
      destruct (cutoff_ex (albedo_s p (fl l)) (wphase_s p (fl l)) (ncoeffs p) 0) as (wg' & Hc').
      assert (EW : forall k, (k < ncoeffs p)%nat -> wg' k = wg k).
      { assert (EN : negligible (albedo_s q l) (wphase_s q l) (ncoeffs q) 0 <-> negligible (albedo_s p (fl l)) (wphase_s p (fl l)) (ncoeffs p) 0).
        { unfold negligible. rewrite (ud_ncoeffs _ _ UD), ud_albedo_s by exact Hl. split; intros HH k Hk; specialize (HH k Hk); rewrite ud_wphase in * by (auto; lia); exact HH. }
        intros k Hk. destruct (classic (negligible (albedo_s p (fl l)) (wphase_s p (fl l)) (ncoeffs p) 0)) as [Y|Y].
        - rewrite (proj1 Hc' Y), (proj1 Hc (proj2 EN Y)). reflexivity.
        - rewrite (proj2 Hc' Y), (proj2 Hc) by (rewrite EN; exact Y). rewrite ud_wphase by auto. reflexivity. }
      pose proof (A1 (fl l) (opposite N i) wg' (bottom p - t) Hl' (opp_lt N i Hi) Ht' Hc') as D.
      refine (der_eq _ _ _ _ _ (der_comp (F (opposite N i)) (fun t => bottom p - t) t _ (0 - 1) (der_minus _ _ _ _ _ (der_const (bottom p) t) (der_id t)) D)).
      unfold rte. cbn [Nat.eqb]. rewrite !X_spec_0m, (proj1 (ud_I0 _ _ UD)), (proj2 (ud_I0 _ _ UD)), ud_streams, ud_half, (streams_eq p Vp), (ud_ncoeffs _ _ UD), ud_scl, ud_albedo_s, (ud_albedo _ _ UD), (ud_source _ _ UD) by auto.
      fold N. fold (fl l). rewrite Ho.
      rewrite <- (rsum_opposite N (fun j => wnode N w j * D_spec (albedo_s p (fl l)) wg' (ncoeffs p) 0 (- nth i mu 0) (nth j mu 0) * F j (bottom p - t))).
      rewrite (rsum_ext _ (fun j => wnode N w (opposite N j) * D_spec (albedo_s p (fl l)) wg' (ncoeffs p) 0 (- nth i mu 0) (nth (opposite N j) mu 0) * F (opposite N j) (bottom p - t))
        (fun j => wnode N w j * D_spec (albedo_s p (fl l)) wg (ncoeffs p) 0 (nth i mu 0) (nth j mu 0) * F (opposite N j) (bottom p - t))).
      2:{ intros j Hj. rewrite wnode_opp by exact Hj. rewrite (mu_opp N mu w j Hdg Hj), D_spec_opp. f_equal. f_equal. apply D_spec_lt. exact EW. }
      field. pose proof PI_RGT_0. split; [lra|exact Hz].
    - intros i Hi x Hx eps He. destruct (A2 (opposite N i) (opp_lt N i Hi) (bottom p - x) ltac:(lra) eps He) as (d & Hd & HH). exists d. split; [exact Hd|]. intros y Hy Hyx. apply HH; [lra|].
      replace (bottom p - y - (bottom p - x)) with (- (y - x)) by ring. rewrite Rabs_Ropp. exact Hyx.
    - intros i Hi. rewrite opp_down, Rminus_0_r by exact Hi. cbn [Nat.eqb]. rewrite (A4 i Hi), (proj1 (ud_BDRF _ _ UD)). cbn. ring.
    - intros i Hi. rewrite opp_up, Rminus_eq_0 by exact Hi. cbn [Nat.eqb]. rewrite (A3 i Hi), (proj2 (ud_BDRF _ _ UD)). cbn. ring.
  Qed.
End Flip.

Section Calls.
  Variables (p q : py_in) (lg : leggauss_t) (la la' : linalg) (jk jk' : junk) (out out' : py_out).
  Hypothesis Hla : linalg_ok la.
  Hypothesis Hla' : linalg_ok la'.
  Hypothesis Hlg : leggauss_ok (half p) (lg (half p)).
  Hypothesis Hp : pydisort p lg la jk = Ok out.
  Hypothesis Hq : pydisort q lg la' jk' = Ok out'.

  Theorem call_recip : same_medium p q -> forall w vn vp vn' vp' rho, double_gauss (half p) (po_mu out) w -> boundary_data p vn vp rho -> boundary_data q vn' vp' rho ->
    no_emission p -> no_emission q -> reciprocal_surface p (po_mu out) (rho 0%nat) ->
    exists A B, po_u0 out [0; bottom p] false false false = Ok (PVal (PT A)) /\ po_u0 out' [0; bottom p] false false false = Ok (PVal (PT B)) /\
      shp A = [(2 * half p)%nat; 2%nat] /\ shp B = [(2 * half p)%nat; 2%nat] /\
      rsum (half p) (fun i => w i * nth i (po_mu out) 0 * (elt A [i; 0%nat] * vn' i + elt A [(half p + i)%nat; 1%nat] * vp' i)) =
      rsum (half p) (fun i => w i * nth i (po_mu out) 0 * (elt B [i; 0%nat] * vn i + elt B [(half p + i)%nat; 1%nat] * vp i)).
  Proof.
    intros S w vn vp vn' vp' rho Hw BD BD' NE NE' RS. pose proof (call_valid p lg la jk out Hp) as Vp. pose proof (call_valid q lg la' jk' out' Hq) as Vq.
    pose proof (same_mu p q lg la la' jk jk' out out' Hp Hq (sm_NQuad _ _ S)) as Em. pose proof (sm_half p q S) as Eh.
    assert (Hw' : double_gauss (half q) (po_mu out') w) by (rewrite <- Em, <- Eh; exact Hw).
    assert (Hlg' : leggauss_ok (half q) (lg (half q))) by (rewrite <- Eh; exact Hlg).
    destruct (modes_exist p lg la jk out Hla Hlg Hp) as (U & HU). destruct (modes_exist q lg la' jk' out' Hla' Hlg' Hq) as (U' & HU').
    pose proof (bd_bvp p lg la jk out Hla Hlg Hp w vn vp rho Hw BD U 0%nat HU (seen_0 p Vp)) as B.
    pose proof (bd_bvp q lg la' jk' out' Hla' Hlg' Hq w vn' vp' rho Hw' BD' U' 0%nat HU' (seen_0 q Vq)) as B'. rewrite <- Em in B'.
    pose proof (bvp_recip p q (po_mu out) w vn vp vn' vp' (rho 0%nat) (U 0%nat) (U' 0%nat) Vp Hw S NE NE' RS B B') as E.
    assert (Hb : 0 < bottom p) by (rewrite (bottom_eq p); apply (v_tau p Vp); pose proof (v_ne p Vp); unfold nlayers in *; lia).
    assert (Ht : depths_ok p [0; bottom p]) by (intros t [<-|[<-|[]]]; lra).
    assert (Ht' : depths_ok q [0; bottom p]) by (intros t Hin; rewrite <- (sm_bottom p q S); apply Ht; exact Hin).
    destruct (proj1 HU _ Ht) as (A1 & EA & SA). destruct (proj1 HU' _ Ht') as (B1 & EB & SB). exists A1, B1. split; [exact EA|]. split; [exact EB|].
    pose proof (half_pos p Vp) as HN. rewrite <- (sm_streams p q S) in SB. rewrite (streams_eq p Vp) in SA, SB.
    assert (SQ : forall A f, squeezed A [(2 * half p)%nat; 2%nat] f -> shp A = [(2 * half p)%nat; 2%nat] /\ forall i k, (i < 2 * half p)%nat -> (k < 2)%nat -> elt A [i; k] = f [i; k]).
    { intros A f [S1 E1]. assert (Es : sq_shape [(2 * half p)%nat; 2%nat] = [(2 * half p)%nat; 2%nat]) by (unfold sq_shape; cbn [filter]; destruct (Nat.eqb_spec (2 * half p) 1); [lia|reflexivity]).
      unfold tsqueeze in S1, E1. cbn [shp elt] in S1, E1. rewrite Es in S1. split; [exact S1|]. intros i k Hi Hk. rewrite E1 by (rewrite S1; cbn; tauto). f_equal.
      cbn [unsq]. destruct (Nat.eqb_spec (2 * half p) 1); [lia|reflexivity]. }
    destruct (SQ _ _ SA) as (S1 & V1). destruct (SQ _ _ SB) as (S2 & V2). split; [exact S1|]. split; [exact S2|].
    rewrite (rsum_ext _ (fun i => w i * nth i (po_mu out) 0 * (elt A1 [i; 0%nat] * vn' i + elt A1 [(half p + i)%nat; 1%nat] * vp' i)) (fun i => w i * nth i (po_mu out) 0 * (U 0%nat i 0 * vn' i + U 0%nat (half p + i)%nat (bottom p) * vp' i)))
      by (intros i Hi; rewrite !V1 by lia; reflexivity).
    rewrite E. apply rsum_ext. intros i Hi. rewrite !V2 by lia. reflexivity.
  Qed.

  Theorem call_flip : linalg_unique la' -> upside_down p q -> forall vn vp rho rho', boundary_data p vn vp rho -> boundary_data q vp vn rho' ->
    forall tau, depths_ok q tau -> let tau' := map (fun t => bottom p - t) tau in
    (exists A B f, po_u0 out' tau false false false = Ok (PVal (PT A)) /\ po_u0 out tau' false false false = Ok (PVal (PT B)) /\
       squeezed B [streams p; length tau] f /\ squeezed A [streams p; length tau] (fun idx => f [opposite (half p) (nth 0 idx 0%nat); nth 1 idx 0%nat])) /\
    (exists A B B0, po_flux_up out' tau false false = Ok (PVal (PT A)) /\ po_flux_down out tau' false false = Ok (PTup [PT B; PT B0]) /\ teq A B) /\
    (exists A A0 B, po_flux_down out' tau false false = Ok (PTup [PT A; PT A0]) /\ po_flux_up out tau' false false = Ok (PVal (PT B)) /\ teq A B).
  Proof.
    intros Hlu UD vn vp rho rho' BD BD' tau Ht tau'. pose proof (call_valid p lg la jk out Hp) as Vp. pose proof (call_valid q lg la' jk' out' Hq) as Vq.
    pose proof (same_mu p q lg la la' jk jk' out out' Hp Hq (eq_sym (ud_NQuad _ _ UD))) as Em. pose proof (ud_half p q UD) as Eh. pose proof (ud_streams p q Vq UD) as Es. pose proof (ud_bottom p q Vp UD) as Eb.
    assert (Hlg' : leggauss_ok (half q) (lg (half q))) by (rewrite Eh; exact Hlg).
    destruct (modes_exist p lg la jk out Hla Hlg Hp) as (U & HU). destruct (modes_exist q lg la' jk' out' Hla' Hlg' Hq) as (U' & HU').
    destruct (call_fluxes p lg la jk out Hla Hlg Hp U HU) as (w & D1 & R1 & R1'). destruct (call_fluxes q lg la' jk' out' Hla' Hlg' Hq U' HU') as (w2 & D2 & R2 & R2').
    pose proof D2 as D2'. rewrite <- Em, Eh in D2'. pose proof (dg_weights _ _ _ _ D2' D1) as Ew.
    assert (Hw' : double_gauss (half q) (po_mu out') w) by (rewrite <- Em, Eh; exact D1).
    pose proof (bd_bvp p lg la jk out Hla Hlg Hp w vn vp rho D1 BD U 0%nat HU (seen_0 p Vp)) as B.
    pose proof (bvp_flip p q (po_mu out) w vn vp (rho 0%nat) (rho' 0%nat) (U 0%nat) Vp Vq D1 UD B) as BFl. rewrite Em in BFl.
    assert (HE : forall i t, (i < 2 * half p)%nat -> 0 <= t <= bottom p -> U' 0%nat i t = U 0%nat (opposite (half p) i) (bottom p - t)).
    { intros i t Hi Hti. destruct BD' as [b1 b2 b3 b4].
      symmetry. refine (proj2 (call_only q lg la' jk' out' Hla' Hlu Hlg' Hq U' HU' w Hw' ltac:(tauto) ltac:(tauto) vp vn b1 b2 rho' b3 0%nat (seen_0 q Vq)) _ BFl i t _ _); [rewrite Es; exact Hi|rewrite Eb; exact Hti]. }
    assert (Hin : forall k, (k < length tau)%nat -> 0 <= nth k tau 0 <= bottom p) by (intros k Hk; rewrite <- Eb; apply Ht, nth_In; exact Hk).
    assert (Ht' : depths_ok p tau') by (intros t Hin'; apply in_map_iff in Hin' as (x & <- & Hx); specialize (Ht x Hx); rewrite Eb in Ht; lra).
    assert (Hl : length tau' = length tau) by apply map_length.
    assert (Hnth : forall k, (k < length tau)%nat -> nth k tau' 0 = bottom p - nth k tau 0).
    { intros k Hk. unfold tau'. rewrite (nth_indep _ _ ((fun t => bottom p - t) 0)) by (rewrite map_length; exact Hk). rewrite map_nth. reflexivity. }
    assert (TQ : forall A B s f g, squeezed A s f -> squeezed B s g -> (forall idx, inb s idx -> f idx = g idx) -> teq A B).
    { intros A B' s f g SA SB H. pose proof (squeezed_ext _ _ _ _ SA H) as [X1 X2]. destruct SB as [Y1 Y2]. split; [rewrite X1, Y1; reflexivity|]. intros idx Hi. rewrite X2, Y2; [reflexivity| |exact Hi].
      rewrite Y1. rewrite X1 in Hi. exact Hi. }
    rewrite (streams_eq p Vp). split; [|split].
    - destruct (proj1 HU' tau Ht) as (A & EA & SA). destruct (proj1 HU tau' Ht') as (B1 & EB & SB). exists A, B1. eexists. split; [exact EA|]. split; [exact EB|].
      rewrite Hl, (streams_eq p Vp) in SB. split; [exact SB|]. rewrite Es in SA. refine (squeezed_ext _ _ _ _ SA _). intros idx Hi. apply inb_2 in Hi as (a & b & -> & Ha & Hb). cbn [nth].
      rewrite Hnth by exact Hb. apply HE; [exact Ha|apply Hin; exact Hb].
    - destruct (R2 tau Ht) as (A & EA & SA). destruct (R1' tau' Ht') as (B1 & B0 & EB & SB & _). exists A, B1, B0. split; [exact EA|]. split; [exact EB|].
      rewrite Hl in SB. refine (TQ _ _ _ _ _ SA SB _). intros idx Hi. apply inb_1 in Hi as (a & -> & Ha). cbn [nth]. unfold direct. rewrite (proj1 (ud_I0 _ _ UD)), Eh, Hnth, <- Em by exact Ha.
      transitivity (2 * PI * rsum (half p) (fun i => w i * nth i (po_mu out) 0 * U 0%nat (half p + i)%nat (bottom p - nth a tau 0))); [|ring]. f_equal. apply rsum_ext. intros i Hi.
      rewrite Ew, HE, opp_up by (try exact Hi; try lia; apply Hin; exact Ha). reflexivity.
    - destruct (R2' tau Ht) as (A & A0 & EA & SA & _). destruct (R1 tau' Ht') as (B1 & EB & SB). exists A, A0, B1. split; [exact EA|]. split; [exact EB|].
      rewrite Hl in SB. refine (TQ _ _ _ _ _ SA SB _). intros idx Hi. apply inb_1 in Hi as (a & -> & Ha). cbn [nth]. unfold direct. rewrite (proj2 (ud_I0 _ _ UD)), Eh, Hnth, <- Em by exact Ha.
      transitivity (2 * PI * rsum (half p) (fun i => w2 i * nth i (po_mu out) 0 * U' 0%nat (half p + i)%nat (nth a tau 0))); [ring|]. f_equal. apply rsum_ext. intros i Hi.
      rewrite Ew, HE, opp_down by (try exact Hi; try lia; apply Hin; exact Ha). reflexivity.
  Qed.
End Calls.
