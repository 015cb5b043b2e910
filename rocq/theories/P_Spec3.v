(** The eigenproblems of layers in which absorption dominates scattering have real, positive solutions. *)
From Coq Require Import Classical String Reals Lra Lia List Bool Arith ZArith.
From Verif Require Import Base Tensor Spec M_LinAlg Spec_RTE M_GenPart P_Special P_GenPart P_GenPart2 P_GenPart3 P_GenPart4 P_LinA P_Spec1 P_Spec2
  M_Subroutines M_Assemble M_Pydisort Spec_Sol Spec_Phys Spec_Solved.
Import ListNotations.
Local Open Scope R_scope.

Lemma D_sym om wg n m x y : D_spec om wg n m x y = D_spec om wg n m y x.
Proof. unfold D_spec. f_equal. apply rsum_ext. intros e _. destruct (Nat.leb m e); ring. Qed.

Section GP.
  Variable g : gp_in.
  Let N := gp_N g.
  Let NQ := (2 * gp_N g)%nat.
  Let mu := gp_mu g.
  Hypothesis Hmu : forall i, (i < N)%nat -> 0 < mu i /\ gp_M_inv g i = 1 / mu i.
  Hypothesis HW : forall i, (i < N)%nat -> 0 < gp_W g i.
  Variable la : linalg.
  Hypothesis Hla : linalg_ok la.
  Hypothesis Hlt : linalg_total la.

  (** The two forms of a layer: what radiation that is symmetric ([s = 1]) or antisymmetric ([s = -1])
      about the horizontal loses. *)
  Definition S_form (m l : nat) (s : R) : mat := fun i j => gp_W g i * delta i j - gp_W g i *
    (D_spec (gp_omega g l) (gp_wLeg g l) (gp_NLeg g) m (mu i) (mu j) + s * D_spec (gp_omega g l) (gp_wLeg g l) (gp_NLeg g) m (mu i) (- mu j)) * gp_W g j.

  Lemma S_form_sym m l s : sym N (S_form m l s).
  Proof.
    intros i j Hi Hj. unfold S_form. rewrite (D_sym _ _ _ _ (mu j) (mu i)), (D_sym _ _ _ _ (mu j) (- mu i)), (D_spec_neg _ _ _ _ (mu i) (mu j)).
    destruct (Nat.eq_dec i j) as [->|]; [ring|]. rewrite !delta_ne by auto. ring.
  Qed.
  Section Layer.
    Variables (m l : nat).
    Let K (x y : R) := D_spec (gp_omega g l) (gp_wLeg g l) (gp_NLeg g) m x y.
    Let S (s : R) : mat := S_form m l s.
    Let z : vec := fun i => mu i * gp_W g i.
    Hypothesis Hpd : forall s, s = 1 \/ s = -1 -> pd N (S s).
    Lemma z_pos i : (i < N)%nat -> 0 < z i.
    Proof. intros Hi. apply Rmult_lt_0_compat; [apply Hmu|apply HW]; auto. Qed.
    Lemma ab_S s i j : (i < N)%nat -> (j < N)%nat -> alpha g m l i j + s * beta g m l i j = - (S s i j / z i).
    Proof.
      intros Hi Hj. unfold alpha, beta. rewrite D_pos_eq, D_neg_eq. fold mu. destruct (Hmu i Hi) as [Hp ->]. pose proof (HW i Hi) as Hw.
      unfold S, S_form, z. field. lra.
    Qed.

    Let AA : mat := fun i j => rsum N (fun p => S (-1) i p / z i * (S 1 p j / z p)).
    Lemma eig_arg : rows N N (mmul N (fun i j => cA g m l (N + i)%nat (N + j)%nat - cA g m l (N + i)%nat j) (fun i j => cA g m l (N + i)%nat (N + j)%nat + cA g m l (N + i)%nat j)) = rows N N AA.
    Proof.
      apply rows_ext. intros i j Hi Hj. unfold mmul, AA. apply rsum_ext. intros p Hp.
      change (N + i)%nat with (gp_N g + i)%nat. change (N + p)%nat with (gp_N g + p)%nat. change (N + j)%nat with (gp_N g + j)%nat.
      rewrite !cA_hi, !cA_lo by auto.
      pose proof (ab_S (-1) i p Hi Hp) as E1. pose proof (ab_S 1 p j Hp Hj) as E2.
      replace (alpha g m l i p - beta g m l i p) with (- (S (-1) i p / z i)) by (rewrite <- E1; ring).
      replace (alpha g m l p j + beta g m l p j) with (- (S 1 p j / z p)) by (rewrite <- E2; ring). ring.
    Qed.
    Lemma gp_eig_ok : exists e, gp_eig g la (cA g m l) = Ok e /\ inj N (snd e).
    Proof.
      destruct (product_basis N z (S 1) (S (-1)) z_pos (Hpd 1 ltac:(auto)) (Hpd (-1) ltac:(auto))) as (lam & E & HE & HA).
      destruct (eig_total la Hlt N AA lam E HE HA) as (k2 & E' & El & HE').
      pose proof (eig_ok la Hla N AA k2 E' El) as Heig.
      unfold gp_eig. fold N. rewrite eig_arg, El. cbn [ofopt bind].
      replace (forallb (fun j => Rltb 0 (of_list k2 j)) (seq 0 N)) with true; [eauto|].
      symmetry. apply forallb_forall. intros j Hj. apply in_seq in Hj. apply Rltb_iff.
      refine (product_pos N z (S 1) (S (-1)) z_pos (Hpd 1 ltac:(auto)) (Hpd (-1) ltac:(auto)) _ (fun i => of_rows E' i j) (col_nz N _ j HE' ltac:(lia)) _).
      intros i Hi. apply Heig; auto; lia.
    Qed.

    (** The eigenvectors are independent. *)
    Lemma block_inj e : gp_eig g la (cA g m l) = Ok e -> inj N (snd e) -> inj NQ (blockG g (gp_P g (cA g m l) e) (gp_Q g (cA g m l) e)).
    Proof.
      intros He HE v Hv.
      assert (Hkp : forall j, (j < N)%nat -> 0 < fst e j) by (destruct (gp_eig_alg g la Hla _ _ He) as [H _]; exact H).
      set (u := fun i => v i). set (d := fun i => v (N + i)%nat).
      set (apb := fun i j => cA g m l (N + i)%nat (N + j)%nat + cA g m l (N + i)%nat j).
      set (F := fun i j => mmul N apb (fun p q => snd e p q / 2 / fst e q) i j).
      assert (EP : forall i j, gp_P g (cA g m l) e i j = snd e i j / 2 + F i j) by reflexivity.
      assert (EQ : forall i j, gp_Q g (cA g m l) e i j = snd e i j / 2 - F i j) by reflexivity.
      assert (H1 : forall i, (i < N)%nat -> rsum N (fun j => gp_P g (cA g m l) e i j * u j + gp_Q g (cA g m l) e i j * d j) = 0).
      { intros i Hi. rewrite <- (Hv i) by (unfold NQ, N in *; lia). rewrite (rsum_NQ g). apply rsum_ext. intros j Hj. fold N.
        change (N + j)%nat with (gp_N g + j)%nat. rewrite blockG_ll, blockG_lh by auto. reflexivity. }
      assert (H2 : forall i, (i < N)%nat -> rsum N (fun j => gp_Q g (cA g m l) e i j * u j + gp_P g (cA g m l) e i j * d j) = 0).
      { intros i Hi. rewrite <- (Hv (N + i)%nat) by (unfold NQ, N in *; lia). rewrite (rsum_NQ g). apply rsum_ext. intros j Hj. fold N.
        change (N + j)%nat with (gp_N g + j)%nat. change (N + i)%nat with (gp_N g + i)%nat. rewrite blockG_hl, blockG_hh by auto. reflexivity. }
      assert (Sum : forall j, (j < N)%nat -> u j + d j = 0).
      { apply HE. intros i Hi. rewrite <- (Rplus_0_r 0). rewrite <- (H1 i Hi) at 1. rewrite <- (H2 i Hi) at 1. rewrite <- rsum_plus. apply rsum_ext.
        intros j Hj. rewrite EP, EQ. field. }
      assert (Dif : forall j, (j < N)%nat -> (u j - d j) / fst e j = 0).
      { apply HE. intros i Hi.
        assert (Z : forall a, (a < N)%nat -> rsum N (fun p => apb a p * rsum N (fun j => snd e p j * ((u j - d j) / fst e j))) = 0).
        { intros a Ha. transitivity (rsum N (fun j => 2 * (F a j * (u j - d j)))).
          - rewrite (rsum_ext N (fun p => apb a p * _) (fun p => rsum N (fun j => apb a p * (snd e p j * ((u j - d j) / fst e j))))) by (intros; rewrite rsum_scal; reflexivity).
            rewrite rsum_swap. apply rsum_ext. intros j Hj. unfold F, mmul. rewrite <- rsum_scal_r, <- rsum_scal. apply rsum_ext. intros p Hp. specialize (Hkp j Hj). field. lra.
          - rewrite <- (Rminus_diag_eq 0 0) by reflexivity. rewrite <- (H1 a Ha) at 1. rewrite <- (H2 a Ha) at 1. rewrite <- rsum_minus. apply rsum_ext. intros j Hj. rewrite EP, EQ. ring. }
        refine (pd_inj N (S 1) (Hpd 1 ltac:(auto)) (fun p => rsum N (fun j => snd e p j * ((u j - d j) / fst e j))) _ i Hi).
        intros a Ha. apply (Rmult_eq_reg_r (- / z a)); [|apply Ropp_neq_0_compat, Rinv_neq_0_compat; pose proof (z_pos a Ha); lra].
        rewrite Rmult_0_l, <- rsum_scal_r, <- (Z a Ha). apply rsum_ext. intros p Hp.
        replace (apb a p) with (- (S 1 a p / z a)); [unfold Rdiv; ring|]. unfold apb.
        change (N + a)%nat with (gp_N g + a)%nat. change (N + p)%nat with (gp_N g + p)%nat. rewrite cA_hi, cA_lo by auto. rewrite <- (ab_S 1 a p) by auto. ring. }
      assert (Z : forall j, (j < N)%nat -> u j = 0 /\ d j = 0).
      { intros j Hj. specialize (Sum j Hj). specialize (Dif j Hj). specialize (Hkp j Hj).
        assert (u j - d j = 0); [|lra]. apply (Rmult_eq_reg_r (/ fst e j)); [unfold Rdiv in Dif; rewrite Dif; ring|apply Rinv_neq_0_compat; lra]. }
      intros j Hj. destruct (lt_cases g j Hj) as [Hj'|(j' & Hj' & ->)]; apply Z; auto.
    Qed.

    (** No resonance with the beam. *)
    Hypothesis Hres : gp_beam g = true -> forall v, (forall i, (i < NQ)%nat -> rsum NQ (fun j => Af g m l (gp_wLeg g l) i j * v j) + v i * (1 / gp_mu0 g) = 0) ->
      forall i, (i < NQ)%nat -> v i = 0.

    Lemma layer_good : exists e, gp_eig g la (cA g m l) = Ok e /\
      (gp_iso g = true -> m = 0%nat ->
         (exists L, la_inv la (rows NQ NQ (blockG g (gp_P g (cA g m l) e) (gp_Q g (cA g m l) e))) = Some L) /\
         (gp_beam g = true -> forall j, (j < N)%nat -> 1 / gp_mu0 g - fst e j <> 0 /\ 1 / gp_mu0 g + fst e j <> 0)) /\
      (linalg_complete la -> gp_beam g = true -> ~ (gp_iso g = true /\ m = 0%nat) ->
         exists x, la_solve la (rows NQ NQ (A_full g (cA g m l))) (vlist NQ (cX g m l)) = Some x).
    Proof.
      destruct gp_eig_ok as (e & He & HE). exists e. split; [exact He|]. pose proof (block_inj e He HE) as HG. split.
      - intros _ _. split; [apply (inv_total la Hlt NQ _ HG)|].
        assert (Col : forall q, (q < NQ)%nat -> gp_beam g = true -> 1 / gp_mu0 g + (if Nat.ltb q N then - fst e q else fst e (q - N)%nat) <> 0).
        { intros q Hq Hb E. destruct (col_nz NQ _ q HG Hq) as (i & Hi & Hne). apply Hne.
          refine (Hres Hb (fun i => blockG g (gp_P g (cA g m l) e) (gp_Q g (cA g m l) e) i q) _ i Hi).
          intros a Ha. pose proof (AG_alg g Hmu la Hla m l e He a q Ha Hq) as EA. cbv zeta in EA. fold NQ N in EA. rewrite EA. rewrite <- Rmult_plus_distr_l.
          replace ((if Nat.ltb q N then - fst e q else fst e (q - N)%nat) + 1 / gp_mu0 g) with 0 by lra. ring. }
        intros Hb j Hj. split.
        + pose proof (Col j ltac:(unfold NQ, N in *; lia) Hb) as C. rewrite (proj2 (Nat.ltb_lt j N)) in C by auto. intros E. apply C. lra.
        + pose proof (Col (N + j)%nat ltac:(unfold NQ, N in *; lia) Hb) as C. rewrite (proj2 (Nat.ltb_ge (N + j) N)) in C by lia.
          replace (N + j - N)%nat with j in C by lia. exact C.
      - intros Hc Hb _.
        assert (HI : inj NQ (A_full g (cA g m l))).
        { intros v Hv. apply (Hres Hb). intros i Hi. rewrite <- (Hv i Hi).
          rewrite (rsum_ext NQ (fun j => A_full g (cA g m l) i j * v j) (fun j => Af g m l (gp_wLeg g l) i j * v j + delta i j * (v j * (1 / gp_mu0 g)))).
          - rewrite rsum_plus, rsum_delta_l by auto. reflexivity.
          - intros j Hj. rewrite (A_full_eq g Hmu m l i j) by auto. ring. }
        destruct (inj_surj NQ _ HI (cX g m l)) as (y & Hy).
        apply (solve_complete la Hc NQ (A_full g (cA g m l)) (cX g m l) y Hy).
        intros x Hx i Hi. apply Rminus_diag_uniq. apply (HI (fun i => x i - y i)); auto. intros a Ha.
        rewrite (rsum_ext NQ _ (fun j => A_full g (cA g m l) a j * x j - A_full g (cA g m l) a j * y j)) by (intros; ring).
        rewrite rsum_minus, Hx, Hy by auto. ring.
    Qed.
  End Layer.

  Lemma trivial_inj : inj NQ (G_trivial g).
  Proof.
    intros v Hv j Hj. destruct (lt_cases g j Hj) as [Hj'|(j' & Hj' & ->)].
    - rewrite <- (Hv (N + j)%nat) by (unfold NQ, N in *; lia). symmetry.
      rewrite (rsum_ext NQ _ (fun q => delta j q * v q)); [apply rsum_delta_l; auto|]. intros q Hq. rewrite G_trivial_spec by (unfold NQ, N in *; auto; lia).
      fold N. rewrite (proj2 (Nat.ltb_ge (N + j) N)) by lia. replace (N + j - N)%nat with j by lia. reflexivity.
    - rewrite <- (Hv j') by (unfold NQ, N in *; lia). symmetry.
      rewrite (rsum_ext NQ _ (fun q => delta (gp_N g + j')%nat q * v q)); [apply rsum_delta_l; auto|]. intros q Hq. rewrite G_trivial_spec by (unfold NQ, N in *; auto; lia).
      rewrite (proj2 (Nat.ltb_lt j' (gp_N g))) by auto. reflexivity.
  Qed.

  Section Call.
    Hypothesis Hpd : forall m l s, (m < gp_NFourier g)%nat -> (l < gp_NLayers g)%nat -> scatters g m l = true -> s = 1 \/ s = -1 -> pd N (S_form m l s).

    Lemma out_inj jG jK jA jX jGi o : gen_and_part_sols g la jG jK jA jX jGi = Ok o ->
      forall m l, (m < gp_NFourier g)%nat -> (l < gp_NLayers g)%nat -> inj NQ (o_G o m l).
    Proof.
      intros Ho m l Hm Hl. pose proof (out_char g la _ _ _ _ _ o Ho m l Hm Hl) as C. destruct (scatters g m l) eqn:Hs.
      - destruct C as (e & He & HG & _). destruct (gp_eig_ok m l (fun s => Hpd m l s Hm Hl Hs)) as (e' & He' & HE).
        assert (e' = e) by congruence. subst e'. pose proof (block_inj m l (fun s => Hpd m l s Hm Hl Hs) e He HE) as HI.
        intros v Hv. apply HI. intros i Hi. rewrite <- (Hv i Hi). apply rsum_ext. intros j Hj. rewrite HG by auto. reflexivity.
      - destruct C as (HG & _). rewrite HG. apply trivial_inj.
    Qed.
    Theorem gp_solved : linalg_complete la ->
      (gp_beam g = true -> forall m l, (m < gp_NFourier g)%nat -> (l < gp_NLayers g)%nat -> scatters g m l = true ->
         forall v, (forall i, (i < NQ)%nat -> rsum NQ (fun j => Af g m l (gp_wLeg g l) i j * v j) + v i * (1 / gp_mu0 g) = 0) -> forall i, (i < NQ)%nat -> v i = 0) ->
      gp_good g la.
    Proof.
      intros Hc Hres m l Hm Hl Hs.
      destruct (layer_good m l (fun s => Hpd m l s Hm Hl Hs) (fun Hb => Hres Hb m l Hm Hl Hs)) as (e & H1 & H2 & H3).
      exists e. auto.
    Qed.
  End Call.
End GP.
