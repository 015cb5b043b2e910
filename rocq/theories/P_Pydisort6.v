(** Whole-call statements: rejected depths, fluxes, azimuth, energy. *)
From Coq Require Import String Reals Lra Lia List Bool Arith ZArith.
From Coquelicot Require Import Coquelicot.
From Verif Require Import Base Tensor Spec M_LinAlg Spec_RTE Calc M_Subroutines M_GenPart M_MathscrV M_Coeffs M_Assemble M_Pydisort
  P_Sub P_GenPart3 P_Tensor P_Coeffs2 P_Coeffs3 P_Assemble P_Solve Spec_Sol P_Valid P_Pydisort P_Pydisort2 P_Pydisort3 P_Pydisort4 P_Pydisort5 P_Fourier P_Energy.
Import ListNotations.
Local Open Scope R_scope.

Section Call.
  Variables (p : py_in) (lg : leggauss_t) (la : linalg) (jk : junk) (out : py_out).
  Hypothesis Hla : linalg_ok la.
  Hypothesis Hlg : leggauss_ok (half p) (lg (half p)).
  Hypothesis Hok : pydisort p lg la jk = Ok out.
  Let V : valid p := call_valid p lg la jk out Hok.

  Theorem call_reject tau anti rt :
    (forall act, po_u0 out tau anti rt act = Err (EValue tau_msg) <-> ~ depths_ok p tau) /\
    (po_flux_up out tau anti rt = Err (EValue tau_msg) <-> ~ depths_ok p tau) /\
    (po_flux_down out tau anti rt = Err (EValue tau_msg) <-> ~ depths_ok p tau) /\
    (forall u phi e, po_u out = Some u -> (u tau phi anti e rt = Err (EValue tau_msg) <-> ~ depths_ok p tau)).
  Proof.
    destruct (pydisort_parts _ _ _ _ _ Hok) as (_ & ss & r & sv & Hss & Hr & Hsv & Emu & Eup & Edn & Eu0 & Eu).
    split; [|split; [|split]].
    - intros act. rewrite Eu0. apply (reject_u0 (assemble_args p lg r ss) sv tau anti rt act).
    - rewrite Eup. apply (reject_up (assemble_args p lg r ss) sv tau anti rt).
    - rewrite Edn. apply (reject_down (assemble_args p lg r ss) sv tau anti rt).
    - intros u phi e Hu. rewrite Eu in Hu. destruct (p_only_flux p); [discriminate|]. injection Hu as <-. destruct (NT_active p).
      + apply (reject_uc (assemble_args p lg r ss) sv p lg tau phi anti e rt).
      + apply (reject_u (assemble_args p lg r ss) sv tau phi anti e rt false).
  Qed.

  Section Modes.
    Variable U : nat -> nat -> R -> R.
    Hypothesis HU : modes_of p out U.

    Theorem call_fluxes : exists w, double_gauss (half p) (po_mu out) w /\
      reports p (po_flux_up out) (fun t => 2 * PI * rsum (half p) (fun i => w i * nth i (po_mu out) 0 * U 0%nat i t)) /\
      reports_down p (po_flux_down out)
        (fun t => 2 * PI * rsum (half p) (fun i => w i * nth i (po_mu out) 0 * U 0%nat (half p + i)%nat t)
                  + p_mu0 p * p_I0 p * exp (- sdepth p t / p_mu0 p) - direct p t)
        (direct p).
    Proof.
      destruct (solution_exists p lg la jk out Hla Hlg Hok) as (w & W & F & Hw & HW & _ & _ & _ & _ & Hup & Hdn). exists w. split; [exact Hw|].
      assert (E : forall i t, (i < streams p)%nat -> 0 <= t <= bottom p -> W 0%nat i t = U 0%nat i t).
      { intros i t Hi Ht. apply (modes_unique p lg la jk out Hok W U HW HU); auto. apply nmodes_pos; auto. }
      rewrite (streams_eq p V) in E. split.
      - intros tau Ht. destruct (Hup tau Ht) as (A & EA & SA). exists A. split; [exact EA|]. refine (squeezed_ext _ _ _ _ SA _).
        intros idx Hi. apply inb_1 in Hi as (k & -> & Hk). cbn [nth]. f_equal. apply rsum_ext. intros i Hi. rewrite E; [reflexivity|lia|apply Ht, nth_In; auto].
      - intros tau Ht. destruct (Hdn tau Ht) as (A & B & EA & SA & SB & SB'). exists A, B. split; [exact EA|]. split; [|auto].
        refine (squeezed_ext _ _ _ _ (SA (lay p) _) _).
        + intros t Hin. apply lay_at; auto.
        + intros idx Hi. apply inb_1 in Hi as (k & -> & Hk). cbn [nth]. f_equal. f_equal. f_equal. apply rsum_ext. intros i Hi.
          rewrite E; [reflexivity|lia|apply Ht, nth_In; auto].
    Qed.

    (** Azimuth. *)
    Theorem call_azimuth u : po_u out = Some u -> ~ nt_applies p -> exists g : R -> nat -> R -> R,
      (forall tau phi, depths_ok p tau -> exists A, u tau phi false false false = Ok (PVal (PT A)) /\
         squeezed A [streams p; length tau; length phi] (fun idx =>
           g (nth (nth 1 idx 0%nat) tau 0) (nth 0 idx 0%nat) (nth (nth 2 idx 0%nat) phi 0))) /\
      (forall t i x, g t i (x + 2 * PI) = g t i x) /\
      (forall t i x, g t i (p_phi0 p + x) = g t i (p_phi0 p - x)) /\
      (forall t i, is_RInt (g t i) 0 (2 * PI) (2 * PI * U 0%nat i t)).
    Proof.
      intros Hu HN. exists (fun t i x => rsum (nmodes p) (fun m => U m i t * cos (INR m * (p_phi0 p - x)))).
      destruct HU as [_ H1]. split; [intros tau phi Ht; apply (H1 u Hu HN tau phi Ht)|]. split; [|split].
      - intros t i x. apply rsum_ext. intros m Hm. replace (p_phi0 p - (x + 2 * PI)) with (p_phi0 p - x - 2 * PI) by ring. rewrite cos_shift. reflexivity.
      - intros t i x. apply rsum_ext. intros m Hm. f_equal. rewrite <- cos_neg. f_equal. ring.
      - intros t i. pose proof (series_coeff (nmodes p) (fun m => U m i t) (p_phi0 p) 0 (nmodes_pos p V)) as H. cbn [Nat.eqb] in H.
        rewrite (Rmult_comm (2 * PI)). eapply (is_RInt_ext (V:=R_NormedModule)); [|exact H]. intros x _. simpl. rewrite Rmult_0_l, cos_0. ring.
    Qed.

    (** Net flux. *)
    Theorem call_energy : exists w up dn, double_gauss (half p) (po_mu out) w /\
      reports p (po_flux_up out) up /\ reports_down p (po_flux_down out) dn (direct p) /\
      forall l t, (l < nlayers p)%nat -> top_of p l < t < bot_of p l -> (albedo_s p l = 0 \/ 2 / 100000000 < albedo_s p l) ->
        is_derive (fun x => up x - (dn x + direct p x)) t
          ((1 - albedo p l) * (2 * PI * rsum (streams p) (fun i => wnode (half p) w i * U 0%nat i t)
                               + p_I0 p * exp (- sdepth p t / p_mu0 p) - 4 * PI * source p l t)).
    Proof.
      destruct (solution_exists p lg la jk out Hla Hlg Hok) as (w & W & F & Hw & HW & HF & HO & _ & _ & Hup & Hdn).
      pose proof Hw as (Hlen & Hn & _ & Hex). pose proof (half_pos p V) as HN.
      set (N := half p) in *. set (mu := po_mu out) in *.
      assert (Hneg : forall i, (i < N)%nat -> nth (N + i) mu 0 = - nth i mu 0) by (intros i Hi; apply Hn; auto).
      assert (E : forall i t, (i < 2 * N)%nat -> 0 <= t <= bottom p -> W 0%nat i t = U 0%nat i t).
      { intros i t Hi Ht. apply (modes_unique p lg la jk out Hok W U HW HU); auto; [apply nmodes_pos; auto|]. rewrite (streams_eq p V). exact Hi. }
      exists w, (fun t => 2 * PI * rsum N (fun i => w i * nth i mu 0 * W 0%nat i t)),
             (fun t => 2 * PI * rsum N (fun i => w i * nth i mu 0 * W 0%nat (N + i)%nat t) + p_mu0 p * p_I0 p * exp (- sdepth p t / p_mu0 p) - direct p t).
      split; [exact Hw|]. split; [exact Hup|]. split.
      { intros tau Ht. destruct (Hdn tau Ht) as (A & B & EA & SA & SB & SB'). exists A, B. split; [exact EA|]. split; [|auto].
        apply (SA (lay p)). intros t Hin. apply lay_at; auto. }
      intros l t Hl Ht Hom.
      assert (Hop : forall y, top_of p l < y < bot_of p l -> sdepth p y = depth_s p l y) by (intros y Hy; apply sdepth_closed; auto; lra).
      destruct (cutoff_ex (albedo_s p l) (wphase_s p l) (ncoeffs p) 0) as (wg & Hwg).
      pose proof (v_leg p V) as HL1. pose proof (v_nlq p V) as HL2.
      assert (Hnc : (1 <= ncoeffs p <= 2 * N)%nat).
      { unfold N. rewrite <- (streams_eq p V). unfold ncoeffs, streams. fold (NLegZ p). lia. }
      assert (Hw0 : albedo_s p l * wg 0%nat = albedo_s p l).
      { destruct Hom as [E0|E0]; [rewrite E0; ring|]. destruct Hwg as [_ H2]. rewrite H2.
        - unfold wphase_s, phase_s, phase. cbn [Nat.eqb]. assert (fwd p l <> 1).
          { intros E1. unfold albedo_s in E0. rewrite E1 in E0. unfold Rdiv in E0. lra. }
          simpl INR. field. lra.
        - intros Hneg'. specialize (Hneg' 0%nat ltac:(lia)). apply Rabs_le_between in Hneg'. revert Hneg'.
          unfold wphase_s, phase_s, phase. cbn [Nat.eqb]. assert (fwd p l <> 1).
          { intros E1. unfold albedo_s in E0. rewrite E1 in E0. unfold Rdiv in E0. lra. }
          replace ((1 - fwd p l) / (1 - fwd p l)) with 1 by (field; lra). simpl INR. lra. }
      set (net := fun x => 2 * PI * rsum (2 * N) (fun i => wnode N w i * (nth i mu 0 * F 0%nat l i x)) - p_mu0 p * p_I0 p * exp (- depth_s p l x / p_mu0 p)).
      assert (Hnet : forall y, top_of p l < y < bot_of p l ->
        net y = 2 * PI * rsum N (fun i => w i * nth i mu 0 * W 0%nat i y) - ((2 * PI * rsum N (fun i => w i * nth i mu 0 * W 0%nat (N + i)%nat y) + p_mu0 p * p_I0 p * exp (- sdepth p y / p_mu0 p) - direct p y) + direct p y)).
      { intros y Hy. unfold net. rewrite Hop by auto. replace (2 * N)%nat with (N + N)%nat by lia. rewrite rsum_split.
        rewrite (rsum_ext N (fun i => wnode N w i * (nth i mu 0 * F 0%nat l i y)) (fun i => w i * nth i mu 0 * W 0%nat i y)).
        2:{ intros i Hi. unfold wnode. rewrite (proj2 (Nat.ltb_lt i N)) by auto. rewrite (HF 0%nat l i y (nmodes_pos p V) Hl); [ring|rewrite (streams_eq p V); fold N; lia|lra]. }
        rewrite (rsum_ext N (fun i => wnode N w (N + i)%nat * (nth (N + i) mu 0 * F 0%nat l (N + i)%nat y)) (fun i => - (w i * nth i mu 0 * W 0%nat (N + i)%nat y))).
        2:{ intros i Hi. unfold wnode. rewrite (proj2 (Nat.ltb_ge (N + i) N)) by lia. replace (N + i - N)%nat with i by lia. rewrite Hneg by auto.
            rewrite (HF 0%nat l (N + i)%nat y (nmodes_pos p V) Hl); [ring|rewrite (streams_eq p V); fold N; lia|lra]. }
        rewrite rsum_opp. ring. }
      apply (der_ext_loc net _ t _ (top_of p l) (bot_of p l)); [exact Ht|exact Hnet|].
      assert (Hnu : forall i, (i < 2 * N)%nat -> nth i mu 0 <> 0).
      { intros i Hi. destruct (Nat.lt_ge_cases i N) as [H|H]; [pose proof (Hn i H); lra|].
        replace i with (N + (i - N))%nat by lia. rewrite Hneg by lia. pose proof (Hn (i - N)%nat ltac:(lia)). lra. }
      assert (Hder : is_derive net t (2 * PI * rsum (2 * N) (fun i => wnode N w i * (nth i mu 0 * (rte p mu w wg 0 l i t (fun j => F 0%nat l j t) / nth i mu 0)))
                 - p_mu0 p * p_I0 p * ((- scl p l / p_mu0 p) * exp (- depth_s p l t / p_mu0 p)))).
      { unfold net. apply der_minus.
        - apply der_scal. apply der_sum. intros i Hi. apply der_scal, der_scal. apply (HO 0%nat l i wg t (nmodes_pos p V) Hl); [rewrite (streams_eq p V); exact Hi|exact Hwg].
        - apply der_scal. apply (der_exp (fun x => - depth_s p l x / p_mu0 p)). apply der_div, der_opp, depth_s_der. }
      refine (der_eq _ _ _ _ _ Hder). clear Hder.
      rewrite (rsum_ext (2 * N) _ (fun i => wnode N w i * rte p mu w wg 0 l i t (fun j => F 0%nat l j t))).
      2:{ intros i Hi. field. apply Hnu; auto. }
      unfold rte. cbn [Nat.eqb]. rewrite (streams_eq p V). fold N. rewrite Hop by auto.
      set (S0 := rsum (2 * N) (fun i => wnode N w i * F 0%nat l i t)). set (e := exp (- depth_s p l t / p_mu0 p)).
      assert (ES : rsum (2 * N) (fun i => wnode N w i * U 0%nat i t) = S0).
      { apply rsum_ext. intros i Hi. rewrite <- (E i t Hi). 2:{ apply (layer_in_range p lg la jk out Hlg Hok l); auto; lra. }
        rewrite (HF 0%nat l i t (nmodes_pos p V) Hl); [reflexivity|rewrite (streams_eq p V); exact Hi|lra]. }
      rewrite ES.
      assert (ED : rsum (2 * N) (fun i => wnode N w i * rsum (2 * N) (fun j => wnode N w j * D_spec (albedo_s p l) wg (ncoeffs p) 0 (nth i mu 0) (nth j mu 0) * F 0%nat l j t)) = albedo_s p l * S0).
      { rewrite (rsum_ext (2 * N) _ (fun i => rsum (2 * N) (fun j => (wnode N w i * D_spec (albedo_s p l) wg (ncoeffs p) 0 (nth i mu 0) (nth j mu 0)) * (wnode N w j * F 0%nat l j t)))).
        2:{ intros i Hi. rewrite <- rsum_scal. apply rsum_ext. intros j Hj. ring. }
        rewrite rsum_swap. unfold S0. rewrite <- rsum_scal. apply rsum_ext. intros j Hj. rewrite rsum_scal_r.
        rewrite (D_sum N mu w HN Hlen Hneg Hex) by auto. rewrite Hw0. ring. }
      assert (EX : rsum (2 * N) (fun i => wnode N w i * (X_spec (p_I0 p / (4 * PI)) (albedo_s p l) wg (ncoeffs p) 0 (p_mu0 p) (nth i mu 0) * e)) = p_I0 p / (2 * PI) * albedo_s p l * e).
      { rewrite (rsum_ext (2 * N) _ (fun i => (wnode N w i * X_spec (p_I0 p / (4 * PI)) (albedo_s p l) wg (ncoeffs p) 0 (p_mu0 p) (nth i mu 0)) * e)) by (intros i Hi; ring).
        rewrite rsum_scal_r, (X_sum N mu w HN Hlen Hneg Hex) by auto. rewrite (Rmult_assoc _ (albedo_s p l) (wg 0%nat)), Hw0. pose proof PI_RGT_0. field. lra. }
      rewrite (rsum_ext (2 * N) _ (fun i => scl p l * (wnode N w i * F 0%nat l i t
          - wnode N w i * rsum (2 * N) (fun j => wnode N w j * D_spec (albedo_s p l) wg (ncoeffs p) 0 (nth i mu 0) (nth j mu 0) * F 0%nat l j t)
          - wnode N w i * (X_spec (p_I0 p / (4 * PI)) (albedo_s p l) wg (ncoeffs p) 0 (p_mu0 p) (nth i mu 0) * e))
          - wnode N w i * ((1 - albedo p l) * source p l t))).
      2:{ intros i Hi. unfold e. ring. }
      rewrite rsum_minus, rsum_scal, !rsum_minus, ED, EX, rsum_scal_r. fold S0.
      pose proof (one_sum N mu w HN Hlen Hneg Hex) as E1. change (rsum (2 * N) (wnode N w) = 2) in E1. rewrite E1.
      assert (Hs : scl p l * (1 - albedo_s p l) = 1 - albedo p l).
      { pose proof (scl_pos p V l Hl). unfold albedo_s. field_simplify; [|lra]. unfold scl. ring. }
      pose proof PI_RGT_0 as HP.
      assert (Hb : p_mu0 p * p_I0 p * (- scl p l / p_mu0 p * e) = - (scl p l * p_I0 p * e)).
      { pose proof (v_I0 p V) as [H0|H0]; [pose proof (v_mu0 p V H0); field; lra|]. rewrite <- H0. ring. }
      rewrite Hb. rewrite <- Hs. field. lra.
    Qed.
  End Modes.
End Call.
