(** The exact radiation field: one step of the iteration, and how much it brings two fields together. *)
From Coq Require Import String Reals Lra Lia List Bool Arith ZArith.
From Coquelicot Require Import Coquelicot.
From Verif Require Import Base Tensor Spec M_LinAlg Spec_RTE Calc M_Subroutines M_GenPart M_MathscrV M_Coeffs M_Assemble M_Pydisort
  Spec_Sol Spec_Valid Spec_Calls Spec_Unique Spec_Phys Spec_Mono Spec_Depend Spec_Exact P_Special P_Addition P_Quad P_Fourier P_Sub P_Solve P_Energy P_Pydisort P_Pydisort2 P_Pydisort3 P_Pydisort4 P_Pydisort5 P_Pydisort6 P_Pydisort8 P_Teq P_NT P_NT3 P_Unique2 P_Refine P_Max P_Max2 P_Max3 P_Max4 P_Mono P_Sym P_Depend P_Depend2 P_Gauss P_Conv P_Conv2 P_Conv3 P_Exist P_Exist2 P_Exist3 P_Full2 P_Exist4 P_Exist5.
Import ListNotations.
Local Open Scope R_scope.

Lemma K_nonneg p : valid p -> scattering_kept p -> (forall l x y, (l < nlayers p)%nat -> -1 <= x <= 1 -> -1 <= y <= 1 -> 0 <= phase_mode p 0 l x y) ->
  forall l x y, (l < nlayers p)%nat -> -1 <= x <= 1 -> -1 <= y <= 1 -> 0 <= scatters p l x y.
Proof.
  intros V Kp Hph l x y Hl Hx Hy. destruct (cutoff_ex (albedo_s p l) (wphase_s p l) (ncoeffs p) 0) as (wg & Hc). change (0 <= skernel p l x y). rewrite <- (skernel_D p V l wg x y Hl Kp Hc).
  apply Rmult_le_pos; [apply Rlt_le, (scl_pos p V l Hl)|]. destruct (Classical_Prop.classic (negligible (albedo_s p l) (wphase_s p l) (ncoeffs p) 0)) as [N|N].
  - unfold D_spec. rewrite rsum_0; [lra|]. intros k _. rewrite (proj1 Hc N). destruct (Nat.leb 0 k); ring.
  - rewrite (D_spec_lt _ wg (wphase_s p l)) by (intros; apply (proj2 Hc N)). rewrite D_spec_mode. apply Rmult_le_pos; [|apply Hph; auto]. pose proof (albedo_s_range p V l Hl). lra.
Qed.

Lemma RInt_ext1' (f g : R -> R) : (forall x : R, f x = g x) -> RInt f 0 1 = RInt g 0 1.
Proof. intros H. apply RInt_ext. intros x _. apply H. Qed.

Section Step.
  Variables (p : py_in) (V : valid p) (bn bp : R -> R) (rho : R -> R -> R).
  Notation NL := (nlayers p).
  Notation T := (bottom p).
  Notation K := (scatters p).
  Hypothesis Kp : forall l x y, (l < NL)%nat -> -1 <= x <= 1 -> -1 <= y <= 1 -> 0 <= K l x y.
  Hypothesis Cn : ucont1 bn.
  Hypothesis Cp : ucont1 bp.
  Hypothesis Cr : ucont2 rho.
  Hypothesis Hrho : forall x y, 0 <= x <= 1 -> 0 <= y <= 1 -> 0 <= rho x y.
  Variables (r nu Q Lb M : R).
  Hypothesis Hr : forall x, 0 < x <= 1 -> 2 * RInt (fun y => rho x y * y) 0 1 <= r.
  Hypothesis Hr0 : 0 <= r.
  Hypothesis Hnu : 0 < nu /\ forall l, (l < NL)%nat -> nu <= 1 - albedo p l.
  Definition glow (l : nat) (x t : R) : R := beam p l x t + (1 - albedo p l) * source p l t.
  Hypothesis HQ : forall l x t, (l < NL)%nat -> -1 <= x <= 1 -> top_of p l <= t <= bot_of p l -> Rabs (glow l x t) <= Q.
  Hypothesis HL : 0 <= Lb /\ forall l x x' t, (l < NL)%nat -> -1 <= x <= 1 -> -1 <= x' <= 1 -> top_of p l <= t <= bot_of p l -> Rabs (glow l x t - glow l x' t) <= Lb * Rabs (x - x').
  Definition back (x : R) : R := p_mu0 p * p_I0 p / PI * rho x (p_mu0 p) * exp (- depth_s p (NL - 1) T / p_mu0 p).
  Hypothesis HM : 0 <= M.
  Hypothesis HM1 : Q <= nu * M.
  Hypothesis HM2 : forall x, 0 < x <= 1 -> Rabs (bn x) <= M /\ Rabs (bp x) + Rabs (back x) + r * M <= M.
  Hypothesis Hback : forall e, 0 < e -> exists d, 0 < d /\ forall x x', 0 < x <= 1 -> 0 < x' <= 1 -> Rabs (x - x') < d -> Rabs (back x - back x') <= e.

  Definition lit (I : R -> R -> R) (x : R) : R := 2 * RInt (fun y => rho x y * y * I (- y) T) 0 1 + back x.
  Definition bval (I : R -> R -> R) (x : R) : R := if Rlt_dec 0 x then bp x + (if Nat.ltb 0 (length (p_BDRF p)) then lit I x else 0) else bn (- x).
  Definition step (I : R -> R -> R) (x t : R) : R := along p x (fun l u => src p I l x u) (bval I x) t.

  Lemma src_glow I l x t : src p I l x t = inscat p I l x t + glow l x t.
  Proof. unfold src, glow. ring. Qed.
  Lemma rhoI I C x : nice p M C I -> 0 < x <= 1 -> ex_RInt (fun y => rho x y * y * I (- y) T) 0 1.
  Proof. intros NI Hx. pose proof (bottom_pos p V). apply (nice_int2 p M C I NI (fun y => rho x y * y)); [apply rho_cont; [exact Cr|lra]|lra]. Qed.
  Lemma rho_int x : 0 < x <= 1 -> ex_RInt (fun y => rho x y * y) 0 1.
  Proof. intros Hx. apply cont_int, rho_cont; [exact Cr|lra]. Qed.

  Section One.
    Variables (C : R) (I : R -> R -> R).
    Hypothesis HC : 0 <= C.
    Hypothesis NI : nice p M C I.
    Lemma src_le l x t : (l < NL)%nat -> -1 <= x <= 1 -> top_of p l <= t <= bot_of p l -> Rabs (src p I l x t) <= scl p l * M.
    Proof.
      intros Hl Hx Ht. pose proof (in_bottom p V l t Hl Ht) as Htb. rewrite src_glow. eapply Rle_trans; [apply Rabs_triang|]. pose proof (HQ l x t Hl Hx Ht) as A.
      pose proof (inscat_le p V Kp I M l x t Hl Hx (fun y Hy => n_bound _ _ _ _ NI y t Hy Htb) (KI1 p M C I NI l x t Hl Hx Htb) (KI2 p M C I NI l x t Hl Hx Htb)) as B.
      pose proof (proj2 Hnu l Hl). assert (nu * M <= (1 - albedo p l) * M) by (apply Rmult_le_compat_r; lra). lra.
    Qed.
    Lemma step_der l x t : (l < NL)%nat -> direction x -> top_of p l < t < bot_of p l -> is_derive (step I x) t ((scl p l * step I x t - src p I l x t) / x).
    Proof. intros Hl Hx Ht. refine (along_der p V x _ (bval I x) Hx _ l t Hl Ht). intros k Hk. apply (src_cont p V M C I HM HC NI); [exact Hk|apply Hx]. Qed.
    Lemma step_cont x : direction x -> cont_on 0 T (step I x).
    Proof. intros Hx. refine (along_cont p V x _ (bval I x) _). intros k Hk. apply (src_cont p V M C I HM HC NI); [exact Hk|apply Hx]. Qed.
    Lemma step_entry x : direction x -> step I x (entry p x) = bval I x.
    Proof. intros Hx. apply along_entry. exact Hx. Qed.
    Lemma bval_le x : direction x -> Rabs (bval I x) <= M.
    Proof.
      intros [Hx1 Hx0]. unfold bval. destruct (Rlt_dec 0 x) as [H0|H0]; [|apply HM2; lra]. destruct (HM2 x ltac:(lra)) as [_ H2]. eapply Rle_trans; [apply Rabs_triang|].
      assert (0 <= r * M) by (apply Rmult_le_pos; auto). pose proof (Rabs_pos (back x)). destruct (Nat.ltb 0 (length (p_BDRF p))); [|rewrite Rabs_R0; lra].
      unfold lit. assert (A : Rabs (2 * RInt (fun y => rho x y * y * I (- y) T) 0 1) <= r * M).
      { rewrite Rabs_mult, (Rabs_pos_eq 2) by lra. pose proof (bottom_pos p V). apply Rle_trans with (2 * (M * RInt (fun y => rho x y * y) 0 1)).
        - apply Rmult_le_compat_l; [lra|]. apply RInt_bound; [apply (rhoI I C); [exact NI|lra]|apply rho_int; lra|]. intros y Hy. rewrite Rabs_mult, Rmult_comm. assert (0 <= rho x y * y) by (apply Rmult_le_pos; [apply Hrho; lra|lra]). rewrite (Rabs_pos_eq (rho x y * y)) by auto.
          apply Rmult_le_compat_r; [auto|]. apply (n_bound _ _ _ _ NI); [split; lra|lra].
        - pose proof (Hr x ltac:(lra)) as A. assert (2 * RInt (fun y => rho x y * y) 0 1 * M <= r * M) by (apply Rmult_le_compat_r; auto). lra. }
      pose proof (Rabs_triang (2 * RInt (fun y => rho x y * y * I (- y) T) 0 1) (back x)). lra.
    Qed.
    Lemma step_bound x t : direction x -> 0 <= t <= T -> Rabs (step I x t) <= M.
    Proof.
      intros Hx Ht. refine (ode_bound p V x (step I x) (fun l u => src p I l x u) M Hx (step_cont x Hx) (fun l u Hl Hu => step_der l x u Hl Hx Hu) _ _ t Ht).
      - intros l u Hl Hu. apply src_le; [exact Hl|apply Hx|lra].
      - rewrite step_entry by exact Hx. apply bval_le. exact Hx.
    Qed.
    Lemma step_lip x t t' : direction x -> 0 <= t <= T -> 0 <= t' <= T -> Rabs (step I x t - step I x t') <= 2 * M / Rabs x * Rabs (t - t').
    Proof.
      intros Hx Ht Ht'. assert (Hax : 0 < Rabs x) by (apply Rabs_pos_lt; apply Hx).
      refine (lip_all p V (step I x) (fun l u => (scl p l * step I x u - src p I l x u) / x) (2 * M / Rabs x) (step_cont x Hx) (fun l u Hl Hu => step_der l x u Hl Hx Hu) _ _ t t' Ht Ht').
      - intros l u Hl Hu. pose proof (in_bottom p V l u Hl ltac:(lra)) as Hub. unfold Rdiv. rewrite Rabs_mult, Rabs_inv. apply Rmult_le_compat_r; [apply Rlt_le, Rinv_0_lt_compat; exact Hax|].
        unfold Rminus. eapply Rle_trans; [apply Rabs_triang|]. rewrite Rabs_Ropp, Rabs_mult. pose proof (scl_pos p V l Hl) as Hs. rewrite (Rabs_pos_eq (scl p l)) by lra. pose proof (src_le l x u Hl (proj1 Hx) ltac:(lra)). pose proof (step_bound x u Hx Hub). pose proof (Rabs_pos (step I x u)). nra.
      - apply Rmult_le_pos; [lra|apply Rlt_le, Rinv_0_lt_compat; exact Hax].
    Qed.
    Lemma bval_equi e : 0 < e -> exists d, 0 < d /\ forall s x x', s = 1 \/ s = -1 -> 0 < x <= 1 -> 0 < x' <= 1 -> Rabs (x - x') < d -> Rabs (bval I (s * x) - bval I (s * x')) <= e.
    Proof.
      intros He. destruct (Cn e He) as (d0 & Hd0 & E0). destruct (Cp (e / 3) ltac:(lra)) as (d1 & Hd1 & E1). destruct (Hback (e / 3) ltac:(lra)) as (d2 & Hd2 & E2). destruct (Cr (e / 3 / (2 * M + 1)) ltac:(apply Rdiv_lt_0_compat; lra)) as (d3 & Hd3 & E3).
      exists (Rmin (Rmin d0 d1) (Rmin d2 d3)). split; [repeat apply Rmin_pos; auto|]. intros s x x' Hs Hx Hx' Hd. pose proof (Rmin_l (Rmin d0 d1) (Rmin d2 d3)). pose proof (Rmin_r (Rmin d0 d1) (Rmin d2 d3)). pose proof (Rmin_l d0 d1). pose proof (Rmin_r d0 d1). pose proof (Rmin_l d2 d3). pose proof (Rmin_r d2 d3).
      unfold bval. destruct Hs as [-> | ->].
      - rewrite !Rmult_1_l. destruct (Rlt_dec 0 x) as [_|]; [|lra]. destruct (Rlt_dec 0 x') as [_|]; [|lra]. pose proof (E1 x x' ltac:(lra) ltac:(lra) ltac:(lra)) as B1. destruct (Nat.ltb 0 (length (p_BDRF p))); [|rewrite !Rplus_0_r; lra].
        unfold lit. match goal with |- Rabs (?a + (2 * ?b + ?c) - (?a' + (2 * ?b' + ?c'))) <= _ => replace (a + (2 * b + c) - (a' + (2 * b' + c'))) with ((a - a') + (2 * (b - b') + (c - c'))) by ring end.
        pose proof (E2 x x' Hx Hx' ltac:(lra)) as B2. eapply Rle_trans; [apply Rabs_triang|]. replace e with (e / 3 + (e / 3 + e / 3)) by field. apply Rplus_le_compat; [exact B1|]. eapply Rle_trans; [apply Rabs_triang|]. apply Rplus_le_compat; [|exact B2].
        rewrite Rabs_mult, (Rabs_pos_eq 2) by lra. apply Rle_trans with (2 * (e / 3 / (2 * M + 1) * M)).
        + apply Rmult_le_compat_l; [lra|]. pose proof (bottom_pos p V). apply RInt_near; [apply (rhoI I C); auto|apply (rhoI I C); auto|]. intros y Hy. rewrite <- !Rmult_minus_distr_r, !Rabs_mult, (Rabs_pos_eq y) by lra.
          pose proof (E3 x x' y y ltac:(lra) ltac:(lra) ltac:(lra) ltac:(lra) ltac:(lra) ltac:(rewrite Rminus_eq_0, Rabs_R0; exact Hd3)) as B3. pose proof (Rabs_pos (rho x y - rho x' y)).
          apply Rmult_le_compat; [apply Rmult_le_pos; lra|apply Rabs_pos|nra|]. apply (n_bound _ _ _ _ NI); [split; lra|lra].
        + replace (e / 3) with (e / 3 / (2 * M + 1) * (2 * M + 1)) at 2 by (field; lra). assert (0 < e / 3 / (2 * M + 1)) by (apply Rdiv_lt_0_compat; lra). lra.
      - destruct (Rlt_dec 0 (-1 * x)) as [|_]; [lra|]. destruct (Rlt_dec 0 (-1 * x')) as [|_]; [lra|]. replace (- (-1 * x)) with x by ring. replace (- (-1 * x')) with x' by ring. apply E0; lra.
    Qed.
    Lemma step_dir s t d : s = 1 \/ s = -1 -> 0 <= t <= T -> 0 < d -> cont_on d 1 (fun y => step I (s * y) t).
    Proof.
      intros Hs Ht Hd x Hx e He. destruct (inscat_dir p M HM) as (L & HL1 & HL2). destruct HL as [HLb HLb']. destruct (pos_lower NL (scl p) (fun l Hl => proj1 (scl_pos p V l Hl))) as (sg & Hsg & Hsg').
      destruct (bval_equi (e / 2) ltac:(lra)) as (d1 & Hd1 & E1). assert (Hid : 0 < / d) by (apply Rinv_0_lt_compat; lra).
      assert (HQ0 : 0 <= L + Lb + 2 * M * / d) by (assert (0 <= 2 * M * / d) by (apply Rmult_le_pos; lra); lra).
      destruct (small (L + Lb + 2 * M * / d) (sg * (e / 2)) HQ0 ltac:(apply Rmult_lt_0_compat; lra)) as (d2 & Hd2 & E2).
      exists (Rmin d1 d2). split; [apply Rmin_pos; auto|]. intros x' Hx' Hxx. pose proof (Rmin_l d1 d2). pose proof (Rmin_r d1 d2).
      pose proof (sgn_dir s x Hs ltac:(lra)) as D. pose proof (sgn_dir s x' Hs ltac:(lra)) as D'. apply Rle_lt_trans with (e / 2); [|lra].
      replace (step I (s * x') t - step I (s * x) t) with (step I (s * x') t + (-1) * step I (s * x) t) by ring.
      refine (ode_bound p V (s * x') (fun u => step I (s * x') u + (-1) * step I (s * x) u)
        (fun l u => (src p I l (s * x') u - src p I l (s * x) u) + (1 - x' / x) * (src p I l (s * x) u - scl p l * step I (s * x) u)) (e / 2) D' _ _ _ _ t Ht).
      - apply cont_on_plus; [apply step_cont; exact D'|apply cont_on_scal, step_cont; exact D].
      - intros l u Hl Hu. refine (der_eq _ _ _ _ _ (der_plus _ _ _ _ _ (step_der l (s * x') u Hl D' Hu) (der_scal _ (-1) _ _ (step_der l (s * x) u Hl D Hu)))).
        assert (s <> 0) by (destruct Hs as [-> | ->]; lra). field. repeat split; lra.
      - intros l u Hl Hu. pose proof (in_bottom p V l u Hl ltac:(lra)) as Hub. pose proof (scl_pos p V l Hl) as Hsc. rewrite !src_glow.
        assert (Ed : Rabs (s * x' - s * x) = Rabs (x' - x)) by (rewrite <- Rmult_minus_distr_l, Rabs_mult, (sgn_abs s Hs); ring).
        pose proof (HL2 C I NI l (s * x') (s * x) u Hl (proj1 D') (proj1 D) Hub) as A1. pose proof (HLb' l (s * x') (s * x) u Hl (proj1 D') (proj1 D) ltac:(lra)) as A2. rewrite Ed in A1, A2.
        pose proof (src_le l (s * x) u Hl (proj1 D) ltac:(lra)) as A3. rewrite src_glow in A3. pose proof (step_bound (s * x) u D Hub) as A4.
        assert (A5 : Rabs (inscat p I l (s * x) u + glow l (s * x) u - scl p l * step I (s * x) u) <= 2 * M).
        { unfold Rminus at 1. eapply Rle_trans; [apply Rabs_triang|]. rewrite Rabs_Ropp, Rabs_mult, (Rabs_pos_eq (scl p l)) by lra. pose proof (Rabs_pos (step I (s * x) u)). nra. }
        assert (A6 : Rabs (1 - x' / x) <= / d * Rabs (x' - x)). { replace (1 - x' / x) with (/ x * - (x' - x)) by (field; lra). rewrite Rabs_mult, Rabs_Ropp, (Rabs_pos_eq (/ x)) by (apply Rlt_le, Rinv_0_lt_compat; lra). apply Rmult_le_compat_r; [apply Rabs_pos|]. apply Rinv_le_contravar; lra. }
        pose proof (E2 (Rabs (x' - x)) ltac:(pose proof (Rabs_pos (x' - x)); lra)) as A7. pose proof (Hsg' l Hl) as A8. assert (sg * (e / 2) <= scl p l * (e / 2)) by (apply Rmult_le_compat_r; lra).
        eapply Rle_trans; [apply Rabs_triang|]. rewrite (Rabs_mult (1 - x' / x)). assert (A9 : Rabs (1 - x' / x) * Rabs (inscat p I l (s * x) u + glow l (s * x) u - scl p l * step I (s * x) u) <= / d * Rabs (x' - x) * (2 * M)) by (apply Rmult_le_compat; auto using Rabs_pos).
        match goal with |- Rabs (?a + ?b - (?a' + ?b')) + _ <= _ => replace (a + b - (a' + b')) with ((a - a') + (b - b')) by ring; pose proof (Rabs_triang (a - a') (b - b')) end. lra.
      - replace (entry p (s * x')) with (entry p (s * x)). 2: { unfold entry. destruct Hs as [-> | ->]; destruct (Rlt_dec 0 _), (Rlt_dec 0 _); lra || reflexivity. }
        rewrite (step_entry (s * x) D). assert (Ee : entry p (s * x) = entry p (s * x')). { unfold entry. destruct Hs as [-> | ->]; destruct (Rlt_dec 0 _), (Rlt_dec 0 _); lra || reflexivity. } rewrite Ee, (step_entry (s * x') D').
        replace (bval I (s * x') + (-1) * bval I (s * x)) with (bval I (s * x') - bval I (s * x)) by ring. apply E1; auto; lra.
    Qed.
    Lemma step_nice : nice p M (2 * M) (step I).
    Proof. constructor; [exact step_bound|intros; apply step_dir; auto|exact step_lip]. Qed.
  End One.

  Variable kap : R.
  Hypothesis Hkap : 1 - nu <= kap /\ r <= kap.
  Lemma step_near C C' I I' m : 0 <= C -> 0 <= C' -> nice p M C I -> nice p M C' I' -> 0 <= m -> (forall x t, direction x -> 0 <= t <= T -> Rabs (I x t - I' x t) <= m) ->
    forall x t, direction x -> 0 <= t <= T -> Rabs (step I x t - step I' x t) <= kap * m.
  Proof.
    intros HC HC' NI NI' Hm HD x t Hx Ht. replace (step I x t - step I' x t) with (step I x t + (-1) * step I' x t) by ring.
    refine (ode_bound p V x (fun u => step I x u + (-1) * step I' x u) (fun l u => inscat p I l x u - inscat p I' l x u) (kap * m) Hx _ _ _ _ t Ht).
    - apply cont_on_plus; [apply (step_cont C); auto|apply cont_on_scal, (step_cont C'); auto].
    - intros l u Hl Hu. refine (der_eq _ _ _ _ _ (der_plus _ _ _ _ _ (step_der C I HC NI l x u Hl Hx Hu) (der_scal _ (-1) _ _ (step_der C' I' HC' NI' l x u Hl Hx Hu)))). rewrite !src_glow. field. apply Hx.
    - intros l u Hl Hu. pose proof (in_bottom p V l u Hl ltac:(lra)) as Hub. destruct Hx as [Hx1 Hx0].
      destruct (int_diff _ _ (KI1 p M C I NI l x u Hl Hx1 Hub) (KI1 p M C' I' NI' l x u Hl Hx1 Hub)) as [E1 X1]. destruct (int_diff _ _ (KI2 p M C I NI l x u Hl Hx1 Hub) (KI2 p M C' I' NI' l x u Hl Hx1 Hub)) as [E2 X2].
      assert (E : inscat p I l x u - inscat p I' l x u = inscat p (fun y t => I y t - I' y t) l x u).
      { unfold inscat. replace (RInt (fun y => K l x y * (I y u - I' y u)) 0 1) with (RInt (fun y => K l x y * I y u - K l x y * I' y u) 0 1) by (apply RInt_ext1'; intros; ring).
        replace (RInt (fun y => K l x (- y) * (I (- y) u - I' (- y) u)) 0 1) with (RInt (fun y => K l x (- y) * I (- y) u - K l x (- y) * I' (- y) u) 0 1) by (apply RInt_ext1'; intros; ring). rewrite E1, E2. ring. }
      rewrite E. eapply Rle_trans; [apply (inscat_le p V Kp (fun y t => I y t - I' y t) m l x u Hl Hx1)|].
      + intros y Hy. apply HD; auto.
      + eapply ex_RInt_ext; [|exact X1]. intros y _. cbv beta. change (K l x y * I y u - K l x y * I' y u = K l x y * (I y u - I' y u)). ring.
      + eapply ex_RInt_ext; [|exact X2]. intros y _. cbv beta. change (K l x (- y) * I (- y) u - K l x (- y) * I' (- y) u = K l x (- y) * (I (- y) u - I' (- y) u)). ring.
      + pose proof (scl_pos p V l Hl) as Hsc. pose proof (proj2 Hnu l Hl) as Hn. destruct Hkap as [Hk _]. destruct Hnu as [Hn0 _]. rewrite Rmult_comm, <- Rmult_assoc. apply Rmult_le_compat_r; [exact Hm|].
        apply Rle_trans with (scl p l * (1 - nu)); [nra|]. apply Rmult_le_compat_l; lra.
    - rewrite (step_entry I), (step_entry I') by exact Hx. unfold bval. assert (Hkm : r * m <= kap * m) by (apply Rmult_le_compat_r; [exact Hm|apply Hkap]). assert (0 <= r * m) by (apply Rmult_le_pos; auto). destruct Hx as [Hx1 Hx0].
      assert (Z : forall a, a + (-1) * a = 0) by (intros; ring). destruct (Rlt_dec 0 x) as [H0|H0]; [|rewrite Z, Rabs_R0; lra]. destruct (Nat.ltb 0 (length (p_BDRF p))); [|rewrite Z, Rabs_R0; lra].
      unfold lit. match goal with |- Rabs (?a + (2 * ?b + ?c) + (-1) * (?a + (2 * ?b' + ?c))) <= _ => replace (a + (2 * b + c) + (-1) * (a + (2 * b' + c))) with (2 * (b - b')) by ring end.
      destruct (int_diff _ _ (rhoI I C x NI ltac:(lra)) (rhoI I' C' x NI' ltac:(lra))) as [E X]. rewrite <- E, Rabs_mult, (Rabs_pos_eq 2) by lra. eapply Rle_trans; [|exact Hkm]. apply Rle_trans with (2 * (m * RInt (fun y => rho x y * y) 0 1)).
      + apply Rmult_le_compat_l; [lra|]. pose proof (bottom_pos p V). apply RInt_bound; [exact X|apply rho_int; lra|]. intros y Hy. rewrite <- Rmult_minus_distr_l, Rabs_mult, Rmult_comm. assert (0 <= rho x y * y) by (apply Rmult_le_pos; [apply Hrho; lra|lra]). rewrite (Rabs_pos_eq (rho x y * y)) by auto.
        apply Rmult_le_compat_r; [auto|]. apply HD; [split; lra|lra].
      + pose proof (Hr x ltac:(lra)) as A. assert (2 * RInt (fun y => rho x y * y) 0 1 * m <= r * m) by (apply Rmult_le_compat_r; auto). lra.
  Qed.
End Step.
