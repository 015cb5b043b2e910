(** The exact radiation field: fields of scattered radiation, and the sources they make. *)
From Coq Require Import String Reals Lra Lia List Bool Arith ZArith.
From Coquelicot Require Import Coquelicot.
From Verif Require Import Base Tensor Spec M_LinAlg Spec_RTE Calc M_Subroutines M_GenPart M_MathscrV M_Coeffs M_Assemble M_Pydisort
  Spec_Sol Spec_Valid Spec_Calls Spec_Unique Spec_Phys Spec_Mono Spec_Depend Spec_Exact P_Special P_Addition P_Quad P_Fourier P_Sub P_Solve P_Energy P_Pydisort P_Pydisort2 P_Pydisort3 P_Pydisort4 P_Pydisort5 P_Pydisort6 P_Pydisort8 P_Teq P_NT P_NT3 P_Unique2 P_Refine P_Max P_Max2 P_Max3 P_Max4 P_Mono P_Sym P_Depend P_Depend2 P_Gauss P_Conv P_Conv2 P_Conv3 P_Exist P_Exist2 P_Exist3 P_Full2.
Import ListNotations.
Local Open Scope R_scope.

Lemma cont_bounded a b f : a <= b -> cont_on a b f -> exists B, 0 <= B /\ forall x, a <= x <= b -> Rabs (f x) <= B.
Proof.
  intros Hab Hc. destruct (continuity_ab_maj (clamp a b (fun x => Rabs (f x))) a b Hab) as (m & Hm & Hr).
  { intros c _. apply clamp_cont; [exact Hab|apply cont_on_abs; exact Hc]. }
  exists (Rabs (f m)). split; [apply Rabs_pos|]. intros x Hx. specialize (Hm x Hx). rewrite !clamp_in in Hm by auto. exact Hm.
Qed.
Lemma cont_int_ab a b (f : R -> R) : a <= b -> cont_on a b f -> ex_RInt f a b.
Proof.
  intros Hab H. apply (ex_RInt_ext (clamp a b f)).
  - intros x. rewrite Rmin_left, Rmax_right by lra. intros Hx. apply clamp_in. lra.
  - apply (ex_RInt_continuous (V := R_CompleteNormedModule)). intros x _. apply continuity_pt_filterlim. apply clamp_cont; [lra|exact H].
Qed.
Lemma sgn_dir s y : s = 1 \/ s = -1 -> 0 < y <= 1 -> direction (s * y).
Proof. intros [-> | ->] Hy; split; lra. Qed.
Lemma sgn_abs s : s = 1 \/ s = -1 -> Rabs s = 1.
Proof. intros [-> | ->]; [apply Rabs_R1|rewrite Rabs_left by lra; lra]. Qed.

Section Fields.
  Variables (p : py_in) (V : valid p).
  Notation NL := (nlayers p).
  Notation T := (bottom p).
  Notation K := (scatters p).

  (** Fields that can be scattered: bounded by [M], and continuous in direction and depth. *)
  Record nice (M C : R) (I : R -> R -> R) : Prop := mkNice {
    n_bound : forall x t, direction x -> 0 <= t <= T -> Rabs (I x t) <= M;
    n_dir : forall s t d, s = 1 \/ s = -1 -> 0 <= t <= T -> 0 < d -> cont_on d 1 (fun y => I (s * y) t);
    n_lip : forall x t t', direction x -> 0 <= t <= T -> 0 <= t' <= T -> Rabs (I x t - I x t') <= C / Rabs x * Rabs (t - t')
  }.
  Section Nice.
    Variables (M C : R) (I : R -> R -> R).
    Hypothesis HM : 0 <= M.
    Hypothesis HC : 0 <= C.
    Hypothesis NI : nice M C I.
    Lemma nice_int0 g s t : cont_on 0 1 g -> s = 1 \/ s = -1 -> 0 <= t <= T -> ex_RInt (fun y => g y * I (s * y) t) 0 1.
    Proof.
      intros Hg Hs Ht. destruct (cont_bounded 0 1 g ltac:(lra) Hg) as (B & HB & Hb). apply (bounded_int _ (B * M)).
      - intros y Hy. rewrite Rabs_mult. apply Rmult_le_compat; auto using Rabs_pos; [apply Hb; lra|apply (n_bound _ _ _ NI); [apply sgn_dir; auto|exact Ht]].
      - intros d Hd. destruct (Rle_lt_dec d 1) as [H1|H1]; [|intros x Hx; lra]. apply cont_on_mult; [exact H1|apply (cont_on_sub 0 1); [lra|lra|exact Hg]|apply (n_dir _ _ _ NI); auto].
    Qed.
    Lemma nice_int1 g t : cont_on 0 1 g -> 0 <= t <= T -> ex_RInt (fun y => g y * I y t) 0 1.
    Proof. intros Hg Ht. eapply ex_RInt_ext; [|exact (nice_int0 g 1 t Hg (or_introl eq_refl) Ht)]. intros y _. cbv beta. rewrite Rmult_1_l. reflexivity. Qed.
    Lemma nice_int2 g t : cont_on 0 1 g -> 0 <= t <= T -> ex_RInt (fun y => g y * I (- y) t) 0 1.
    Proof. intros Hg Ht. eapply ex_RInt_ext; [|exact (nice_int0 g (-1) t Hg (or_intror eq_refl) Ht)]. intros y _. cbv beta. replace (-1 * y) with (- y) by ring. reflexivity. Qed.
    Lemma Kc1 l x : (l < NL)%nat -> -1 <= x <= 1 -> cont_on 0 1 (fun y => K l x y).
    Proof. intros Hl Hx. apply (cont_on_ext _ _ (fun y => K l x (1 * y))); [intros; rewrite Rmult_1_l; reflexivity|]. exact (K_cont p l x 1 Hl Hx (or_introl eq_refl)). Qed.
    Lemma Kc2 l x : (l < NL)%nat -> -1 <= x <= 1 -> cont_on 0 1 (fun y => K l x (- y)).
    Proof. intros Hl Hx. apply (cont_on_ext _ _ (fun y => K l x (-1 * y))); [intros; f_equal; ring|]. exact (K_cont p l x (-1) Hl Hx (or_intror eq_refl)). Qed.
    Lemma KI1 l x t : (l < NL)%nat -> -1 <= x <= 1 -> 0 <= t <= T -> ex_RInt (fun y => K l x y * I y t) 0 1.
    Proof. intros. apply (nice_int1 (fun y => K l x y)); auto. apply Kc1; auto. Qed.
    Lemma KI2 l x t : (l < NL)%nat -> -1 <= x <= 1 -> 0 <= t <= T -> ex_RInt (fun y => K l x (- y) * I (- y) t) 0 1.
    Proof. intros. apply (nice_int2 (fun y => K l x (- y))); auto. apply Kc2; auto. Qed.

    Lemma inscat_lip B l x t t' d : (forall l x y, (l < NL)%nat -> -1 <= x <= 1 -> -1 <= y <= 1 -> Rabs (K l x y) <= B) -> 0 <= B ->
      (l < NL)%nat -> -1 <= x <= 1 -> 0 <= t <= T -> 0 <= t' <= T -> 0 < d < 1 ->
      Rabs (inscat p I l x t - inscat p I l x t') <= 2 * (d * (B * (2 * M)) + B * (C / d * Rabs (t - t'))).
    Proof.
      intros HB HB0 Hl Hx Ht Ht' Hd. unfold inscat.
      match goal with |- Rabs (?a + ?b - (?a' + ?b')) <= _ => replace (a + b - (a' + b')) with ((a - a') + (b - b')) by ring end.
      assert (P : forall a b c e, Rabs a <= c -> Rabs b <= e -> Rabs (a * b) <= c * e) by (intros; rewrite Rabs_mult; apply Rmult_le_compat; auto using Rabs_pos).
      assert (G : forall s y, s = 1 \/ s = -1 -> 0 < y < 1 -> Rabs (K l x (s * y) * (I (s * y) t - I (s * y) t')) <= B * (2 * M) /\ (d <= y -> Rabs (K l x (s * y) * (I (s * y) t - I (s * y) t')) <= B * (C / d * Rabs (t - t')))).
      { intros s y Hs Hy. pose proof (sgn_dir s y Hs ltac:(lra)) as D. split; [|intros Hdy].
        - apply P; [apply HB; auto; apply D|]. unfold Rminus. eapply Rle_trans; [apply Rabs_triang|]. rewrite Rabs_Ropp. pose proof (n_bound _ _ _ NI _ t D Ht). pose proof (n_bound _ _ _ NI _ t' D Ht'). lra.
        - apply P; [apply HB; auto; apply D|]. eapply Rle_trans; [apply (n_lip _ _ _ NI); auto|]. apply Rmult_le_compat_r; [apply Rabs_pos|]. apply Rmult_le_compat_l; [exact HC|].
          rewrite Rabs_mult, (sgn_abs s Hs), Rmult_1_l, (Rabs_pos_eq y) by lra. apply Rinv_le_contravar; lra. }
      eapply Rle_trans; [apply Rabs_triang|]. rewrite double. apply Rplus_le_compat.
      - destruct (int_diff _ _ (KI1 l x t Hl Hx Ht) (KI1 l x t' Hl Hx Ht')) as [E X]. rewrite <- E. apply RInt_split; [exact Hd|exact X| |]; intros y Hy; rewrite <- Rmult_minus_distr_l; destruct (G 1 y (or_introl eq_refl) ltac:(lra)) as [G1 G2]; rewrite Rmult_1_l in *; [exact G1|apply G2; lra].
      - destruct (int_diff _ _ (KI2 l x t Hl Hx Ht) (KI2 l x t' Hl Hx Ht')) as [E X]. rewrite <- E. apply RInt_split; [exact Hd|exact X| |]; intros y Hy; rewrite <- Rmult_minus_distr_l; destruct (G (-1) y (or_intror eq_refl) ltac:(lra)) as [G1 G2]; replace (-1 * y) with (- y) in * by ring; [exact G1|apply G2; lra].
    Qed.
    Lemma inscat_cont l x : (l < NL)%nat -> -1 <= x <= 1 -> cont_on 0 T (inscat p I l x).
    Proof.
      intros Hl Hx t Ht e He. destruct (K_bound p) as (B & HB & HK). assert (0 <= B * (2 * M)) by (apply Rmult_le_pos; lra).
      destruct (small (2 * (B * (2 * M))) (e / 4) ltac:(lra) ltac:(lra)) as (d0 & Hd0 & E0). set (d := Rmin (1 / 2) (d0 / 2)). assert (Hd : 0 < d < 1 /\ d < d0). { pose proof (Rmin_l (1 / 2) (d0 / 2)). pose proof (Rmin_r (1 / 2) (d0 / 2)). fold d in H0, H1. split; [split; [unfold d; apply Rmin_pos; lra|lra]|lra]. }
      destruct (small (2 * (B * (C / d))) (e / 4)) as (d1 & Hd1 & E1); [|lra|]. { apply Rmult_le_pos; [lra|]. apply Rmult_le_pos; [exact HB|]. apply Rmult_le_pos; [exact HC|apply Rlt_le, Rinv_0_lt_compat; lra]. }
      exists d1. split; [exact Hd1|]. intros t' Ht' Htt. eapply Rle_lt_trans; [apply (inscat_lip B l x t' t d HK HB Hl Hx Ht' Ht (proj1 Hd))|]. pose proof (E0 d ltac:(lra)). pose proof (E1 (Rabs (t' - t)) ltac:(pose proof (Rabs_pos (t' - t)); lra)). lra.
    Qed.
    Lemma src_cont l x : (l < NL)%nat -> -1 <= x <= 1 -> cont_on (top_of p l) (bot_of p l) (src p I l x).
    Proof.
      intros Hl Hx. destruct (layer_in p V l Hl) as [L1 L2]. unfold src. apply cont_on_plus; [apply cont_on_plus|apply cont_on_scal].
      - apply (cont_on_sub 0 T); [exact L1|exact L2|apply inscat_cont; auto].
      - unfold beam. apply cont_on_scal. apply cont_on_derive. intros t _. exists (- scl p l / p_mu0 p * exp (- depth_s p l t / p_mu0 p)). exact (der_exp (fun u => - depth_s p l u / p_mu0 p) t _ (der_div (fun u => - depth_s p l u) (p_mu0 p) t (- scl p l) (der_opp _ _ _ (depth_der p l t)))).
      - unfold source. destruct (Nat.ltb l (nrow (p_s p))); [|apply cont_on_const]. apply cont_on_sum. intros j _. apply cont_on_scal. apply cont_on_derive. intros t _. eexists. apply der_pow.
    Qed.
  End Nice.

  Hypothesis Kp : forall l x y, (l < NL)%nat -> -1 <= x <= 1 -> -1 <= y <= 1 -> 0 <= K l x y.
  (** What is scattered of a field bounded by [m]. *)
  Lemma inscat_le I m l x t : (l < NL)%nat -> -1 <= x <= 1 -> (forall y, direction y -> Rabs (I y t) <= m) -> ex_RInt (fun y => K l x y * I y t) 0 1 -> ex_RInt (fun y => K l x (- y) * I (- y) t) 0 1 ->
    Rabs (inscat p I l x t) <= m * (scl p l - (1 - albedo p l)).
  Proof.
    intros Hl Hx HI X1 X2. rewrite <- (K_row p V l x Hl Hx), Rmult_plus_distr_l. unfold inscat. eapply Rle_trans; [apply Rabs_triang|]. apply Rplus_le_compat; (apply RInt_bound; [assumption| |]).
    - apply K_int1; auto.
    - intros y Hy. rewrite Rabs_mult, Rmult_comm. pose proof (Kp l x y Hl Hx ltac:(lra)) as Hk. rewrite (Rabs_pos_eq (K l x y)) by exact Hk. apply Rmult_le_compat_r; [exact Hk|]. apply HI. split; lra.
    - apply K_int2; auto.
    - intros y Hy. rewrite Rabs_mult, Rmult_comm. pose proof (Kp l x (- y) Hl Hx ltac:(lra)) as Hk. rewrite (Rabs_pos_eq (K l x (- y))) by exact Hk. apply Rmult_le_compat_r; [exact Hk|]. apply HI. split; lra.
  Qed.
  Lemma inscat_dir M : 0 <= M -> exists L, 0 <= L /\ forall C I, nice M C I -> forall l x x' t, (l < NL)%nat -> -1 <= x <= 1 -> -1 <= x' <= 1 -> 0 <= t <= T -> Rabs (inscat p I l x t - inscat p I l x' t) <= L * Rabs (x - x').
  Proof.
    intros HM. destruct (K_lip p) as (L & HL & H3). exists (L * M + L * M). assert (0 <= L * M) by (apply Rmult_le_pos; auto). split; [lra|]. intros C I NI l x x' t Hl Hx Hx' Ht. unfold inscat.
    match goal with |- Rabs (?a + ?b - (?a' + ?b')) <= _ => replace (a + b - (a' + b')) with ((a - a') + (b - b')) by ring end.
    assert (P : forall a b c d, Rabs a <= c -> Rabs b <= d -> Rabs (a * b) <= c * d) by (intros; rewrite Rabs_mult; apply Rmult_le_compat; auto using Rabs_pos).
    rewrite !Rmult_plus_distr_r. eapply Rle_trans; [apply Rabs_triang|]. apply Rplus_le_compat.
    - apply RInt_near; [apply (KI1 M C); auto|apply (KI1 M C); auto|]. intros y Hy. rewrite <- Rmult_minus_distr_r. replace (L * M * Rabs (x - x')) with (L * Rabs (x - x') * M) by ring. apply P; [apply H3; auto; lra|apply (n_bound _ _ _ NI); [split; lra|auto]].
    - apply RInt_near; [apply (KI2 M C); auto|apply (KI2 M C); auto|]. intros y Hy. rewrite <- Rmult_minus_distr_r. replace (L * M * Rabs (x - x')) with (L * Rabs (x - x') * M) by ring. apply P; [apply H3; auto; lra|apply (n_bound _ _ _ NI); [split; lra|auto]].
  Qed.
End Fields.
