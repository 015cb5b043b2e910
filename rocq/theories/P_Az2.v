(** The transfer problem with a general kernel has a solution, and only one. *)
From Coq Require Import String Reals Lra Lia List Bool Arith ZArith.
From Coquelicot Require Import Coquelicot.
From Verif Require Import Base Tensor Spec M_LinAlg Spec_RTE Calc M_Subroutines M_GenPart M_MathscrV M_Coeffs M_Assemble M_Pydisort
  Spec_Sol Spec_Valid Spec_Calls Spec_Unique Spec_Phys Spec_Mono Spec_Depend Spec_Exact P_Special P_Addition P_Quad P_Fourier P_Sub P_Solve P_Energy P_Pydisort P_Pydisort2 P_Pydisort3 P_Pydisort4 P_Pydisort5 P_Pydisort6 P_Pydisort8 P_Teq P_NT P_NT3 P_Unique2 P_Refine P_Max P_Max2 P_Max3 P_Max4 P_Mono P_Sym P_Depend P_Depend2 P_Gauss P_Conv P_Conv2 P_Conv3 P_Exist P_Exist2 P_Exist3 P_Full2 P_Exist4 P_Exist5 P_Exist6 P_Exist7 P_Az1.
Import ListNotations.
Local Open Scope R_scope.


Section Step.
  Variables (p : py_in) (V : valid p) (K G : nat -> R -> R -> R) (Q : R) (bn bp : R -> R) (Rk R0 : R -> R -> R) (r nu M : R).
  Notation NL := (nlayers p).
  Notation T := (bottom p).
  Hypothesis KU : kucont NL K.
  Hypothesis KM : forall l x y, (l < NL)%nat -> -1 <= x <= 1 -> -1 <= y <= 1 -> Rabs (K l x y) <= scatters p l x y.
  Hypothesis GB : forall l x t, (l < NL)%nat -> -1 <= x <= 1 -> top_of p l <= t <= bot_of p l -> Rabs (G l x t) <= Q.
  Hypothesis GU : gucont p G.
  Hypothesis GC : forall l x, (l < NL)%nat -> -1 <= x <= 1 -> cont_on (top_of p l) (bot_of p l) (G l x).
  Hypothesis Cn : ucont1 bn.
  Hypothesis Cp : ucont1 bp.
  Hypothesis Cr : ucont2 Rk.
  Hypothesis RM : forall x y, 0 <= x <= 1 -> 0 <= y <= 1 -> Rabs (Rk x y) <= R0 x y.
  Hypothesis RI : forall x, 0 < x <= 1 -> ex_RInt (R0 x) 0 1 /\ RInt (R0 x) 0 1 <= r.
  Hypothesis Hr0 : 0 <= r.
  Hypothesis Hnu : 0 < nu /\ forall l, (l < NL)%nat -> nu <= 1 - albedo p l.
  Hypothesis HM : 0 <= M.
  Hypothesis HM1 : Q <= nu * M.
  Hypothesis HM2 : forall x, 0 < x <= 1 -> Rabs (bn x) <= M /\ Rabs (bp x) + r * M <= M.

  Definition gbval (I : R -> R -> R) (x : R) : R := if Rlt_dec 0 x then bp x + RInt (fun y => Rk x y * I (- y) T) 0 1 else bn (- x).
  Definition gstep (I : R -> R -> R) (x t : R) : R := along p x (fun l u => gsrc K G I l x u) (gbval I x) t.

  Lemma RkI M' I x : fld p M' I -> 0 < x <= 1 -> ex_RInt (fun y => Rk x y * I (- y) T) 0 1.
  Proof. intros [_ FI] Hx. pose proof (bottom_pos p V). apply (FI (Rk x) T); [apply ucont2_c; [exact Cr|lra]|lra]. Qed.
  Lemma refl_le I m x : 0 <= m -> 0 < x <= 1 -> ex_RInt (fun y => Rk x y * I (- y) T) 0 1 -> (forall y, direction y -> Rabs (I y T) <= m) -> Rabs (RInt (fun y => Rk x y * I (- y) T) 0 1) <= r * m.
  Proof.
    intros Hm Hx X HI. destruct (RI x Hx) as [X0 Hle]. apply Rle_trans with (m * RInt (R0 x) 0 1); [|rewrite Rmult_comm; apply Rmult_le_compat_r; auto].
    apply RInt_bound; [exact X|exact X0|]. intros y Hy. rewrite Rabs_mult, Rmult_comm. apply Rmult_le_compat; auto using Rabs_pos; [apply HI; split; lra|apply RM; lra].
  Qed.

  Section Cont.
    Variables (C : R) (I : R -> R -> R).
    Hypothesis HC : 0 <= C.
    Hypothesis NI : nice p M C I.
    Let FI : fld p M I := nice_fld p M C I NI.
    Lemma gin_lip B l x t t' d : (forall l x y, (l < NL)%nat -> -1 <= x <= 1 -> -1 <= y <= 1 -> Rabs (K l x y) <= B) -> 0 <= B ->
      (l < NL)%nat -> -1 <= x <= 1 -> 0 <= t <= T -> 0 <= t' <= T -> 0 < d < 1 ->
      Rabs (gin K I l x t - gin K I l x t') <= 2 * (d * (B * (2 * M)) + B * (C / d * Rabs (t - t'))).
    Proof.
      intros HB HB0 Hl Hx Ht Ht' Hd. unfold gin. destruct (KgI p K KU M I FI l x t Hl Hx Ht) as [A1 A2]. destruct (KgI p K KU M I FI l x t' Hl Hx Ht') as [B1 B2].
      match goal with |- Rabs (?a + ?b - (?a' + ?b')) <= _ => replace (a + b - (a' + b')) with ((a - a') + (b - b')) by ring end.
      assert (P : forall a b c e, Rabs a <= c -> Rabs b <= e -> Rabs (a * b) <= c * e) by (intros; rewrite Rabs_mult; apply Rmult_le_compat; auto using Rabs_pos).
      assert (Z : forall s y, s = 1 \/ s = -1 -> 0 < y < 1 -> Rabs (K l x (s * y) * (I (s * y) t - I (s * y) t')) <= B * (2 * M) /\ (d <= y -> Rabs (K l x (s * y) * (I (s * y) t - I (s * y) t')) <= B * (C / d * Rabs (t - t')))).
      { intros s y Hs Hy. pose proof (sgn_dir s y Hs ltac:(lra)) as D. split; [|intros Hdy].
        - apply P; [apply HB; auto; apply D|]. unfold Rminus. eapply Rle_trans; [apply Rabs_triang|]. rewrite Rabs_Ropp. pose proof (n_bound _ _ _ _ NI _ t D Ht). pose proof (n_bound _ _ _ _ NI _ t' D Ht'). lra.
        - apply P; [apply HB; auto; apply D|]. eapply Rle_trans; [apply (n_lip _ _ _ _ NI); auto|]. apply Rmult_le_compat_r; [apply Rabs_pos|]. apply Rmult_le_compat_l; [exact HC|].
          rewrite Rabs_mult, (sgn_abs s Hs), Rmult_1_l, (Rabs_pos_eq y) by lra. apply Rinv_le_contravar; lra. }
      eapply Rle_trans; [apply Rabs_triang|]. rewrite double. apply Rplus_le_compat.
      - destruct (int_diff _ _ A1 B1) as [E X]. rewrite <- E. apply RInt_split; [exact Hd|exact X| |]; intros y Hy; rewrite <- Rmult_minus_distr_l; destruct (Z 1 y (or_introl eq_refl) ltac:(lra)) as [G1 G2]; rewrite Rmult_1_l in *; [exact G1|apply G2; lra].
      - destruct (int_diff _ _ A2 B2) as [E X]. rewrite <- E. apply RInt_split; [exact Hd|exact X| |]; intros y Hy; rewrite <- Rmult_minus_distr_l; destruct (Z (-1) y (or_intror eq_refl) ltac:(lra)) as [G1 G2]; replace (-1 * y) with (- y) in * by ring; [exact G1|apply G2; lra].
    Qed.
    Lemma gin_cont l x : (l < NL)%nat -> -1 <= x <= 1 -> cont_on 0 T (gin K I l x).
    Proof.
      intros Hl Hx t Ht e He. destruct (Kg_bound p K KM) as (B & HB & HK). assert (0 <= B * (2 * M)) by (apply Rmult_le_pos; lra).
      destruct (small (2 * (B * (2 * M))) (e / 4) ltac:(lra) ltac:(lra)) as (d0 & Hd0 & E0). set (d := Rmin (1 / 2) (d0 / 2)). assert (Hd : 0 < d < 1 /\ d < d0). { pose proof (Rmin_l (1 / 2) (d0 / 2)) as Z1. pose proof (Rmin_r (1 / 2) (d0 / 2)) as Z2. fold d in Z1, Z2. split; [split; [unfold d; apply Rmin_pos; lra|lra]|lra]. }
      destruct (small (2 * (B * (C / d))) (e / 4)) as (d1 & Hd1 & E1); [|lra|]. { apply Rmult_le_pos; [lra|]. apply Rmult_le_pos; [exact HB|]. apply Rmult_le_pos; [exact HC|apply Rlt_le, Rinv_0_lt_compat; lra]. }
      exists d1. split; [exact Hd1|]. intros t' Ht' Htt. eapply Rle_lt_trans; [apply (gin_lip B l x t' t d HK HB Hl Hx Ht' Ht (proj1 Hd))|]. pose proof (E0 d ltac:(lra)). pose proof (E1 (Rabs (t' - t)) ltac:(pose proof (Rabs_pos (t' - t)); lra)). lra.
    Qed.
    Lemma gsrc_cont l x : (l < NL)%nat -> -1 <= x <= 1 -> cont_on (top_of p l) (bot_of p l) (gsrc K G I l x).
    Proof. intros Hl Hx. destruct (layer_in p V l Hl) as [L1 L2]. unfold gsrc. apply cont_on_plus; [|apply GC; auto]. apply (cont_on_sub 0 T); [exact L1|exact L2|apply gin_cont; auto]. Qed.

    Lemma gsrc_le' l x t : (l < NL)%nat -> -1 <= x <= 1 -> top_of p l <= t <= bot_of p l -> Rabs (gsrc K G I l x t) <= scl p l * M.
    Proof.
      intros Hl Hx Ht. pose proof (in_bottom p V l t Hl Ht) as Htb. unfold gsrc. eapply Rle_trans; [apply Rabs_triang|]. pose proof (GB l x t Hl Hx Ht) as A. destruct (KgI p K KU M I FI l x t Hl Hx Htb) as [X1 X2].
      pose proof (gin_le p V K KM I M l x t Hl Hx (fun y Hy => n_bound _ _ _ _ NI y t Hy Htb) X1 X2) as B.
      pose proof (proj2 Hnu l Hl). assert (nu * M <= (1 - albedo p l) * M) by (apply Rmult_le_compat_r; lra). lra.
    Qed.
    Lemma gstep_der l x t : (l < NL)%nat -> direction x -> top_of p l < t < bot_of p l -> is_derive (gstep I x) t ((scl p l * gstep I x t - gsrc K G I l x t) / x).
    Proof. intros Hl Hx Ht. refine (along_der p V x _ (gbval I x) Hx _ l t Hl Ht). intros k Hk. apply gsrc_cont; [exact Hk|apply Hx]. Qed.
    Lemma gstep_cont x : direction x -> cont_on 0 T (gstep I x).
    Proof. intros Hx. refine (along_cont p V x _ (gbval I x) _). intros k Hk. apply gsrc_cont; [exact Hk|apply Hx]. Qed.
    Lemma gstep_entry x : direction x -> gstep I x (entry p x) = gbval I x.
    Proof. intros Hx. apply along_entry. exact Hx. Qed.
    Lemma gbval_le x : direction x -> Rabs (gbval I x) <= M.
    Proof.
      intros [Hx1 Hx0]. unfold gbval. destruct (Rlt_dec 0 x) as [H0|H0]; [|apply HM2; lra]. destruct (HM2 x ltac:(lra)) as [_ H2]. eapply Rle_trans; [apply Rabs_triang|].
      pose proof (bottom_pos p V). pose proof (refl_le I M x HM ltac:(lra) (RkI M I x FI ltac:(lra)) (fun y Hy => n_bound _ _ _ _ NI y T Hy ltac:(lra))). lra.
    Qed.
    Lemma gstep_bound x t : direction x -> 0 <= t <= T -> Rabs (gstep I x t) <= M.
    Proof.
      intros Hx Ht. refine (ode_bound p V x (gstep I x) (fun l u => gsrc K G I l x u) M Hx (gstep_cont x Hx) (fun l u Hl Hu => gstep_der l x u Hl Hx Hu) _ _ t Ht).
      - intros l u Hl Hu. apply gsrc_le'; [exact Hl|apply Hx|lra].
      - rewrite gstep_entry by exact Hx. apply gbval_le. exact Hx.
    Qed.
    Lemma gstep_lip x t t' : direction x -> 0 <= t <= T -> 0 <= t' <= T -> Rabs (gstep I x t - gstep I x t') <= 2 * M / Rabs x * Rabs (t - t').
    Proof.
      intros Hx Ht Ht'. assert (Hax : 0 < Rabs x) by (apply Rabs_pos_lt; apply Hx).
      refine (lip_all p V (gstep I x) (fun l u => (scl p l * gstep I x u - gsrc K G I l x u) / x) (2 * M / Rabs x) (gstep_cont x Hx) (fun l u Hl Hu => gstep_der l x u Hl Hx Hu) _ _ t t' Ht Ht').
      - intros l u Hl Hu. pose proof (in_bottom p V l u Hl ltac:(lra)) as Hub. unfold Rdiv. rewrite Rabs_mult, Rabs_inv. apply Rmult_le_compat_r; [apply Rlt_le, Rinv_0_lt_compat; exact Hax|].
        unfold Rminus. eapply Rle_trans; [apply Rabs_triang|]. rewrite Rabs_Ropp, Rabs_mult. pose proof (scl_pos p V l Hl) as Hs. rewrite (Rabs_pos_eq (scl p l)) by lra. pose proof (gsrc_le' l x u Hl (proj1 Hx) ltac:(lra)). pose proof (gstep_bound x u Hx Hub). pose proof (Rabs_pos (gstep I x u)). nra.
      - apply Rmult_le_pos; [lra|apply Rlt_le, Rinv_0_lt_compat; exact Hax].
    Qed.
    Lemma gbval_equi e : 0 < e -> exists d, 0 < d /\ forall s x x', s = 1 \/ s = -1 -> 0 < x <= 1 -> 0 < x' <= 1 -> Rabs (x - x') < d -> Rabs (gstep I (s * x) (entry p (s * x)) - gstep I (s * x') (entry p (s * x'))) <= e.
    Proof.
      intros He. destruct (Cn e He) as (d0 & Hd0 & E0). destruct (Cp (e / 2) ltac:(lra)) as (d1 & Hd1 & E1). destruct (refl_equi p V Rk M (e / 2) Cr HM ltac:(lra)) as (d2 & Hd2 & E2).
      exists (Rmin d0 (Rmin d1 d2)). split; [repeat apply Rmin_pos; auto|]. intros s x x' Hs Hx Hx' Hxx. pose proof (Rmin_l d0 (Rmin d1 d2)). pose proof (Rmin_r d0 (Rmin d1 d2)). pose proof (Rmin_l d1 d2). pose proof (Rmin_r d1 d2).
      rewrite !gstep_entry by (apply sgn_dir; auto). unfold gbval. destruct Hs as [-> | ->].
      - rewrite !Rmult_1_l. destruct (Rlt_dec 0 x); [|lra]. destruct (Rlt_dec 0 x'); [|lra].
        match goal with |- Rabs (?a + ?b - (?a' + ?b')) <= _ => replace (a + b - (a' + b')) with ((a - a') + (b - b')) by ring end. eapply Rle_trans; [apply Rabs_triang|]. replace e with (e / 2 + e / 2) by field. apply Rplus_le_compat; [apply E1; lra|apply E2; auto; lra].
      - destruct (Rlt_dec 0 (-1 * x)); [lra|]. destruct (Rlt_dec 0 (-1 * x')); [lra|]. replace (- (-1 * x)) with x by ring. replace (- (-1 * x')) with x' by ring. apply E0; lra.
    Qed.
    Lemma gstep_nice : nice p M (2 * M) (gstep I).
    Proof.
      constructor; [exact gstep_bound| |exact gstep_lip]. intros s t d Hs Ht Hd y Hy e He.
      destruct (equi p V K G Q KU KM GB GU M I (gstep I) HM FI gstep_bound gstep_cont gstep_der gbval_equi d (e / 2) Hd ltac:(lra)) as (dl & Hdl & H). exists dl. split; [exact Hdl|]. intros y' Hy' Hyy. apply Rle_lt_trans with (e / 2); [|lra]. apply H; auto.
    Qed.
  End Cont.

  Variable kap : R.
  Hypothesis Hkap : 1 - nu <= kap /\ r <= kap.
  (** Two solutions with neighbouring scattered radiation. *)
  Lemma near_pair M' M'' I I' F F' m : fld p M' I -> fld p M'' I' -> 0 <= m -> (forall x t, direction x -> 0 <= t <= T -> Rabs (I x t - I' x t) <= m) ->
    (forall x, direction x -> cont_on 0 T (F x)) -> (forall x, direction x -> cont_on 0 T (F' x)) ->
    (forall l x t, (l < NL)%nat -> direction x -> top_of p l < t < bot_of p l -> is_derive (F x) t ((scl p l * F x t - gsrc K G I l x t) / x)) ->
    (forall l x t, (l < NL)%nat -> direction x -> top_of p l < t < bot_of p l -> is_derive (F' x) t ((scl p l * F' x t - gsrc K G I' l x t) / x)) ->
    (forall x, direction x -> F x (entry p x) = gbval I x) -> (forall x, direction x -> F' x (entry p x) = gbval I' x) ->
    forall x t, direction x -> 0 <= t <= T -> Rabs (F x t - F' x t) <= kap * m.
  Proof.
    intros FI FI' Hm HD C1 C2 D1 D2 E1 E2 x t Hx Ht. replace (F x t - F' x t) with (F x t + (-1) * F' x t) by ring.
    refine (ode_bound p V x (fun u => F x u + (-1) * F' x u) (fun l u => gin K I l x u - gin K I' l x u) (kap * m) Hx _ _ _ _ t Ht).
    - apply cont_on_plus; [apply C1; auto|apply cont_on_scal, C2; auto].
    - intros l u Hl Hu. refine (der_eq _ _ _ _ _ (der_plus _ _ _ _ _ (D1 l x u Hl Hx Hu) (der_scal _ (-1) _ _ (D2 l x u Hl Hx Hu)))). unfold gsrc. field. apply Hx.
    - intros l u Hl Hu. pose proof (in_bottom p V l u Hl ltac:(lra)) as Hub. destruct Hx as [Hx1 Hx0]. destruct (gin_minus p K KU M' M'' I I' l x u FI FI' Hl Hx1 Hub) as (E & X1 & X2).
      rewrite E. eapply Rle_trans; [apply (gin_le p V K KM (fun y t => I y t - I' y t) m l x u Hl Hx1)|].
      + intros y Hy. apply HD; auto.
      + exact X1.
      + exact X2.
      + pose proof (scl_pos p V l Hl) as Hsc. pose proof (proj2 Hnu l Hl) as Hn. destruct Hkap as [Hk _]. destruct Hnu as [Hn0 _]. rewrite Rmult_comm, <- Rmult_assoc. apply Rmult_le_compat_r; [exact Hm|].
        apply Rle_trans with (scl p l * (1 - nu)); [nra|]. apply Rmult_le_compat_l; lra.
    - rewrite E1, E2 by exact Hx. unfold gbval. assert (Hkm : r * m <= kap * m) by (apply Rmult_le_compat_r; [exact Hm|apply Hkap]). assert (0 <= r * m) by (apply Rmult_le_pos; auto). destruct Hx as [Hx1 Hx0].
      assert (Z : forall a, a + (-1) * a = 0) by (intros; ring). destruct (Rlt_dec 0 x) as [H0|H0]; [|rewrite Z, Rabs_R0; lra].
      match goal with |- Rabs (?a + ?b + (-1) * (?a + ?b')) <= _ => replace (a + b + (-1) * (a + b')) with (b - b') by ring end. pose proof (bottom_pos p V) as HT.
      destruct (int_diff _ _ (RkI M' I x FI ltac:(lra)) (RkI M'' I' x FI' ltac:(lra))) as [E X]. rewrite <- E. eapply Rle_trans; [|exact Hkm].
      rewrite (RInt_ext1' (fun y => Rk x y * I (- y) T - Rk x y * I' (- y) T) (fun y => Rk x y * (fun z u => I z u - I' z u) (- y) T)) by (intros; ring). apply (refl_le (fun z u => I z u - I' z u) m x Hm ltac:(lra)).
      + eapply ex_RInt_ext; [|exact X]. intros y _. cbv beta. change (Rk x y * I (- y) T - Rk x y * I' (- y) T = Rk x y * (I (- y) T - I' (- y) T)). ring.
      + intros y Hy. apply HD; [exact Hy|lra].
  Qed.
End Step.

Section Exact.
  Variables (p : py_in) (V : valid p) (K G : nat -> R -> R -> R) (Q : R) (bn bp : R -> R) (Rk R0 : R -> R -> R) (r : R).
  Notation NL := (nlayers p).
  Notation T := (bottom p).
  Hypothesis KU : kucont NL K.
  Hypothesis KM : forall l x y, (l < NL)%nat -> -1 <= x <= 1 -> -1 <= y <= 1 -> Rabs (K l x y) <= scatters p l x y.
  Hypothesis GB : forall l x t, (l < NL)%nat -> -1 <= x <= 1 -> top_of p l <= t <= bot_of p l -> Rabs (G l x t) <= Q.
  Hypothesis GU : gucont p G.
  Hypothesis GC : forall l x, (l < NL)%nat -> -1 <= x <= 1 -> cont_on (top_of p l) (bot_of p l) (G l x).
  Hypothesis Cn : ucont1 bn.
  Hypothesis Cp : ucont1 bp.
  Hypothesis Cr : ucont2 Rk.
  Hypothesis RM : forall x y, 0 <= x <= 1 -> 0 <= y <= 1 -> Rabs (Rk x y) <= R0 x y.
  Hypothesis RI : forall x, 0 < x <= 1 -> ex_RInt (R0 x) 0 1 /\ RInt (R0 x) 0 1 <= r.
  Hypothesis Hr1 : r < 1.

  Lemma gr_pos : 0 <= r.
  Proof. destruct (RI 1 ltac:(lra)) as [X H]. apply Rle_trans with (RInt (R0 1) 0 1); [|exact H]. apply RInt_ge_0; [lra|exact X|]. intros y Hy. eapply Rle_trans; [apply Rabs_pos|apply (RM 1 y); lra]. Qed.

  Theorem gexists : exists J, gfield p K G bn bp Rk J.
  Proof.
    destruct (nu_ex p V) as (nu & Hn0 & Hnu). pose proof gr_pos as Hr0. destruct (ucont1_bounded bn Cn) as (Bn & HBn & Hbn). destruct (ucont1_bounded bp Cp) as (Bp & HBp & Hbp).
    assert (HQ0 : 0 <= Q). { pose proof (v_ne p V) as Hne. eapply Rle_trans; [apply Rabs_pos|apply (GB 0 0 0)]; [lia|lra|]. pose proof (v_inc p V 0 ltac:(lia)). cbn [top_of] in *. lra. }
    set (M := Q / nu + Bp / (1 - r) + Bn). assert (H1 : 0 <= Q / nu) by (apply Rmult_le_pos; [lra|apply Rlt_le, Rinv_0_lt_compat; lra]). assert (H2 : 0 <= Bp / (1 - r)) by (apply Rmult_le_pos; [lra|apply Rlt_le, Rinv_0_lt_compat; lra]).
    assert (HM : 0 <= M) by (unfold M; lra). assert (HM1 : Q <= nu * M). { apply Rle_trans with (nu * (Q / nu)); [right; field; lra|]. apply Rmult_le_compat_l; [lra|unfold M; lra]. }
    assert (HM2 : forall x, 0 < x <= 1 -> Rabs (bn x) <= M /\ Rabs (bp x) + r * M <= M).
    { intros x Hx. pose proof (Hbn x ltac:(lra)). pose proof (Hbp x ltac:(lra)). split; [unfold M; lra|]. assert (Bp <= (1 - r) * M); [|lra]. apply Rle_trans with ((1 - r) * (Bp / (1 - r))); [right; field; lra|]. apply Rmult_le_compat_l; [lra|unfold M; lra]. }
    set (st := gstep p K G bn bp Rk). set (it := fix it n := match n with O => fun _ _ => 0 | Datatypes.S k => st (it k) end).
    set (kap := Rmax (1 - nu) r). assert (Hk : 0 <= kap < 1) by (split; [eapply Rle_trans; [exact Hr0|apply Rmax_r]|apply Rmax_lub_lt; lra]). assert (Hk' : 1 - nu <= kap /\ r <= kap) by (split; [apply Rmax_l|apply Rmax_r]).
    assert (Hnu' : 0 < nu /\ forall l, (l < NL)%nat -> nu <= 1 - albedo p l) by (split; [apply Hn0|exact Hnu]).
    assert (SN : forall C I, 0 <= C -> nice p M C I -> nice p M (2 * M) (st I)). { intros C I HC NI. exact (gstep_nice p V K G Q bn bp Rk R0 r nu M KU KM GB GU GC Cn Cp Cr RM RI Hnu' HM HM1 HM2 C I HC NI). }
    assert (SD : forall C C' I I' m, 0 <= C -> 0 <= C' -> nice p M C I -> nice p M C' I' -> 0 <= m -> (forall x t, direction x -> 0 <= t <= T -> Rabs (I x t - I' x t) <= m) ->
      forall x t, direction x -> 0 <= t <= T -> Rabs (st I x t - st I' x t) <= kap * m).
    { intros C C' I I' m HC HC' NI NI' Hm HD. apply (near_pair p V K G bn bp Rk R0 r nu KU KM Cr RM RI Hr0 Hnu' kap Hk' M M I I' (st I) (st I') m (nice_fld p M C I NI) (nice_fld p M C' I' NI') Hm HD).
      - intros x Hx. apply (gstep_cont p V K G bn bp Rk M KU KM GC HM C); auto.
      - intros x Hx. apply (gstep_cont p V K G bn bp Rk M KU KM GC HM C'); auto.
      - intros l x t Hl Hx Ht. apply (gstep_der p V K G bn bp Rk M KU KM GC HM C); auto.
      - intros l x t Hl Hx Ht. apply (gstep_der p V K G bn bp Rk M KU KM GC HM C'); auto.
      - intros x Hx. apply gstep_entry; auto.
      - intros x Hx. apply gstep_entry; auto. }
    assert (NI : forall n, nice p M (2 * M) (it n)).
    { induction n as [|n IH]; [|cbn [it]; apply (SN (2 * M)); [lra|exact IH]]. cbn [it]. constructor; [intros; rewrite Rabs_R0; exact HM|intros; apply cont_on_const|].
      intros x t t' Hx _ _. rewrite Rminus_0_r, Rabs_R0. apply Rmult_le_pos; [|apply Rabs_pos]. apply Rmult_le_pos; [lra|]. apply Rlt_le, Rinv_0_lt_compat, Rabs_pos_lt, Hx. }
    assert (D : forall n k x t, direction x -> 0 <= t <= T -> Rabs (it (n + k)%nat x t - it n x t) <= kap ^ n * (2 * M)).
    { induction n as [|n IH]; intros k x t Hx Ht.
      - cbn [pow]. unfold Rminus. eapply Rle_trans; [apply Rabs_triang|]. rewrite Rabs_Ropp. pose proof (n_bound _ _ _ _ (NI (0 + k)%nat) x t Hx Ht). pose proof (n_bound _ _ _ _ (NI 0%nat) x t Hx Ht). lra.
      - cbn [pow Nat.add it]. rewrite Rmult_assoc. apply (SD (2 * M) (2 * M)); auto; try lra. apply Rmult_le_pos; [apply pow_le|]; lra. }
    set (J := fun x t => real (Lim_seq (fun n => it n x t))).
    assert (Lim : forall x t, direction x -> 0 <= t <= T -> is_lim_seq (fun n => it n x t) (J x t)).
    { intros x t Hx Ht. apply Lim_seq_correct'. apply ex_lim_seq_cauchy_corr. intros eps. destruct (pow_small kap (2 * M) (eps / 2) Hk ltac:(lra) ltac:(pose proof (cond_pos eps); lra)) as (N & HN). exists N. intros n m Hn Hm. specialize (HN N (Nat.le_refl N)).
      pose proof (D N (n - N)%nat x t Hx Ht) as A. pose proof (D N (m - N)%nat x t Hx Ht) as B. replace (N + (n - N))%nat with n in A by lia. replace (N + (m - N))%nat with m in B by lia. apply Rabs_le_between in A. apply Rabs_le_between in B. apply Rabs_def1; lra. }
    assert (Near : forall n x t, direction x -> 0 <= t <= T -> Rabs (J x t - it n x t) <= kap ^ n * (2 * M)).
    { intros n x t Hx Ht. apply le_epsilon. intros e He. pose proof (Lim x t Hx Ht) as L. apply is_lim_seq_spec in L. destruct (L (mkposreal e He)) as (N & HN). cbn [pos] in HN. specialize (HN (n + N)%nat ltac:(lia)). pose proof (D n N x t Hx Ht) as A.
      replace (J x t - it n x t) with (- (it (n + N)%nat x t - J x t) + (it (n + N)%nat x t - it n x t)) by ring. eapply Rle_trans; [apply Rabs_triang|]. rewrite Rabs_Ropp. lra. }
    assert (Small : forall e, 0 < e -> exists n, forall x t, direction x -> 0 <= t <= T -> Rabs (J x t - it n x t) < e). { intros e He. destruct (pow_small kap (2 * M) e Hk ltac:(lra) He) as (N & HN). exists N. intros x t Hx Ht. specialize (HN N (Nat.le_refl N)). pose proof (Near N x t Hx Ht). lra. }
    assert (NJ : nice p M (2 * M) J).
    { constructor.
      - intros x t Hx Ht. apply le_epsilon. intros e He. destruct (Small e He) as (n & Hn). pose proof (n_bound _ _ _ _ (NI n) x t Hx Ht). pose proof (Hn x t Hx Ht). replace (J x t) with ((J x t - it n x t) + it n x t) by ring. eapply Rle_trans; [apply Rabs_triang|]. lra.
      - intros s t d Hs Ht Hd y Hy e He. destruct (Small (e / 3) ltac:(lra)) as (n & Hn). destruct (n_dir _ _ _ _ (NI n) s t d Hs Ht Hd y Hy (e / 3) ltac:(lra)) as (dl & Hdl & H). exists dl. split; [exact Hdl|]. intros y' Hy' Hyy. specialize (H y' Hy' Hyy).
        pose proof (Hn (s * y) t (sgn_dir s y Hs ltac:(lra)) Ht) as A. pose proof (Hn (s * y') t (sgn_dir s y' Hs ltac:(lra)) Ht) as B. apply Rabs_def2 in A. apply Rabs_def2 in B. apply Rabs_def2 in H. apply Rabs_def1; lra.
      - intros x t t' Hx Ht Ht'. apply le_epsilon. intros e He. destruct (Small (e / 2) ltac:(lra)) as (n & Hn). pose proof (n_lip _ _ _ _ (NI n) x t t' Hx Ht Ht'). pose proof (Hn x t Hx Ht). pose proof (Hn x t' Hx Ht').
        replace (J x t - J x t') with ((J x t - it n x t) + ((it n x t - it n x t') + - (J x t' - it n x t'))) by ring. eapply Rle_trans; [apply Rabs_triang|]. pose proof (Rabs_triang (it n x t - it n x t') (- (J x t' - it n x t'))) as X. rewrite Rabs_Ropp in X. lra. }
    assert (HM22 : 0 <= 2 * M) by lra. assert (NS : nice p M (2 * M) (st J)) by (apply (SN (2 * M)); auto).
    assert (EQ : forall x t, direction x -> 0 <= t <= T -> st J x t = J x t).
    { intros x t Hx Ht. destruct (Req_dec (st J x t) (J x t)) as [|Hne]; [assumption|exfalso]. assert (He : 0 < Rabs (st J x t - J x t)) by (apply Rabs_pos_lt; lra). destruct (pow_small kap (4 * M) _ Hk ltac:(lra) He) as (N & HN). specialize (HN (Datatypes.S N) ltac:(lia)).
      assert (P0 : 0 <= kap ^ N * (2 * M)) by (apply Rmult_le_pos; [apply pow_le|]; lra).
      pose proof (SD (2 * M) (2 * M) J (it N) (kap ^ N * (2 * M)) HM22 HM22 NJ (NI N) P0 (Near N) x t Hx Ht) as A. pose proof (Near (Datatypes.S N) x t Hx Ht) as B. change (it (Datatypes.S N) x t) with (st (it N) x t) in B.
      pose proof (Rabs_triang (st J x t - st (it N) x t) (- (J x t - st (it N) x t))) as X. rewrite Rabs_Ropp in X. replace (st J x t - st (it N) x t + - (J x t - st (it N) x t)) with (st J x t - J x t) in X by ring. fold st in A. cbn [pow] in *. lra. }
    assert (FS : fld p M (st J)) by exact (nice_fld p M (2 * M) (st J) NS).
    assert (ES : forall l x t, 0 <= t <= T -> gin K J l x t = gin K (st J) l x t).
    { intros l x t Ht. unfold gin. f_equal; apply RInt_ext; intros y; rewrite Rmin_left, Rmax_right by lra; intros Hy; rewrite EQ; auto; split; lra. }
    exists (st J). constructor.
    - exists M. split; [exact HM|exact FS].
    - intros x Hx. apply (gstep_cont p V K G bn bp Rk M KU KM GC HM (2 * M) J HM22 NJ x Hx).
    - intros l x t Hl Hx Ht. refine (der_eq _ _ _ _ _ (gstep_der p V K G bn bp Rk M KU KM GC HM (2 * M) J HM22 NJ l x t Hl Hx Ht)). fold st. unfold gsrc. rewrite (ES l x t (in_bottom p V l t Hl ltac:(lra))). reflexivity.
    - intros x Hx. pose proof (gstep_entry p K G bn bp Rk J (- x) ltac:(split; lra)) as E. unfold entry, gbval in E. fold st in E. destruct (Rlt_dec 0 (- x)); [lra|]. rewrite Ropp_involutive in E. exact E.
    - intros x Hx. pose proof (gstep_entry p K G bn bp Rk J x ltac:(split; lra)) as E. unfold entry, gbval in E. fold st in E. destruct (Rlt_dec 0 x); [|lra]. rewrite E. f_equal.
      apply RInt_ext. intros y. rewrite Rmin_left, Rmax_right by lra. intros Hy. pose proof (bottom_pos p V). rewrite EQ; [reflexivity|split; lra|lra].
  Qed.
End Exact.
