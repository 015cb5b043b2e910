(** Transfer in all directions with a general kernel: how the radiation varies with the direction, and
    quadratures over the directions. *)
From Coq Require Import Classical String Reals Lra Lia List Bool Arith ZArith.
From Coquelicot Require Import Coquelicot.
From Verif Require Import Base Tensor Spec M_LinAlg Spec_RTE Calc M_Subroutines M_GenPart M_MathscrV M_Coeffs M_Assemble M_Pydisort
  Spec_Sol Spec_Valid Spec_Calls Spec_Unique Spec_Phys Spec_Mono Spec_Depend Spec_Exact P_Special P_Addition P_Quad P_Fourier P_Sub P_Solve P_Energy P_Pydisort P_Pydisort2 P_Pydisort3 P_Pydisort4 P_Pydisort5 P_Pydisort6 P_Pydisort8 P_Teq P_NT P_NT3 P_Unique2 P_Refine P_Max P_Max2 P_Max3 P_Max4 P_Mono P_Sym P_Depend P_Depend2 P_Gauss P_Conv P_Conv2 P_Conv3 P_Exist P_Exist2 P_Exist3 P_Full2 P_Exist4 P_Exist5 P_Exist6.
Import ListNotations.
Local Open Scope R_scope.

(** Uniform continuity of a kernel and of a source in the directions. *)
Definition kucont (n : nat) (K : nat -> R -> R -> R) : Prop :=
  forall e, 0 < e -> exists d, 0 < d /\ forall l x x' y y', (l < n)%nat -> -1 <= x <= 1 -> -1 <= x' <= 1 -> -1 <= y <= 1 -> -1 <= y' <= 1 ->
    Rabs (x - x') < d -> Rabs (y - y') < d -> Rabs (K l x y - K l x' y') <= e.
Definition gucont (p : py_in) (G : nat -> R -> R -> R) : Prop :=
  forall e, 0 < e -> exists d, 0 < d /\ forall l x x' t, (l < nlayers p)%nat -> -1 <= x <= 1 -> -1 <= x' <= 1 -> top_of p l <= t <= bot_of p l ->
    Rabs (x - x') < d -> Rabs (G l x t - G l x' t) <= e.
(** Fields that can be integrated over the directions. *)
Definition fld (p : py_in) (M : R) (I : R -> R -> R) : Prop :=
  (forall x t, direction x -> 0 <= t <= bottom p -> Rabs (I x t) <= M) /\
  (forall g t, cont_on 0 1 g -> 0 <= t <= bottom p -> ex_RInt (fun y => g y * I y t) 0 1 /\ ex_RInt (fun y => g y * I (- y) t) 0 1).
Lemma nice_fld p M C I : nice p M C I -> fld p M I.
Proof. intros NI. split; [exact (n_bound _ _ _ _ NI)|]. intros g t Hg Ht. split; [apply (nice_int1 p M C I NI); auto|apply (nice_int2 p M C I NI); auto]. Qed.
Definition gin (K : nat -> R -> R -> R) (I : R -> R -> R) (l : nat) (x t : R) : R := RInt (fun y => K l x y * I y t) 0 1 + RInt (fun y => K l x (- y) * I (- y) t) 0 1.

Section Gen.
  Variables (p : py_in) (V : valid p) (K G : nat -> R -> R -> R) (Q : R).
  Notation NL := (nlayers p).
  Notation T := (bottom p).
  Hypothesis KU : kucont NL K.
  Hypothesis KM : forall l x y, (l < NL)%nat -> -1 <= x <= 1 -> -1 <= y <= 1 -> Rabs (K l x y) <= scatters p l x y.
  Hypothesis GB : forall l x t, (l < NL)%nat -> -1 <= x <= 1 -> top_of p l <= t <= bot_of p l -> Rabs (G l x t) <= Q.
  Hypothesis GU : gucont p G.
  Definition gsrc (I : R -> R -> R) (l : nat) (x t : R) : R := gin K I l x t + G l x t.

  Lemma Kg_cont l x s : (l < NL)%nat -> -1 <= x <= 1 -> s = 1 \/ s = -1 -> cont_on 0 1 (fun y => K l x (s * y)).
  Proof.
    intros Hl Hx Hs y Hy e He. destruct (KU (e / 2) ltac:(lra)) as (d & Hd & H). exists d. split; [exact Hd|]. intros y' Hy' Hyy.
    assert (S1 : forall z, 0 <= z <= 1 -> -1 <= s * z <= 1) by (intros z Hz; destruct Hs as [-> | ->]; lra).
    apply Rle_lt_trans with (e / 2); [|lra]. apply H; auto; [rewrite Rminus_eq_0, Rabs_R0; exact Hd|]. rewrite <- Rmult_minus_distr_l, Rabs_mult, (sgn_abs s Hs), Rmult_1_l. exact Hyy.
  Qed.
  Lemma Kg1 l x : (l < NL)%nat -> -1 <= x <= 1 -> cont_on 0 1 (fun y => K l x y).
  Proof. intros Hl Hx. apply (cont_on_ext _ _ (fun y => K l x (1 * y))); [intros; rewrite Rmult_1_l; reflexivity|]. exact (Kg_cont l x 1 Hl Hx (or_introl eq_refl)). Qed.
  Lemma Kg2 l x : (l < NL)%nat -> -1 <= x <= 1 -> cont_on 0 1 (fun y => K l x (- y)).
  Proof. intros Hl Hx. apply (cont_on_ext _ _ (fun y => K l x (-1 * y))); [intros; f_equal; ring|]. exact (Kg_cont l x (-1) Hl Hx (or_intror eq_refl)). Qed.
  Lemma KgI M I : fld p M I -> forall l x t, (l < NL)%nat -> -1 <= x <= 1 -> 0 <= t <= T -> ex_RInt (fun y => K l x y * I y t) 0 1 /\ ex_RInt (fun y => K l x (- y) * I (- y) t) 0 1.
  Proof. intros [_ HI] l x t Hl Hx Ht. split; [apply (HI (fun y => K l x y) t (Kg1 l x Hl Hx) Ht)|apply (HI (fun y => K l x (- y)) t (Kg2 l x Hl Hx) Ht)]. Qed.
  Lemma Kg_bound : exists B, 0 <= B /\ forall l x y, (l < NL)%nat -> -1 <= x <= 1 -> -1 <= y <= 1 -> Rabs (K l x y) <= B.
  Proof. destruct (K_bound p) as (B & HB & H). exists B. split; [exact HB|]. intros l x y Hl Hx Hy. eapply Rle_trans; [apply KM; auto|]. eapply Rle_trans; [apply Rle_abs|apply H; auto]. Qed.

  (** What is scattered of a field bounded by [m]. *)
  Lemma gin_le I m l x t : (l < NL)%nat -> -1 <= x <= 1 -> (forall y, direction y -> Rabs (I y t) <= m) -> ex_RInt (fun y => K l x y * I y t) 0 1 -> ex_RInt (fun y => K l x (- y) * I (- y) t) 0 1 ->
    Rabs (gin K I l x t) <= m * (scl p l - (1 - albedo p l)).
  Proof.
    intros Hl Hx HI X1 X2. rewrite <- (K_row p V l x Hl Hx), Rmult_plus_distr_l. unfold gin. eapply Rle_trans; [apply Rabs_triang|]. apply Rplus_le_compat; (apply RInt_bound; [assumption| |]).
    - apply K_int1; auto.
    - intros y Hy. rewrite Rabs_mult, Rmult_comm. apply Rmult_le_compat; auto using Rabs_pos; [apply HI; split; lra|apply KM; auto; lra].
    - apply K_int2; auto.
    - intros y Hy. rewrite Rabs_mult, Rmult_comm. apply Rmult_le_compat; auto using Rabs_pos; [apply HI; split; lra|apply KM; auto; lra].
  Qed.
  Lemma gin_minus M M' I I' l x t : fld p M I -> fld p M' I' -> (l < NL)%nat -> -1 <= x <= 1 -> 0 <= t <= T ->
    gin K I l x t - gin K I' l x t = gin K (fun y t => I y t - I' y t) l x t /\ ex_RInt (fun y => K l x y * (I y t - I' y t)) 0 1 /\ ex_RInt (fun y => K l x (- y) * (I (- y) t - I' (- y) t)) 0 1.
  Proof.
    intros FI FI' Hl Hx Ht. destruct (KgI M I FI l x t Hl Hx Ht) as [A1 A2]. destruct (KgI M' I' FI' l x t Hl Hx Ht) as [B1 B2]. destruct (int_diff _ _ A1 B1) as [E1 X1]. destruct (int_diff _ _ A2 B2) as [E2 X2]. split; [|split].
    - unfold gin. rewrite (RInt_ext1' (fun y => K l x y * (I y t - I' y t)) (fun y => K l x y * I y t - K l x y * I' y t)) by (intros; ring).
      rewrite (RInt_ext1' (fun y => K l x (- y) * (I (- y) t - I' (- y) t)) (fun y => K l x (- y) * I (- y) t - K l x (- y) * I' (- y) t)) by (intros; ring). rewrite E1, E2. ring.
    - eapply ex_RInt_ext; [|exact X1]. intros y _. cbv beta. change (K l x y * I y t - K l x y * I' y t = K l x y * (I y t - I' y t)). ring.
    - eapply ex_RInt_ext; [|exact X2]. intros y _. cbv beta. change (K l x (- y) * I (- y) t - K l x (- y) * I' (- y) t = K l x (- y) * (I (- y) t - I' (- y) t)). ring.
  Qed.
  Lemma gin_dir M e : 0 <= M -> 0 < e -> exists d, 0 < d /\ forall I, fld p M I -> forall l x x' t, (l < NL)%nat -> -1 <= x <= 1 -> -1 <= x' <= 1 -> 0 <= t <= T -> Rabs (x - x') < d -> Rabs (gin K I l x t - gin K I l x' t) <= e.
  Proof.
    intros HM He. set (e' := e / (2 * (M + 1))). assert (He' : 0 < e') by (apply Rdiv_lt_0_compat; lra). assert (E : 2 * (e' * M) <= e). { apply Rle_trans with (2 * (e' * (M + 1))); [lra|]. right. unfold e'. field. lra. }
    destruct (KU e' He') as (d & Hd & H). exists d. split; [exact Hd|]. intros I FI l x x' t Hl Hx Hx' Ht Hxx. unfold gin. destruct (KgI M I FI l x t Hl Hx Ht) as [A1 A2]. destruct (KgI M I FI l x' t Hl Hx' Ht) as [B1 B2].
    match goal with |- Rabs (?a + ?b - (?a' + ?b')) <= _ => replace (a + b - (a' + b')) with ((a - a') + (b - b')) by ring end. assert (Z : forall y : R, Rabs (y - y) < d) by (intros; rewrite Rminus_eq_0, Rabs_R0; exact Hd).
    eapply Rle_trans; [apply Rabs_triang|]. eapply Rle_trans; [|exact E]. rewrite double. apply Rplus_le_compat.
    - apply RInt_near; [exact A1|exact B1|]. intros y Hy. rewrite <- Rmult_minus_distr_r, Rabs_mult. apply Rmult_le_compat; auto using Rabs_pos; [apply H; auto; lra|apply FI; [split; lra|auto]].
    - apply RInt_near; [exact A2|exact B2|]. intros y Hy. rewrite <- Rmult_minus_distr_r, Rabs_mult. apply Rmult_le_compat; auto using Rabs_pos; [apply H; auto; lra|apply FI; [split; lra|auto]].
  Qed.

  (** Radiation in neighbouring directions, away from the horizontal. *)
  Section Equi.
    Variables (M : R) (I F : R -> R -> R).
    Hypothesis HM : 0 <= M.
    Hypothesis FI : fld p M I.
    Hypothesis FB : forall x t, direction x -> 0 <= t <= T -> Rabs (F x t) <= M.
    Hypothesis Fc : forall x, direction x -> cont_on 0 T (F x).
    Hypothesis Fd : forall l x t, (l < NL)%nat -> direction x -> top_of p l < t < bot_of p l -> is_derive (F x) t ((scl p l * F x t - gsrc I l x t) / x).
    Hypothesis Fe : forall e, 0 < e -> exists d, 0 < d /\ forall s x x', s = 1 \/ s = -1 -> 0 < x <= 1 -> 0 < x' <= 1 -> Rabs (x - x') < d -> Rabs (F (s * x) (entry p (s * x)) - F (s * x') (entry p (s * x'))) <= e.

    Lemma gsrc_le l x t : (l < NL)%nat -> -1 <= x <= 1 -> top_of p l <= t <= bot_of p l -> Rabs (gsrc I l x t) <= M + Q.
    Proof.
      intros Hl Hx Ht. pose proof (in_bottom p V l t Hl Ht) as Htb. unfold gsrc. eapply Rle_trans; [apply Rabs_triang|]. apply Rplus_le_compat; [|apply GB; auto].
      destruct (KgI M I FI l x t Hl Hx Htb) as [X1 X2]. eapply Rle_trans; [apply (gin_le I M l x t Hl Hx (fun y Hy => proj1 FI y t Hy Htb) X1 X2)|]. pose proof (scl_pos p V l Hl). pose proof (albedo_range p V l Hl). nra.
    Qed.
    Theorem equi dl e : 0 < dl -> 0 < e -> exists d, 0 < d /\ forall s x x' t, s = 1 \/ s = -1 -> dl <= x <= 1 -> dl <= x' <= 1 -> Rabs (x - x') < d -> 0 <= t <= T -> Rabs (F (s * x) t - F (s * x') t) <= e.
    Proof.
      intros Hd He. destruct (pos_lower NL (scl p) (fun l Hl => proj1 (scl_pos p V l Hl))) as (sg & Hsg & Hsg'). assert (Hse : 0 < sg * e / 3) by (apply Rdiv_lt_0_compat; [apply Rmult_lt_0_compat; lra|lra]).
      destruct (gin_dir M (sg * e / 3) HM Hse) as (d0 & Hd0 & E0). destruct (GU (sg * e / 3) Hse) as (d1 & Hd1 & E1). destruct (Fe e He) as (d2 & Hd2 & E2). assert (Hid : 0 < / dl) by (apply Rinv_0_lt_compat; lra).
      assert (HQ : 0 <= Q). { pose proof (v_ne p V) as Hne. eapply Rle_trans; [apply Rabs_pos|apply (GB 0 0 0)]; [lia|lra|]. pose proof (v_inc p V 0 ltac:(lia)). cbn [top_of] in *. lra. }
      destruct (small (/ dl * (2 * M + Q)) (sg * e / 3) ltac:(apply Rmult_le_pos; lra) Hse) as (d3 & Hd3 & E3).
      exists (Rmin (Rmin d0 d1) (Rmin d2 d3)). split; [repeat apply Rmin_pos; auto|]. intros s x x' t Hs Hx Hx' Hxx Ht. pose proof (Rmin_l (Rmin d0 d1) (Rmin d2 d3)). pose proof (Rmin_r (Rmin d0 d1) (Rmin d2 d3)). pose proof (Rmin_l d0 d1). pose proof (Rmin_r d0 d1). pose proof (Rmin_l d2 d3). pose proof (Rmin_r d2 d3).
      pose proof (sgn_dir s x Hs ltac:(lra)) as D. pose proof (sgn_dir s x' Hs ltac:(lra)) as D'.
      replace (F (s * x) t - F (s * x') t) with (F (s * x) t + (-1) * F (s * x') t) by ring.
      refine (ode_bound p V (s * x) (fun u => F (s * x) u + (-1) * F (s * x') u)
        (fun l u => (gsrc I l (s * x) u - gsrc I l (s * x') u) + (1 - x / x') * (gsrc I l (s * x') u - scl p l * F (s * x') u)) e D _ _ _ _ t Ht).
      - apply cont_on_plus; [apply Fc; exact D|apply cont_on_scal, Fc; exact D'].
      - intros l u Hl Hu. refine (der_eq _ _ _ _ _ (der_plus _ _ _ _ _ (Fd l (s * x) u Hl D Hu) (der_scal _ (-1) _ _ (Fd l (s * x') u Hl D' Hu)))).
        assert (s <> 0) by (destruct Hs as [-> | ->]; lra). field. repeat split; lra.
      - intros l u Hl Hu. pose proof (in_bottom p V l u Hl ltac:(lra)) as Hub. pose proof (scl_pos p V l Hl) as Hsc.
        assert (Ed : Rabs (s * x - s * x') = Rabs (x - x')) by (rewrite <- Rmult_minus_distr_l, Rabs_mult, (sgn_abs s Hs); ring).
        pose proof (E0 I FI l (s * x) (s * x') u Hl (proj1 D) (proj1 D') Hub ltac:(rewrite Ed; lra)) as A1. pose proof (E1 l (s * x) (s * x') u Hl (proj1 D) (proj1 D') ltac:(lra) ltac:(rewrite Ed; lra)) as A2.
        pose proof (gsrc_le l (s * x') u Hl (proj1 D') ltac:(lra)) as A3. pose proof (FB (s * x') u D' Hub) as A4.
        assert (A5 : Rabs (gsrc I l (s * x') u - scl p l * F (s * x') u) <= 2 * M + Q).
        { unfold Rminus at 1. eapply Rle_trans; [apply Rabs_triang|]. rewrite Rabs_Ropp, Rabs_mult, (Rabs_pos_eq (scl p l)) by lra. pose proof (Rabs_pos (F (s * x') u)). nra. }
        assert (A6 : Rabs (1 - x / x') <= / dl * Rabs (x - x')). { replace (1 - x / x') with (/ x' * - (x - x')) by (field; lra). rewrite Rabs_mult, Rabs_Ropp, (Rabs_pos_eq (/ x')) by (apply Rlt_le, Rinv_0_lt_compat; lra). apply Rmult_le_compat_r; [apply Rabs_pos|]. apply Rinv_le_contravar; lra. }
        pose proof (E3 (Rabs (x - x')) ltac:(pose proof (Rabs_pos (x - x')); lra)) as A7. pose proof (Hsg' l Hl) as A8. assert (sg * e <= scl p l * e) by (apply Rmult_le_compat_r; lra).
        eapply Rle_trans; [apply Rabs_triang|]. rewrite (Rabs_mult (1 - x / x')). assert (A9 : Rabs (1 - x / x') * Rabs (gsrc I l (s * x') u - scl p l * F (s * x') u) <= / dl * Rabs (x - x') * (2 * M + Q)) by (apply Rmult_le_compat; auto using Rabs_pos).
        unfold gsrc at 1 2. match goal with |- Rabs (?a + ?b - (?a' + ?b')) + _ <= _ => replace (a + b - (a' + b')) with ((a - a') + (b - b')) by ring; pose proof (Rabs_triang (a - a') (b - b')) end. lra.
      - assert (Ee : entry p (s * x') = entry p (s * x)). { unfold entry. destruct Hs as [-> | ->]; destruct (Rlt_dec 0 _), (Rlt_dec 0 _); lra || reflexivity. }
        rewrite <- Ee at 2. replace (F (s * x) (entry p (s * x)) + (-1) * F (s * x') (entry p (s * x'))) with (F (s * x) (entry p (s * x)) - F (s * x') (entry p (s * x'))) by ring. apply E2; auto; lra.
    Qed.
  End Equi.
End Gen.

(** The transfer problem with kernel [K], sources [G], radiation [bn] on the top, [bp] from the surface, and
    reflection [Rk]. *)
Record gfield (p : py_in) (K G : nat -> R -> R -> R) (bn bp : R -> R) (Rk : R -> R -> R) (J : R -> R -> R) : Prop := mkGF {
  gf_fld : exists M, 0 <= M /\ fld p M J;
  gf_continuous : forall x, direction x -> cont_on 0 (bottom p) (J x);
  gf_transfer : forall l x t, (l < nlayers p)%nat -> direction x -> top_of p l < t < bot_of p l -> is_derive (J x) t ((scl p l * J x t - gsrc K G J l x t) / x);
  gf_top : forall x, 0 < x <= 1 -> J (- x) 0 = bn x;
  gf_bottom : forall x, 0 < x <= 1 -> J x (bottom p) = bp x + RInt (fun y => Rk x y * J (- y) (bottom p)) 0 1
}.
Lemma ucont2_c Rk x : ucont2 Rk -> 0 <= x <= 1 -> cont_on 0 1 (Rk x).
Proof.
  intros Cr Hx y Hy e He. destruct (Cr (e / 2) ltac:(lra)) as (d & Hd & H). exists d. split; [exact Hd|]. intros y' Hy' Hyy. apply Rle_lt_trans with (e / 2); [|lra]. apply H; auto. rewrite Rminus_eq_0, Rabs_R0. exact Hd.
Qed.
(** What the surface returns varies little between neighbouring directions. *)
Lemma refl_equi p (V : valid p) Rk M e : ucont2 Rk -> 0 <= M -> 0 < e -> exists d, 0 < d /\ forall I, fld p M I -> forall x x', 0 <= x <= 1 -> 0 <= x' <= 1 -> Rabs (x - x') < d ->
  Rabs (RInt (fun y => Rk x y * I (- y) (bottom p)) 0 1 - RInt (fun y => Rk x' y * I (- y) (bottom p)) 0 1) <= e.
Proof.
  intros Cr HM He. destruct (Cr (e / (M + 1)) ltac:(apply Rdiv_lt_0_compat; lra)) as (d & Hd & H). exists d. split; [exact Hd|]. intros I [FB FI] x x' Hx Hx' Hxx. pose proof (bottom_pos p V) as HT.
  apply RInt_near; [apply (FI (Rk x)); [apply ucont2_c; auto|lra]|apply (FI (Rk x')); [apply ucont2_c; auto|lra]|]. intros y Hy. rewrite <- Rmult_minus_distr_r, Rabs_mult.
  apply Rle_trans with (e / (M + 1) * (M + 1)); [|right; field; lra]. apply Rmult_le_compat; auto using Rabs_pos; [apply H; auto; try lra; rewrite Rminus_eq_0, Rabs_R0; exact Hd|]. eapply Rle_trans; [apply FB; [split; lra|lra]|lra].
Qed.

Section Field.
  Variables (p : py_in) (V : valid p) (K G : nat -> R -> R -> R) (Q : R) (bn bp : R -> R) (Rk : R -> R -> R) (J : R -> R -> R).
  Notation NL := (nlayers p).
  Notation T := (bottom p).
  Hypothesis KU : kucont NL K.
  Hypothesis KM : forall l x y, (l < NL)%nat -> -1 <= x <= 1 -> -1 <= y <= 1 -> Rabs (K l x y) <= scatters p l x y.
  Hypothesis GB : forall l x t, (l < NL)%nat -> -1 <= x <= 1 -> top_of p l <= t <= bot_of p l -> Rabs (G l x t) <= Q.
  Hypothesis GU : gucont p G.
  Hypothesis Cn : ucont1 bn.
  Hypothesis Cp : ucont1 bp.
  Hypothesis Cr : ucont2 Rk.
  Hypothesis GF : gfield p K G bn bp Rk J.

  Lemma gf_entry e : 0 < e -> exists d, 0 < d /\ forall s x x', s = 1 \/ s = -1 -> 0 < x <= 1 -> 0 < x' <= 1 -> Rabs (x - x') < d -> Rabs (J (s * x) (entry p (s * x)) - J (s * x') (entry p (s * x'))) <= e.
  Proof.
    intros He. destruct (gf_fld _ _ _ _ _ _ _ GF) as (M & HM & FJ). destruct (Cn e He) as (d0 & Hd0 & E0). destruct (Cp (e / 2) ltac:(lra)) as (d1 & Hd1 & E1). destruct (refl_equi p V Rk M (e / 2) Cr HM ltac:(lra)) as (d2 & Hd2 & E2).
    exists (Rmin d0 (Rmin d1 d2)). split; [repeat apply Rmin_pos; auto|]. intros s x x' Hs Hx Hx' Hxx. pose proof (Rmin_l d0 (Rmin d1 d2)). pose proof (Rmin_r d0 (Rmin d1 d2)). pose proof (Rmin_l d1 d2). pose proof (Rmin_r d1 d2).
    unfold entry. destruct Hs as [-> | ->].
    - rewrite !Rmult_1_l. destruct (Rlt_dec 0 x); [|lra]. destruct (Rlt_dec 0 x'); [|lra]. rewrite !(gf_bottom _ _ _ _ _ _ _ GF) by lra.
      match goal with |- Rabs (?a + ?b - (?a' + ?b')) <= _ => replace (a + b - (a' + b')) with ((a - a') + (b - b')) by ring end. eapply Rle_trans; [apply Rabs_triang|]. replace e with (e / 2 + e / 2) by field. apply Rplus_le_compat; [apply E1; lra|apply E2; auto; lra].
    - destruct (Rlt_dec 0 (-1 * x)); [lra|]. destruct (Rlt_dec 0 (-1 * x')); [lra|]. replace (-1 * x) with (- x) by ring. replace (-1 * x') with (- x') by ring. rewrite !(gf_top _ _ _ _ _ _ _ GF) by lra. apply E0; lra.
  Qed.
  Theorem gJ_equi dl e : 0 < dl -> 0 < e -> exists d, 0 < d /\ forall s x x' t, s = 1 \/ s = -1 -> dl <= x <= 1 -> dl <= x' <= 1 -> Rabs (x - x') < d -> 0 <= t <= T -> Rabs (J (s * x) t - J (s * x') t) <= e.
  Proof.
    intros Hd He. destruct (gf_fld _ _ _ _ _ _ _ GF) as (M & HM & FJ). exact (equi p V K G Q KU KM GB GU M J J HM FJ (proj1 FJ) (gf_continuous _ _ _ _ _ _ _ GF) (gf_transfer _ _ _ _ _ _ _ GF) gf_entry dl e Hd He).
  Qed.

  (** ** Quadratures over the directions *)
  Definition gwt (a : R -> R) : Prop :=
    (exists l x s, (l < NL)%nat /\ -1 <= x <= 1 /\ (s = 1 \/ s = -1) /\ forall y, a y = K l x (s * y)) \/ (exists x, 0 <= x <= 1 /\ forall y, a y = Rk x y).
  Lemma gwt_bound : exists A, 0 <= A /\ forall a y, gwt a -> 0 <= y <= 1 -> Rabs (a y) <= A.
  Proof.
    destruct (Kg_bound p K KM) as (B & HB & H1). destruct (ucont2_bounded Rk Cr) as (B' & HB' & H2). exists (B + B'). split; [lra|]. intros a y [(l & x & s & Hl & Hx & Hs & E)|(x & Hx & E)] Hy; rewrite E.
    - eapply Rle_trans; [apply H1; auto; destruct Hs as [-> | ->]; lra|lra].
    - pose proof (H2 x y Hx Hy). lra.
  Qed.
  Lemma gwt_equi e : 0 < e -> exists d, 0 < d /\ forall a u v, gwt a -> 0 <= u <= 1 -> 0 <= v <= 1 -> Rabs (u - v) < d -> Rabs (a u - a v) <= e.
  Proof.
    intros He. destruct (KU e He) as (d1 & Hd1 & H1). destruct (Cr e He) as (d2 & Hd2 & H2).
    exists (Rmin d1 d2). split; [repeat apply Rmin_pos; auto|]. intros a u v Ha Hu Hv Huv. pose proof (Rmin_l d1 d2). pose proof (Rmin_r d1 d2).
    destruct Ha as [(l & x & s & Hl & Hx & Hs & E)|(x & Hx & E)]; rewrite !E.
    - assert (S1 : forall z, 0 <= z <= 1 -> -1 <= s * z <= 1) by (intros z Hz; destruct Hs as [-> | ->]; lra). apply H1; auto; [rewrite Rminus_eq_0, Rabs_R0; exact Hd1|]. rewrite <- Rmult_minus_distr_l, Rabs_mult, (sgn_abs s Hs). lra.
    - apply H2; auto; [rewrite Rminus_eq_0, Rabs_R0; exact Hd2|lra].
  Qed.
  Lemma gwt_cont a : gwt a -> cont_on 0 1 a.
  Proof. intros Ha x Hx e He. destruct (gwt_equi (e / 2) ltac:(lra)) as (d & Hd & H). exists d. split; [exact Hd|]. intros y Hy Hyx. apply Rle_lt_trans with (e / 2); [|lra]. apply H; auto. Qed.
  Definition gfam (g : R -> R) : Prop := exists a s t, gwt a /\ (s = 1 \/ s = -1) /\ 0 <= t <= T /\ forall y, g y = a y * J (s * y) t.
  Lemma gfam_int g : gfam g -> ex_RInt g 0 1.
  Proof.
    intros (a & s & t & Ha & Hs & Ht & E). destruct (gf_fld _ _ _ _ _ _ _ GF) as (M & _ & _ & FI). destruct (FI a t (gwt_cont a Ha) Ht) as [A B]. destruct Hs as [-> | ->].
    - eapply ex_RInt_ext; [|exact A]. intros y _. cbv beta. rewrite E, Rmult_1_l. reflexivity.
    - eapply ex_RInt_ext; [|exact B]. intros y _. cbv beta. rewrite E. replace (-1 * y) with (- y) by ring. reflexivity.
  Qed.
  Theorem gquad eps : 0 < eps -> exists N0, forall n mu w, (N0 <= n)%nat -> double_gauss n mu w ->
    (forall g, gfam g -> Rabs (rsum n (fun i => w i * g (nth i mu 0)) - RInt g 0 1) <= eps) /\
    (forall g, gwt g -> Rabs (rsum n (fun i => w i * g (nth i mu 0)) - RInt g 0 1) <= eps).
  Proof.
    intros He. destruct gwt_bound as (A & HA & HA'). destruct (gf_fld _ _ _ _ _ _ _ GF) as (M & HM & HJ & _).
    assert (D : forall s y, s = 1 \/ s = -1 -> 0 < y <= 1 -> direction (s * y)) by (intros s y [-> | ->] Hy; split; lra).
    destruct (quad_bulk gfam (A * M) eps He) as (N1 & H1).
    { intros g (a & s & t & Ha & Hs & Ht & E) y Hy. rewrite E, Rabs_mult. apply Rmult_le_compat; auto using Rabs_pos. apply HA'; auto; lra. }
    { intros dl e Hdl He'. destruct (gwt_equi (e / 2 / (M + 1)) ltac:(apply Rdiv_lt_0_compat; lra)) as (d1 & Hd1 & E1). destruct (gJ_equi dl (e / 2 / (A + 1)) Hdl ltac:(apply Rdiv_lt_0_compat; lra)) as (d2 & Hd2 & E2).
      exists (Rmin d1 d2). split; [apply Rmin_pos; auto|]. intros g u v (a & s & t & Ha & Hs & Ht & E) Hu Hv Huv. pose proof (Rmin_l d1 d2). pose proof (Rmin_r d1 d2). rewrite !E.
      replace (a u * J (s * u) t - a v * J (s * v) t) with ((a u - a v) * J (s * u) t + a v * (J (s * u) t - J (s * v) t)) by ring. eapply Rle_trans; [apply Rabs_triang|]. rewrite !Rabs_mult. replace e with (e / 2 + e / 2) by field.
      apply Rplus_le_compat.
      - apply Rle_trans with (e / 2 / (M + 1) * (M + 1)); [|right; field; lra]. apply Rmult_le_compat; auto using Rabs_pos; [apply E1; auto; lra|]. eapply Rle_trans; [apply HJ; auto; apply D; auto; lra|lra].
      - apply Rle_trans with ((A + 1) * (e / 2 / (A + 1))); [|right; field; lra]. apply Rmult_le_compat; auto using Rabs_pos; [|apply E2; auto; lra]. eapply Rle_trans; [apply HA'; auto; lra|lra]. }
    destruct (quad_bulk gwt A eps He) as (N2 & H2).
    { intros g Hg y Hy. apply HA'; auto; lra. }
    { intros dl e Hdl He'. destruct (gwt_equi e He') as (d & Hd & E). exists d. split; [exact Hd|]. intros g u v Hg Hu Hv Huv. apply E; auto; lra. }
    exists (Nat.max N1 N2). intros n mu w Hn HD. split; intros g Hg.
    - apply (H1 n mu w); [lia|exact HD|exact Hg|apply gfam_int; exact Hg].
    - apply (H2 n mu w); [lia|exact HD|exact Hg|apply cont_int, gwt_cont; exact Hg].
  Qed.
End Field.
