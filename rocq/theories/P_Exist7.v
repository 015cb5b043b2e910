(** The exact radiation field exists and is the only one. *)
From Coq Require Import String Reals Lra Lia List Bool Arith ZArith.
From Coquelicot Require Import Coquelicot.
From Verif Require Import Base Tensor Spec M_LinAlg Spec_RTE Calc M_Subroutines M_GenPart M_MathscrV M_Coeffs M_Assemble M_Pydisort
  Spec_Sol Spec_Valid Spec_Calls Spec_Unique Spec_Phys Spec_Mono Spec_Depend Spec_Exact P_Special P_Addition P_Quad P_Fourier P_Sub P_Solve P_Energy P_Pydisort P_Pydisort2 P_Pydisort3 P_Pydisort4 P_Pydisort5 P_Pydisort6 P_Pydisort8 P_Teq P_NT P_NT3 P_Unique2 P_Refine P_Max P_Max2 P_Max3 P_Max4 P_Mono P_Sym P_Depend P_Depend2 P_Gauss P_Conv P_Conv2 P_Conv3 P_Exist P_Exist2 P_Exist3 P_Full2 P_Exist4 P_Exist5 P_Exist6.
Import ListNotations.
Local Open Scope R_scope.

Lemma ucont1_bounded f : ucont1 f -> exists B, 0 <= B /\ forall x, 0 <= x <= 1 -> Rabs (f x) <= B.
Proof.
  intros H. destruct (ucont2_bounded (fun x _ => f x)) as (B & HB & K).
  - intros e He. destruct (H e He) as (d & Hd & Q). exists d. split; [exact Hd|]. intros. apply Q; auto.
  - exists B. split; [exact HB|]. intros x Hx. apply (K x 0); lra.
Qed.
Lemma pow_small k B e : 0 <= k < 1 -> 0 <= B -> 0 < e -> exists N, forall n, (N <= n)%nat -> k ^ n * B < e.
Proof.
  intros Hk HB He. destruct (pow_lt_1_zero k ltac:(rewrite Rabs_pos_eq; lra) (e / (B + 1)) ltac:(apply Rdiv_lt_0_compat; lra)) as (N & HN). exists N. intros n Hn. specialize (HN n Hn). assert (0 <= k ^ n) by (apply pow_le; lra). rewrite Rabs_pos_eq in HN by auto.
  apply Rle_lt_trans with (k ^ n * (B + 1)); [nra|]. apply Rlt_le_trans with (e / (B + 1) * (B + 1)); [apply Rmult_lt_compat_r; lra|right; field; lra].
Qed.

Section Exact.
  Variables (p : py_in) (V : valid p) (bn bp : R -> R) (rho : R -> R -> R) (r : R).
  Notation NL := (nlayers p).
  Notation T := (bottom p).
  Notation K := (scatters p).
  Hypothesis Kp : forall l x y, (l < NL)%nat -> -1 <= x <= 1 -> -1 <= y <= 1 -> 0 <= K l x y.
  Hypothesis Cr : ucont2 rho.
  Hypothesis Hrho : forall x y, 0 <= x <= 1 -> 0 <= y <= 1 -> 0 <= rho x y.
  Hypothesis Hr1 : r < 1.
  Hypothesis Hr : forall x, 0 < x <= 1 -> 2 * RInt (fun y => rho x y * y) 0 1 <= r.

  Lemma r_pos : 0 <= r.
  Proof.
    apply Rle_trans with (2 * RInt (fun y => rho 1 y * y) 0 1); [|apply Hr; lra]. assert (0 <= RInt (fun y => rho 1 y * y) 0 1); [|lra]. apply RInt_ge_0; [lra|apply rho_int; auto; lra|]. intros y Hy. apply Rmult_le_pos; [apply Hrho; lra|lra].
  Qed.
  Lemma nu_ex : exists nu, 0 < nu <= 1 /\ forall l, (l < NL)%nat -> nu <= 1 - albedo p l.
  Proof.
    destruct (pos_lower NL (fun l => 1 - albedo p l)) as (nu & Hn & H). { intros l Hl. pose proof (albedo_range p V l Hl). lra. }
    exists nu. split; [|exact H]. split; [exact Hn|]. pose proof (v_ne p V). pose proof (H 0%nat ltac:(lia)). pose proof (albedo_range p V 0 ltac:(lia)). lra.
  Qed.

  Section Unique.
    Variables (J J' : R -> R -> R).
    Hypothesis EF : exact_field p bn bp rho J.
    Hypothesis EF' : exact_field p bn bp rho J'.
    Lemma unique_step nu m : 0 < nu <= 1 -> (forall l, (l < NL)%nat -> nu <= 1 - albedo p l) -> 0 <= m -> (forall x t, direction x -> 0 <= t <= T -> Rabs (J x t - J' x t) <= m) ->
      forall x t, direction x -> 0 <= t <= T -> Rabs (J x t - J' x t) <= Rmax (1 - nu) r * m.
    Proof.
      intros Hn0 Hnu Hm HD x t Hx Ht. set (kap := Rmax (1 - nu) r). assert (Hk : 1 - nu <= kap /\ r <= kap) by (split; [apply Rmax_l|apply Rmax_r]). replace (J x t - J' x t) with (J x t + (-1) * J' x t) by ring.
      refine (ode_bound p V x (fun u => J x u + (-1) * J' x u) (fun l u => inscat p J l x u - inscat p J' l x u) (kap * m) Hx _ _ _ _ t Ht).
      - apply cont_on_plus; [apply (ef_continuous _ _ _ _ _ EF); auto|apply cont_on_scal, (ef_continuous _ _ _ _ _ EF'); auto].
      - intros l u Hl Hu. refine (der_eq _ _ _ _ _ (der_plus _ _ _ _ _ (transfer p bn bp rho J EF l x u Hl Hx Hu) (der_scal _ (-1) _ _ (transfer p bn bp rho J' EF' l x u Hl Hx Hu)))). unfold src. field. apply Hx.
      - intros l u Hl Hu. pose proof (in_bottom p V l u Hl ltac:(lra)) as Hub. destruct Hx as [Hx1 Hx0].
        destruct (int_diff _ _ (KJ1 p bn bp rho J EF l x u Hl Hx1 Hub) (KJ1 p bn bp rho J' EF' l x u Hl Hx1 Hub)) as [E1 X1]. destruct (int_diff _ _ (KJ2 p bn bp rho J EF l x u Hl Hx1 Hub) (KJ2 p bn bp rho J' EF' l x u Hl Hx1 Hub)) as [E2 X2].
        assert (E : inscat p J l x u - inscat p J' l x u = inscat p (fun y t => J y t - J' y t) l x u).
        { unfold inscat. replace (RInt (fun y => K l x y * (J y u - J' y u)) 0 1) with (RInt (fun y => K l x y * J y u - K l x y * J' y u) 0 1) by (apply RInt_ext1'; intros; ring).
          replace (RInt (fun y => K l x (- y) * (J (- y) u - J' (- y) u)) 0 1) with (RInt (fun y => K l x (- y) * J (- y) u - K l x (- y) * J' (- y) u) 0 1) by (apply RInt_ext1'; intros; ring). rewrite E1, E2. ring. }
        rewrite E. eapply Rle_trans; [apply (inscat_le p V Kp (fun y t => J y t - J' y t) m l x u Hl Hx1)|].
        + intros y Hy. apply HD; auto.
        + eapply ex_RInt_ext; [|exact X1]. intros y _. cbv beta. change (K l x y * J y u - K l x y * J' y u = K l x y * (J y u - J' y u)). ring.
        + eapply ex_RInt_ext; [|exact X2]. intros y _. cbv beta. change (K l x (- y) * J (- y) u - K l x (- y) * J' (- y) u = K l x (- y) * (J (- y) u - J' (- y) u)). ring.
        + pose proof (scl_pos p V l Hl) as Hsc. pose proof (Hnu l Hl) as Hn. rewrite Rmult_comm, <- Rmult_assoc. apply Rmult_le_compat_r; [exact Hm|]. apply Rle_trans with (scl p l * (1 - nu)); [nra|]. apply Rmult_le_compat_l; lra.
      - assert (Hkm : r * m <= kap * m) by (apply Rmult_le_compat_r; [exact Hm|apply Hk]). assert (0 <= r * m) by (apply Rmult_le_pos; [apply r_pos|auto]). destruct Hx as [Hx1 Hx0]. unfold entry.
        assert (Z : forall a, a + (-1) * a = 0) by (intros; ring). destruct (Rlt_dec 0 x) as [H0|H0].
        2: { assert (E : x = - - x) by ring. rewrite E, (ef_top _ _ _ _ _ EF (- x)), (ef_top _ _ _ _ _ EF' (- x)), Z, Rabs_R0 by lra. lra. }
        rewrite (ef_bottom _ _ _ _ _ EF x), (ef_bottom _ _ _ _ _ EF' x) by lra. destruct (Nat.ltb 0 (length (p_BDRF p))); [|rewrite Z, Rabs_R0; lra].
        match goal with |- Rabs (?a + (2 * ?b + ?c) + (-1) * (?a + (2 * ?b' + ?c))) <= _ => replace (a + (2 * b + c) + (-1) * (a + (2 * b' + c))) with (2 * (b - b')) by ring end. pose proof (bottom_pos p V) as HT.
        destruct (int_diff _ _ (rhoJ_int p bn bp rho J EF Cr x T ltac:(lra) ltac:(lra)) (rhoJ_int p bn bp rho J' EF' Cr x T ltac:(lra) ltac:(lra))) as [E X]. rewrite <- E, Rabs_mult, (Rabs_pos_eq 2) by lra. eapply Rle_trans; [|exact Hkm]. apply Rle_trans with (2 * (m * RInt (fun y => rho x y * y) 0 1)).
        + apply Rmult_le_compat_l; [lra|]. apply RInt_bound; [exact X|apply rho_int; auto; lra|]. intros y Hy. rewrite <- Rmult_minus_distr_l, Rabs_mult, Rmult_comm. assert (0 <= rho x y * y) by (apply Rmult_le_pos; [apply Hrho; lra|lra]). rewrite (Rabs_pos_eq (rho x y * y)) by auto.
          apply Rmult_le_compat_r; [auto|]. apply HD; [split; lra|lra].
        + pose proof (Hr x ltac:(lra)) as A. assert (2 * RInt (fun y => rho x y * y) 0 1 * m <= r * m) by (apply Rmult_le_compat_r; auto). lra.
    Qed.
    Theorem exact_unique x t : direction x -> 0 <= t <= T -> J x t = J' x t.
    Proof.
      intros Hx Ht. destruct nu_ex as (nu & Hn0 & Hnu). destruct (J_bound p V bn bp rho J EF) as (M & HM & HJ). destruct (J_bound p V bn bp rho J' EF') as (M' & HM' & HJ'). pose proof r_pos as Hr0.
      set (kap := Rmax (1 - nu) r). assert (Hk : 0 <= kap < 1) by (split; [eapply Rle_trans; [exact Hr0|apply Rmax_r]|apply Rmax_lub_lt; lra]).
      assert (G : forall n x t, direction x -> 0 <= t <= T -> Rabs (J x t - J' x t) <= kap ^ n * (M + M')).
      { induction n as [|n IH]; intros y u Hy Hu; cbn [pow].
        - unfold Rminus. eapply Rle_trans; [apply Rabs_triang|]. rewrite Rabs_Ropp. pose proof (HJ y u Hy Hu). pose proof (HJ' y u Hy Hu). lra.
        - rewrite Rmult_assoc. apply unique_step; auto. apply Rmult_le_pos; [apply pow_le; lra|lra]. }
      destruct (Req_dec (J x t) (J' x t)) as [|Hne]; [assumption|exfalso]. assert (He : 0 < Rabs (J x t - J' x t)) by (apply Rabs_pos_lt; lra). destruct (pow_small kap (M + M') _ Hk ltac:(lra) He) as (N & HN). specialize (HN N (Nat.le_refl N)). pose proof (G N x t Hx Ht). lra.
    Qed.
  End Unique.

  Section Exist.
    Hypothesis Cn : ucont1 bn.
    Hypothesis Cp : ucont1 bp.
    Lemma back_facts : (exists B, 0 <= B /\ forall x, 0 < x <= 1 -> Rabs (back p rho x) <= B) /\
      forall e, 0 < e -> exists d, 0 < d /\ forall x x', 0 < x <= 1 -> 0 < x' <= 1 -> Rabs (x - x') < d -> Rabs (back p rho x - back p rho x') <= e.
    Proof.
      pose proof (v_I0 p V) as HI. destruct (Rle_lt_or_eq_dec 0 (p_I0 p) ltac:(lra)) as [Hlt|E].
      2: { assert (Z : forall x, back p rho x = 0) by (intros; unfold back; rewrite <- E; unfold Rdiv; ring). split; [exists 0; split; [lra|intros; rewrite Z, Rabs_R0; lra]|]. intros e He. exists 1. split; [lra|]. intros. rewrite !Z, Rminus_0_r, Rabs_R0. lra. }
      pose proof (v_mu0 p V Hlt) as Hm. set (c := Rabs (p_mu0 p * p_I0 p / PI * exp (- depth_s p (NL - 1) T / p_mu0 p))). assert (Hc : 0 <= c) by apply Rabs_pos. destruct (ucont2_bounded rho Cr) as (B & HB & HB'). split.
      - exists (c * B). split; [apply Rmult_le_pos; auto|]. intros x Hx. unfold back. match goal with |- Rabs (?a * ?b * ?d) <= _ => replace (a * b * d) with (a * d * b) by ring end. rewrite Rabs_mult. fold c. apply Rmult_le_compat_l; [exact Hc|]. apply HB'; lra.
      - intros e He. destruct (Cr (e / (c + 1)) ltac:(apply Rdiv_lt_0_compat; lra)) as (d & Hd & H). exists d. split; [exact Hd|]. intros x x' Hx Hx' Hxx. unfold back.
        match goal with |- Rabs (?a * ?b * ?d - ?a * ?b' * ?d) <= _ => replace (a * b * d - a * b' * d) with (a * d * (b - b')) by ring end. rewrite Rabs_mult. fold c. pose proof (H x x' (p_mu0 p) (p_mu0 p) ltac:(lra) ltac:(lra) ltac:(lra) ltac:(lra) Hxx ltac:(rewrite Rminus_eq_0, Rabs_R0; exact Hd)) as A.
        apply Rle_trans with ((c + 1) * (e / (c + 1))); [|right; field; lra]. apply Rmult_le_compat; auto using Rabs_pos; lra.
    Qed.
    Theorem exact_exists : exists J, exact_field p bn bp rho J.
    Proof.
      destruct nu_ex as (nu & Hn0 & Hnu). pose proof r_pos as Hr0. destruct back_facts as [(Bb & HBb & Hbb) Hbe]. destruct (ucont1_bounded bn Cn) as (Bn & HBn & Hbn). destruct (ucont1_bounded bp Cp) as (Bp & HBp & Hbp).
      destruct (beam_facts p V) as (B1 & L1 & HB1 & HL1 & HB). destruct (source_bounded p V) as (S0 & HS0 & HS). set (Q := B1 + S0).
      assert (HQ : forall l x t, (l < NL)%nat -> -1 <= x <= 1 -> top_of p l <= t <= bot_of p l -> Rabs (glow p l x t) <= Q).
      { intros l x t Hl Hx Ht. unfold glow, Q. eapply Rle_trans; [apply Rabs_triang|]. apply Rplus_le_compat; [apply (HB l x x t Hl Hx Hx Ht)|]. rewrite Rabs_mult. pose proof (albedo_range p V l Hl). rewrite (Rabs_pos_eq (1 - _)) by lra. pose proof (HS l t Hl (in_bottom p V l t Hl Ht)). pose proof (Rabs_pos (source p l t)). nra. }
      assert (HL : 0 <= L1 /\ forall l x x' t, (l < NL)%nat -> -1 <= x <= 1 -> -1 <= x' <= 1 -> top_of p l <= t <= bot_of p l -> Rabs (glow p l x t - glow p l x' t) <= L1 * Rabs (x - x')).
      { split; [exact HL1|]. intros l x x' t Hl Hx Hx' Ht. unfold glow. match goal with |- Rabs (?a + ?c - (?b + ?c)) <= _ => replace (a + c - (b + c)) with (a - b) by ring end. apply (HB l x x' t Hl Hx Hx' Ht). }
      set (M := Q / nu + (Bp + Bb) / (1 - r) + Bn). assert (HQ0 : 0 <= Q) by (unfold Q; lra). assert (H1 : 0 <= Q / nu) by (apply Rmult_le_pos; [lra|apply Rlt_le, Rinv_0_lt_compat; lra]). assert (H2 : 0 <= (Bp + Bb) / (1 - r)) by (apply Rmult_le_pos; [lra|apply Rlt_le, Rinv_0_lt_compat; lra]).
      assert (HM : 0 <= M) by (unfold M; lra). assert (HM1 : Q <= nu * M). { apply Rle_trans with (nu * (Q / nu)); [right; field; lra|]. apply Rmult_le_compat_l; [lra|unfold M; lra]. }
      assert (HM2 : forall x, 0 < x <= 1 -> Rabs (bn x) <= M /\ Rabs (bp x) + Rabs (back p rho x) + r * M <= M).
      { intros x Hx. pose proof (Hbn x ltac:(lra)). pose proof (Hbp x ltac:(lra)). pose proof (Hbb x Hx). split; [unfold M; lra|]. assert ((Bp + Bb) <= (1 - r) * M); [|lra]. apply Rle_trans with ((1 - r) * ((Bp + Bb) / (1 - r))); [right; field; lra|]. apply Rmult_le_compat_l; [lra|unfold M; lra]. }
      set (st := step p bn bp rho). set (it := fix it n := match n with O => fun _ _ => 0 | Datatypes.S k => st (it k) end).
      set (kap := Rmax (1 - nu) r). assert (Hk : 0 <= kap < 1) by (split; [eapply Rle_trans; [exact Hr0|apply Rmax_r]|apply Rmax_lub_lt; lra]). assert (Hk' : 1 - nu <= kap /\ r <= kap) by (split; [apply Rmax_l|apply Rmax_r]).
      assert (SN : forall C I, 0 <= C -> nice p M C I -> nice p M (2 * M) (st I)). { intros C I HC NI. exact (step_nice p V bn bp rho Kp Cn Cp Cr Hrho r nu Q L1 M Hr Hr0 (conj (proj1 Hn0) Hnu) HQ HL HM HM1 HM2 Hbe C I HC NI). }
      assert (SD := step_near p V bn bp rho Kp Cr Hrho r nu M Hr Hr0 (conj (proj1 Hn0) Hnu) HM kap Hk').
      assert (NI : forall n, nice p M (2 * M) (it n)).
      { induction n as [|n IH]; [|cbn [it]; apply (SN (2 * M)); [lra|exact IH]]. cbn [it]. constructor; [intros; rewrite Rabs_R0; exact HM|intros; apply cont_on_const|].
        intros x t t' Hx _ _. rewrite Rminus_0_r, Rabs_R0. apply Rmult_le_pos; [|apply Rabs_pos]. apply Rmult_le_pos; [lra|]. apply Rlt_le, Rinv_0_lt_compat, Rabs_pos_lt, Hx. }
      assert (D : forall n k x t, direction x -> 0 <= t <= T -> Rabs (it (n + k)%nat x t - it n x t) <= kap ^ n * (2 * M)).
      { induction n as [|n IH]; intros k x t Hx Ht.
        - cbn [pow]. unfold Rminus. eapply Rle_trans; [apply Rabs_triang|]. rewrite Rabs_Ropp. pose proof (n_bound _ _ _ _ (NI (0 + k)%nat) x t Hx Ht). pose proof (n_bound _ _ _ _ (NI 0%nat) x t Hx Ht). lra.
        - cbn [pow Nat.add it]. rewrite Rmult_assoc. apply (SD (2 * M) (2 * M)); auto; try lra. apply Rmult_le_pos; [apply pow_le|]; lra. }
      set (J := fun x t => real (Lim_seq (fun n => it n x t))).
      assert (Lim : forall x t, direction x -> 0 <= t <= T -> is_lim_seq (fun n => it n x t) (J x t)).
      { intros x t Hx Ht. apply Lim_seq_correct'. apply ex_lim_seq_cauchy_corr. intros eps. destruct (pow_small kap (2 * M) (eps / 2) Hk ltac:(lra) ltac:(pose proof (cond_pos eps); lra)) as (N & HN). exists N. intros n m Hn Hm. specialize (HN N (Nat.le_refl N)).
        pose proof (D N (n - N)%nat x t Hx Ht) as A. pose proof (D N (m - N)%nat x t Hx Ht) as B. replace (N + (n - N))%nat with n in A by lia. replace (N + (m - N))%nat with m in B by lia. apply Rabs_le_between in A. apply Rabs_le_between in B. apply Rabs_def1; lra. }
      assert (Near : forall n x t, direction x -> 0 <= t <= T -> Rabs (J x t - it n x t) <= kap ^ n * (2 * M)).
      { intros n x t Hx Ht. apply le_epsilon. intros e He. pose proof (Lim x t Hx Ht) as L. apply is_lim_seq_spec in L. destruct (L (mkposreal e He)) as (N & HN). cbn [pos] in HN. specialize (HN (n + N)%nat ltac:(lia)). pose proof (D n N x t Hx Ht) as A.
        replace (J x t - it n x t) with (- (it (n + N)%nat x t - J x t) + (it (n + N)%nat x t - it n x t)) by ring. eapply Rle_trans; [apply Rabs_triang|]. rewrite Rabs_Ropp. lra. }
      assert (Small : forall e, 0 < e -> exists n, forall x t, direction x -> 0 <= t <= T -> Rabs (J x t - it n x t) < e). { intros e He. destruct (pow_small kap (2 * M) e Hk ltac:(lra) He) as (N & HN). exists N. intros x t Hx Ht. specialize (HN N (Nat.le_refl N)). pose proof (Near N x t Hx Ht). lra. }
      assert (NJ : nice p M (2 * M) J).
      { constructor.
        - intros x t Hx Ht. apply le_epsilon. intros e He. destruct (Small e He) as (n & Hn). pose proof (n_bound _ _ _ _ (NI n) x t Hx Ht). pose proof (Hn x t Hx Ht). replace (J x t) with ((J x t - it n x t) + it n x t) by ring. eapply Rle_trans; [apply Rabs_triang|]. lra.
        - intros s t d Hs Ht Hd y Hy e He. destruct (Small (e / 3) ltac:(lra)) as (n & Hn). destruct (n_dir _ _ _ _ (NI n) s t d Hs Ht Hd y Hy (e / 3) ltac:(lra)) as (dl & Hdl & H). exists dl. split; [exact Hdl|]. intros y' Hy' Hyy. specialize (H y' Hy' Hyy).
          pose proof (Hn (s * y) t (sgn_dir s y Hs ltac:(lra)) Ht) as A. pose proof (Hn (s * y') t (sgn_dir s y' Hs ltac:(lra)) Ht) as B. apply Rabs_def2 in A. apply Rabs_def2 in B. apply Rabs_def2 in H. apply Rabs_def1; lra.
        - intros x t t' Hx Ht Ht'. apply le_epsilon. intros e He. destruct (Small (e / 2) ltac:(lra)) as (n & Hn). pose proof (n_lip _ _ _ _ (NI n) x t t' Hx Ht Ht'). pose proof (Hn x t Hx Ht). pose proof (Hn x t' Hx Ht').
          replace (J x t - J x t') with ((J x t - it n x t) + ((it n x t - it n x t') + - (J x t' - it n x t'))) by ring. eapply Rle_trans; [apply Rabs_triang|]. pose proof (Rabs_triang (it n x t - it n x t') (- (J x t' - it n x t'))) as X. rewrite Rabs_Ropp in X. lra. }
      assert (HM22 : 0 <= 2 * M) by lra. assert (NS : nice p M (2 * M) (st J)) by (apply (SN (2 * M)); auto).
      assert (EQ : forall x t, direction x -> 0 <= t <= T -> st J x t = J x t).
      { intros x t Hx Ht. destruct (Req_dec (st J x t) (J x t)) as [|Hne]; [assumption|exfalso]. assert (He : 0 < Rabs (st J x t - J x t)) by (apply Rabs_pos_lt; lra). destruct (pow_small kap (4 * M) _ Hk ltac:(lra) He) as (N & HN). specialize (HN (Datatypes.S N) ltac:(lia)).
        assert (P0 : 0 <= kap ^ N * (2 * M)) by (apply Rmult_le_pos; [apply pow_le|]; lra).
        pose proof (SD (2 * M) (2 * M) J (it N) (kap ^ N * (2 * M)) HM22 HM22 NJ (NI N) P0 (Near N) x t Hx Ht) as A. pose proof (Near (Datatypes.S N) x t Hx Ht) as B. change (it (Datatypes.S N) x t) with (st (it N) x t) in B.
        pose proof (Rabs_triang (st J x t - st (it N) x t) (- (J x t - st (it N) x t))) as X. rewrite Rabs_Ropp in X. replace (st J x t - st (it N) x t + - (J x t - st (it N) x t)) with (st J x t - J x t) in X by ring. fold st in A. cbn [pow] in *. lra. }
      assert (ES : forall l x t, 0 <= t <= T -> inscat p J l x t = inscat p (st J) l x t).
      { intros l x t Ht. unfold inscat. f_equal; apply RInt_ext; intros y; rewrite Rmin_left, Rmax_right by lra; intros Hy; rewrite EQ; auto; split; lra. }
      exists (st J). constructor.
      - exists M. intros x t Hx Ht. apply (n_bound _ _ _ _ NS); auto.
      - intros g t Hg Ht. split; [apply (nice_int1 p M (2 * M) (st J) NS g t Hg Ht)|apply (nice_int2 p M (2 * M) (st J) NS g t Hg Ht)].
      - intros x Hx. apply (step_cont p V bn bp rho M HM (2 * M) J HM22 NJ x Hx).
      - intros l x t Hl Hx Ht. refine (der_eq _ _ _ _ _ (step_der p V bn bp rho M HM (2 * M) J HM22 NJ l x t Hl Hx Ht)). fold st. rewrite src_glow, (ES l x t (in_bottom p V l t Hl ltac:(lra))). unfold inscat, glow, beam. f_equal. ring.
      - intros x Hx. pose proof (step_entry p bn bp rho J (- x) ltac:(split; lra)) as E. unfold entry, bval in E. fold st in E. destruct (Rlt_dec 0 (- x)); [lra|]. rewrite Ropp_involutive in E. exact E.
      - intros x Hx. pose proof (step_entry p bn bp rho J x ltac:(split; lra)) as E. unfold entry, bval in E. fold st in E. destruct (Rlt_dec 0 x); [|lra]. rewrite E. f_equal. destruct (Nat.ltb 0 (length (p_BDRF p))); [|reflexivity]. unfold lit. f_equal. f_equal.
        apply RInt_ext. intros y. rewrite Rmin_left, Rmax_right by lra. intros Hy. pose proof (bottom_pos p V). rewrite EQ; [reflexivity|split; lra|lra].
    Qed.
  End Exist.
End Exact.
