(** Range of the scattering angles and order of the Planck emissions, as returned by [calculate_nu] and [Planck]. *)
From Coq Require Import String Reals Lra Lia List Bool Arith.
From Coquelicot Require Import Coquelicot.
From Verif Require Import Base Tensor Spec M_Subroutines P_Sub P_Sub3.
Import ListNotations.
Local Open Scope R_scope.

Theorem nu_reported mu phi mu_p phi_p i j k l :
  (i < length mu)%nat -> (j < length phi)%nat -> (k < length mu_p)%nat -> (l < length phi_p)%nat ->
  -1 <= nth i mu 0 <= 1 -> -1 <= nth k mu_p 0 <= 1 ->
  let at4 (s d : list nat) := map snd (filter (fun q => negb (Nat.eqb (fst q) 1)) (combine s d)) in
  let x := elt (calculate_nu mu phi mu_p phi_p) (at4 [length mu; length phi; length mu_p; length phi_p] [i; j; k; l]) in
  -1 <= x <= 1 /\
  (nth k mu_p 0 = nth i mu 0 -> nth l phi_p 0 = nth j phi 0 -> x = 1) /\
  (nth k mu_p 0 = - nth i mu 0 -> nth l phi_p 0 = nth j phi 0 + PI -> x = -1) /\
  x = elt (calculate_nu mu_p phi_p mu phi) (at4 [length mu_p; length phi_p; length mu; length phi] [k; l; i; j]).
Proof.
  intros Hi Hj Hk Hl H1 H2. cbv zeta. destruct (nu_all mu phi mu_p phi_p i j k l Hi Hj Hk Hl) as (_ & E). destruct (nu_all mu_p phi_p mu phi k l i j Hk Hl Hi Hj) as (_ & E').
  cbv zeta in E, E'. rewrite E, E'. destruct (nu_range (nth i mu 0) (nth j phi 0) (nth k mu_p 0) (nth l phi_p 0) H1 H2) as (A1 & A2 & A3 & A4).
  split; [exact A1|]. split; [intros -> ->; exact A2|]. split; [intros -> ->; exact A3|exact A4].
Qed.

Theorem Planck_reported T w out : 0 < w -> (forall t, In t T -> 0 <= t) -> Planck T w = Ok out ->
  length out = length T /\
  forall i, (i < length T)%nat -> (nth i T 0 = 0 -> nth i out 0 = 0) /\ (0 < nth i T 0 -> 0 < nth i out 0) /\
  forall j, (j < length T)%nat -> nth i T 0 < nth j T 0 -> nth i out 0 < nth j out 0.
Proof.
  intros Hw HT H. rewrite (Planck_all T w Hw HT) in H. injection H as <-. split; [apply map_length|].
  assert (E : forall i, (i < length T)%nat -> nth i (map (fun t => planck_spec t w) T) 0 = planck_spec (nth i T 0) w).
  { intros i Hi. rewrite nth_indep with (d' := planck_spec 0 w) by (rewrite map_length; exact Hi). apply map_nth with (f := fun t => planck_spec t w). }
  destruct (planck_spec_props w Hw) as (P0 & PP & PM). intros i Hi. rewrite (E i Hi). split; [intros ->; exact P0|]. split; [apply PP|].
  intros j Hj Hlt. rewrite (E j Hj). apply PM. split; [apply HT; apply nth_In; exact Hi|exact Hlt].
Qed.

(** Emission of a band of wavenumbers. *)
Lemma band_integrable T lo hi : 0 <= T -> 0 <= lo <= hi -> ex_RInt (planck_spec T) lo hi.
Proof.
  intros HT Hl. apply (ex_RInt_ext (V:=R_NormedModule) (planck1 T)); [|apply planck_integrable; assumption].
  intros x Hx. rewrite Rmin_left, Rmax_right in Hx by lra. apply planck_spec_eq; lra.
Qed.
Lemma band_split T lo mid hi : 0 <= T -> 0 <= lo <= mid -> mid <= hi ->
  RInt (planck_spec T) lo hi = RInt (planck_spec T) lo mid + RInt (planck_spec T) mid hi.
Proof. intros HT H1 H2. symmetry. apply (RInt_Chasles (V:=R_CompleteNormedModule)); apply band_integrable; lra. Qed.
Lemma band_zero lo hi : 0 <= lo <= hi -> RInt (planck_spec 0) lo hi = 0.
Proof.
  intros Hl. rewrite (RInt_ext (V:=R_CompleteNormedModule) (planck_spec 0) (fun _ => 0)).
  - rewrite RInt_const. apply Rmult_0_r.
  - intros x Hx. rewrite Rmin_left, Rmax_right in Hx by lra. apply (planck_spec_props x); lra.
Qed.
Lemma band_lt T1 T2 lo hi : 0 <= T1 < T2 -> 0 <= lo < hi -> RInt (planck_spec T1) lo hi < RInt (planck_spec T2) lo hi.
Proof.
  intros HT Hl. set (m := (lo + hi) / 2). assert (Hm : lo < m < hi) by (unfold m; lra).
  rewrite (band_split T1 lo m hi), (band_split T2 lo m hi) by lra. apply Rplus_le_lt_compat.
  - apply RInt_le; [lra|apply band_integrable; lra|apply band_integrable; lra|]. intros x Hx. left. apply (planck_spec_props x); lra.
  - apply RInt_lt; [lra| | |].
    + intros x Hx. apply planck_continuous; lra.
    + intros x Hx. destruct (Req_dec T1 0) as [->|Hn]; [|apply planck_continuous; lra].
      apply (continuous_ext (fun _ => 0)); [|apply continuous_const]. intros y. unfold planck_spec. destruct (Req_EM_T 0 0); [reflexivity|lra].
    + intros x Hx. apply (planck_spec_props x); lra.
Qed.

Theorem blackbody_reported quad T lo hi : quad_ok quad -> 0 <= lo <= hi -> (forall t, In t T -> 0 <= t) ->
  let b := blackbody_contrib_to_BCs quad T lo hi in
  length b = length T /\
  forall i, (i < length T)%nat ->
    nth i b 0 = RInt (planck_spec (nth i T 0)) lo hi /\ 0 <= nth i b 0 /\ (nth i T 0 = 0 -> nth i b 0 = 0) /\
    (lo < hi -> forall j, (j < length T)%nat -> nth i T 0 < nth j T 0 -> nth i b 0 < nth j b 0) /\
    (forall mid, lo <= mid <= hi -> nth i b 0 = nth i (blackbody_contrib_to_BCs quad T lo mid) 0 + nth i (blackbody_contrib_to_BCs quad T mid hi) 0).
Proof.
  intros Hq Hl HT. cbv zeta.
  assert (E : forall lo hi, 0 <= lo <= hi -> forall i, (i < length T)%nat -> nth i (blackbody_contrib_to_BCs quad T lo hi) 0 = RInt (planck_spec (nth i T 0)) lo hi /\ 0 <= RInt (planck_spec (nth i T 0)) lo hi).
  { intros l h Hlh i Hi. unfold blackbody_contrib_to_BCs. rewrite nth_indep with (d' := quad (fun w => planck1 0 w) l h) by (rewrite map_length; exact Hi).
    rewrite map_nth with (f := fun t => quad (fun w => planck1 t w) l h). apply quad_planck; [exact Hq|apply HT, nth_In, Hi|exact Hlh]. }
  split; [apply map_length|]. intros i Hi. destruct (E lo hi Hl i Hi) as (E1 & E2). rewrite E1.
  assert (Ti : 0 <= nth i T 0) by (apply HT, nth_In, Hi).
  split; [reflexivity|]. split; [exact E2|]. split; [intros ->; apply band_zero; exact Hl|]. split.
  - intros Hlt j Hj Hij. rewrite (proj1 (E lo hi Hl j Hj)). apply band_lt; lra.
  - intros mid Hm. rewrite (proj1 (E lo mid ltac:(lra) i Hi)), (proj1 (E mid hi ltac:(lra) i Hi)). apply band_split; lra.
Qed.

(** A boundary as warm as the atmosphere next to it emits as that atmosphere does. *)
Theorem blackbody_layers quad tau_arr TEMPER lo hi rows : quad_ok quad -> 0 <= lo <= hi -> (0 < length tau_arr)%nat ->
  increasing tau_arr -> (forall x, In x tau_arr -> 0 < x) -> (forall t, In t TEMPER -> 0 <= t) ->
  generate_s_poly_coeffs quad tau_arr TEMPER lo hi = Ok rows ->
  forall Tb, 0 <= Tb ->
  (Tb = nth 0 TEMPER 0 -> blackbody_contrib_to_BCs quad [Tb] lo hi = [peval (nth 0 rows []) 0]) /\
  (Tb = nth (length tau_arr) TEMPER 0 -> blackbody_contrib_to_BCs quad [Tb] lo hi = [peval (nth (length tau_arr - 1) rows []) (nth (length tau_arr - 1) tau_arr 0)]).
Proof.
  intros Hq Hl Hlen Hinc Hpos HT Hok Tb HTb. destruct (spoly_all quad tau_arr TEMPER lo hi Hq Hl Hlen Hinc Hpos HT) as [(_ & msg & X)|(L & rows' & X & L' & H)]; [congruence|].
  rewrite Hok in X. injection X as <-.
  assert (E : blackbody_contrib_to_BCs quad [Tb] lo hi = [RInt (planck_spec Tb) lo hi]).
  { unfold blackbody_contrib_to_BCs. cbn [map]. rewrite (proj1 (quad_planck quad Tb lo hi Hq HTb Hl)). reflexivity. }
  rewrite E. split; intros ->; f_equal.
  - destruct (H 0%nat Hlen) as (_ & A & _). symmetry. exact A.
  - destruct (H (length tau_arr - 1)%nat ltac:(lia)) as (_ & _ & A & _). replace (S (length tau_arr - 1)) with (length tau_arr) in A by lia. symmetry. exact A.
Qed.
