(** The returned functions depend on the solver's arrays only through their entries in range,
    and on none of the solver options. *)
From Coq Require Import String Reals Lra Lia List Bool Arith ZArith.
From Verif Require Import Base Tensor P_Tensor P_Teq M_LinAlg M_Subroutines M_GenPart M_MathscrV M_Coeffs M_Assemble M_Pydisort P_Assemble Spec_Calls.
Import ListNotations.
Local Open Scope R_scope.

Lemma pv_eq_refl v : pv_eq v v.
Proof. destruct v; cbn; auto using teq_refl. Qed.
Lemma pvs_refl vs : Forall2 pv_eq vs vs.
Proof. induction vs; auto using pv_eq_refl. Qed.
Lemma same_ret_refl x : same_ret x x.
Proof. destruct x as [[v|vs]|]; cbn; auto using pv_eq_refl, pvs_refl. Qed.
Lemma ret_cong b vs ws : Forall2 pv_eq vs ws -> pret_eq (ret b vs) (ret b ws).
Proof. intros H. unfold ret. destruct b; [exact H|]. destruct H; cbn; auto using pv_eq_refl. Qed.
Lemma same_bind A B k k' : rteq A B -> (forall X Y, teq X Y -> same_ret (k X) (k' Y)) -> same_ret (bind A k) (bind B k').
Proof. destruct A, B; cbn; try tauto; auto. Qed.
Lemma same_bind_eq {T} (A B : res T) k k' : A = B -> (forall x, same_ret (k x) (k' x)) -> same_ret (bind A k) (bind B k').
Proof. intros <- H. destruct A; cbn; auto. Qed.
Lemma rteq_Ok A B : teq A B -> rteq (Ok A) (Ok B).
Proof. auto. Qed.

(** Arrays given by their elements. *)
Lemma teq_mk1 n f g : (forall i, (i < n)%nat -> f [i] = g [i]) -> teq (mkT [n] f) (mkT [n] g).
Proof. intros H. split; [reflexivity|]. cbn. intros [|i [|]] Hi; try tauto. apply H. tauto. Qed.
Lemma teq_mk2 n m f g : (forall i j, (i < n)%nat -> (j < m)%nat -> f [i; j] = g [i; j]) -> teq (mkT [n; m] f) (mkT [n; m] g).
Proof. intros H. split; [reflexivity|]. cbn. intros [|i [|j [|]]] Hi; try tauto. apply H; tauto. Qed.
Lemma teq_mk3 n m p f g : (forall i j k, (i < n)%nat -> (j < m)%nat -> (k < p)%nat -> f [i; j; k] = g [i; j; k]) -> teq (mkT [n; m; p] f) (mkT [n; m; p] g).
Proof. intros H. split; [reflexivity|]. cbn. intros [|i [|j [|k [|]]]] Hi; try tauto. apply H; tauto. Qed.

Section MV.
  Variables (nr nq NL : nat) (tau : list R) (sc : tensor) (l : list nat) (Ns : nat).
  Variables (s : nat -> vec) (G G' : nat -> mat) (K K' gm gm' : nat -> vec) (anti : bool).
  Hypothesis HG : forall a i j, (a < NL)%nat -> (i < nr)%nat -> (j < nq)%nat -> G a i j = G' a i j.
  Hypothesis HK : forall a j, (a < NL)%nat -> (j < nq)%nat -> K a j = K' a j.
  Hypothesis Hgm : forall a j, (a < NL)%nat -> (j < nq)%nat -> gm a j = gm' a j.
  Lemma ein_cong c c' : (forall a j, (a < NL)%nat -> (j < nq)%nat -> c a j = c' a j) -> teq (ein_il nr nq NL G c) (ein_il nr nq NL G' c').
  Proof. intros H. apply teq_mk2. intros i j Hi Hj. cbn. apply rsum_ext. intros k Hk. rewrite HG, H by auto. reflexivity. Qed.
  Lemma mathscr_v_cong : rteq (mathscr_v nr nq NL tau sc l Ns s G K gm anti) (mathscr_v nr nq NL tau sc l Ns s G' K' gm' anti).
  Proof.
    unfold mathscr_v. destruct (Nat.eqb Ns 1); [|destruct (Nat.eqb Ns 2)].
    - unfold v_branch1. apply rteq_bind; [apply rteq_refl|]. intros P P' HP.
      apply rteq_bind; [apply ttake_cong; [cbn; lia|]|].
      + apply ein_cong. intros a j Ha Hj. unfold K_inv. rewrite HK, Hgm by auto. reflexivity.
      + intros A B H. apply bcast2_cong; auto. apply tnew_cong; [lia|auto].
    - unfold v_branch2. apply rteq_bind; [apply ttake_cong; [cbn; lia|]|].
      { apply ein_cong. intros a j Ha Hj. unfold K_inv. rewrite HK, Hgm by auto. reflexivity. }
      intros A B H. apply rteq_bind; [apply ttake_cong; [cbn; lia|]|].
      { apply ein_cong. intros a j Ha Hj. unfold K_inv. rewrite HK, Hgm by auto. reflexivity. }
      intros A1 B1 H1. apply rteq_bind; [apply bcast2_cong; auto using teq_refl|]. intros X X' HX.
      apply rteq_bind; [apply bcast2_cong; auto using teq_refl|]. intros Y Y' HY.
      apply rteq_bind; [apply bcast2_cong; auto|]. intros Z Z' HZ. destruct anti; [apply bcast2_cong; auto using teq_refl|exact HZ].
    - unfold v_branchN. apply rteq_bind; [apply rteq_refl|]. intros P P' HP. unfold ttake. cbn [shp mathscr_b nth].
      destruct (forallb _ l) eqn:Ef; [|reflexivity]. cbn [bind]. rewrite <- (proj1 HP).
      destruct (list_eqb (shp P) _) eqn:Eq; [|reflexivity]. apply list_eqb_iff in Eq. apply teq_mk2. intros q t Hq Ht. cbn [nth].
      apply rsum_ext. intros p Hp. f_equal.
      + cbn. apply rsum_ext. intros x Hx. rewrite forallb_forall in Ef. specialize (Ef _ (nth_In l 0%nat Ht)). apply Nat.ltb_lt in Ef.
        rewrite HG by auto. f_equal.
        unfold b_right, b_sigma. rewrite Hgm by auto. f_equal. f_equal. apply rsum_ext. intros r Hr. unfold K_invP, K_inv. rewrite HK by auto. reflexivity.
      + apply (proj2 HP). rewrite Eq. cbn. tauto.
  Qed.
End MV.

(** The solver's arrays agree on the first [nf] Fourier modes. *)
Record sv_same (a : as_in) (nf : nat) (sv sv' : solved) : Prop := mkSame {
  same_K : forall m l k, (m < nf)%nat -> (l < a_NLayers a)%nat -> (k < 2 * a_N a)%nat -> sv_K sv m l k = sv_K sv' m l k;
  same_GC : forall m l q k, (m < nf)%nat -> (l < a_NLayers a)%nat -> (q < 2 * a_N a)%nat -> (k < 2 * a_N a)%nat -> sv_GC sv m l q k = sv_GC sv' m l q k;
  same_B : a_beam a = true -> forall m l q, (m < nf)%nat -> (l < a_NLayers a)%nat -> (q < 2 * a_N a)%nat -> sv_B sv m l q = sv_B sv' m l q;
  same_G : a_iso a = true -> forall l q k, (l < a_NLayers a)%nat -> (q < 2 * a_N a)%nat -> (k < 2 * a_N a)%nat -> sv_G sv 0%nat l q k = sv_G sv' 0%nat l q k;
  same_gmi : a_iso a = true -> forall l k, (l < a_NLayers a)%nat -> (k < 2 * a_N a)%nat -> sv_gmi sv l k = sv_gmi sv' l k
}.

(** Other number of Fourier modes and other solver options. *)
Definition a_with (a : as_in) (nf : nat) (fl : bool) (bn : nat) (ag : bool) : as_in := {|
  a_omega := a_omega a; a_tau := a_tau a; a_stau0 := a_stau0 a; a_mu := a_mu a; a_M_inv := a_M_inv a; a_W := a_W a; a_N := a_N a;
  a_NLeg := a_NLeg a; a_NFourier := nf; a_NLayers := a_NLayers a; a_multi := a_multi a; a_wLeg := a_wLeg a; a_BDRF := a_BDRF a;
  a_mu0 := a_mu0 a; a_I0 := a_I0 a; a_I0_div_4pi := a_I0_div_4pi a; a_rescale := a_rescale a; a_phi0 := a_phi0 a; a_beam := a_beam a;
  a_bpos := a_bpos a; a_bneg := a_bneg a; a_bpos_scalar := a_bpos_scalar a; a_bneg_scalar := a_bneg_scalar a;
  a_bpos_vector := a_bpos_vector a; a_bneg_vector := a_bneg_vector a; a_Ns := a_Ns a; a_s := a_s a; a_iso := a_iso a; a_scale := a_scale a;
  a_only_flux := fl; a_banded := bn; a_autograd := ag |}.

Section Same.
  Variable a : as_in.
  Hypothesis Hlen : length (a_tau a) = a_NLayers a.
  Hypothesis HNL : (1 <= a_NLayers a)%nat.
  Variables (nf nf' : nat) (fl : bool) (bn : nat) (ag : bool).
  Let a' := a_with a nf' fl bn ag.
  Variables sv sv' : solved.
  Hypothesis Hsv : sv_same a nf sv sv'.
  Hypothesis Hnf : (1 <= nf)%nat.

  Lemma layer_lt t : (layer_of a t < a_NLayers a)%nat.
  Proof.
    unfold layer_of, argmax_bool. destruct (first_true _) as [i|] eqn:E; [|lia]. apply first_true_Some in E. rewrite map_length in E. lia.
  Qed.
  Lemma layers_lt tau i : In i (layers a tau) -> (i < a_NLayers a)%nat.
  Proof. intros H. apply in_map_iff in H as (t & <- & _). apply layer_lt. Qed.

  Lemma hom_same anti m q t : (m < nf)%nat -> (q < 2 * a_N a)%nat -> hom a sv anti m q t = hom a' sv' anti m q t.
  Proof.
    intros Hm Hq. unfold hom. change (a_N a') with (a_N a). apply rsum_ext. intros k Hk. pose proof (layer_lt t) as Hl.
    change (layer_of a' t) with (layer_of a t). rewrite (same_GC _ _ _ _ Hsv) by auto.
    assert (Ee : exponent a sv m k t = exponent a' sv' m k t).
    { unfold exponent. change (layer_of a' t) with (layer_of a t). rewrite (same_K _ _ _ _ Hsv) by auto. reflexivity. }
    rewrite Ee, (same_K _ _ _ _ Hsv) by auto. reflexivity.
  Qed.
  Lemma beam_same anti m q t : (m < nf)%nat -> (q < 2 * a_N a)%nat -> beam_part a sv anti m q t = beam_part a' sv' anti m q t.
  Proof.
    intros Hm Hq. unfold beam_part. change (a_beam a') with (a_beam a). destruct (a_beam a) eqn:Eb; [|reflexivity].
    change (layer_of a' t) with (layer_of a t). rewrite (same_B _ _ _ _ Hsv) by auto using layer_lt. reflexivity.
  Qed.
  Lemma iso_same anti r0 nr tau : a_iso a = true -> (r0 + nr <= 2 * a_N a)%nat -> rteq (iso_part a sv anti r0 nr tau) (iso_part a' sv' anti r0 nr tau).
  Proof.
    intros Hi Hr. unfold iso_part.
    change (layers a' tau) with (layers a tau). change (a_NLayers a') with (a_NLayers a). change (a_N a') with (a_N a).
    assert (Hu : forall i, (i < length (uniq (a_NLayers a) (layers a tau)))%nat -> (nth i (uniq (a_NLayers a) (layers a tau)) 0 < a_NLayers a)%nat).
    { intros i Hi'. eapply uniq_lt. apply nth_In. exact Hi'. }
    apply mathscr_v_cong.
    - intros x i j Hx Hi' Hj. apply (same_G _ _ _ _ Hsv); auto. lia.
    - intros x j Hx Hj. apply (same_K _ _ _ _ Hsv); auto.
    - intros x j Hx Hj. apply (same_gmi _ _ _ _ Hsv); auto.
  Qed.

  Lemma at_tau_same tau f g t : (forall x, f x = g x) -> at_tau tau f t = at_tau tau g t.
  Proof. intros H. apply H. Qed.

  Lemma u0_all_same anti tau : rteq (u0_all a sv anti tau) (u0_all a' sv' anti tau).
  Proof.
    assert (Hc : teq (u0_core a sv anti tau) (u0_core a' sv' anti tau)).
    { apply teq_mk2. intros q t Hq Ht. cbn [nth]. apply at_tau_same. intros x. rewrite hom_same, beam_same by auto. reflexivity. }
    unfold u0_all. change (a_iso a') with (a_iso a). change (a_N a') with (a_N a). destruct (a_iso a) eqn:Ei; [|exact Hc]. apply rteq_bind; [apply iso_same; auto|].
    intros A B H. apply bcast2_cong; auto.
  Qed.
  Theorem cl_u0_same tau anti rt ra : same_ret (cl_u0 a sv tau anti rt ra) (cl_u0 a' sv' tau anti rt ra).
  Proof.
    unfold cl_u0. apply same_bind_eq; [reflexivity|]. intros _. apply same_bind_eq; [reflexivity|]. intros act.
    apply same_bind; [apply u0_all_same|]. intros A B H. apply ret_cong. constructor; [|apply pvs_refl].
    cbn. apply tscal_cong, tsqueeze_cong, H.
  Qed.

  Lemma half_hom_same r0 anti tau : (r0 + a_N a <= 2 * a_N a)%nat -> teq (half_hom a sv r0 anti tau) (half_hom a' sv' r0 anti tau).
  Proof. intros Hr. unfold half_hom. apply teq_mk2. intros q t Hq Ht. change (a_N a') with (a_N a) in Hq. cbn [nth]. apply at_tau_same. intros x. apply hom_same; lia. Qed.
  Lemma half_beam_same r0 anti tau : (r0 + a_N a <= 2 * a_N a)%nat -> teq (half_beam a sv r0 anti tau) (half_beam a' sv' r0 anti tau).
  Proof. intros Hr. unfold half_beam. apply teq_mk2. intros q t Hq Ht. change (a_N a') with (a_N a) in Hq. cbn [nth]. apply at_tau_same. intros x. apply beam_same; lia. Qed.

  Lemma flux_up_arr_same anti tau : rteq (flux_up_arr a sv anti tau) (flux_up_arr a' sv' anti tau).
  Proof.
    unfold flux_up_arr. change (a_iso a') with (a_iso a). change (a_beam a') with (a_beam a). change (a_N a') with (a_N a). apply rteq_bind.
    - destruct (a_iso a) eqn:Ei; [apply iso_same; auto; lia|apply rteq_refl].
    - intros V V' HV. apply rteq_bind.
      + apply bcast2_cong; [apply half_hom_same; lia|]. destruct (a_beam a); [apply half_beam_same; lia|apply teq_refl].
      + intros X X' HX. apply rteq_bind; [apply bcast2_cong; auto|]. intros Y Y' HY. apply tvm_cong. exact HY.
  Qed.
  Theorem cl_flux_up_same tau anti rt : same_ret (cl_flux_up a sv tau anti rt) (cl_flux_up a' sv' tau anti rt).
  Proof.
    unfold cl_flux_up. apply same_bind_eq; [reflexivity|]. intros _. apply same_bind; [apply flux_up_arr_same|]. intros A B H. apply ret_cong.
    constructor; [|apply pvs_refl]. cbn. apply tscal_cong, tsqueeze_cong, H.
  Qed.
  Lemma down_beam_anti_same tau : a_beam a = true -> rteq (down_beam_anti a sv tau) (down_beam_anti a' sv' tau).
  Proof.
    intros Hb. unfold down_beam_anti. change (a_NLayers a') with (a_NLayers a). change (a_N a') with (a_N a). change (layers a' tau) with (layers a tau).
    set (D := tnew 0 (t1 (map (fun i => - a_scale a i / a_mu0 a) (layers a tau)))).
    change (tnew 0 (t1 (map (fun i : nat => - a_scale a' i / a_mu0 a') (layers a tau)))) with D.
    assert (HD : forall X : tensor, length (shp X) = 2%nat -> forall Y, tdiv X D = Ok Y -> (1 < length (shp Y))%nat).
    { intros X HX Y. unfold tdiv, bcast2. destruct (bshape _ _) eqn:Es; [|discriminate]. intros E. injection E as <-. cbn [shp].
      destruct (shp X) as [|x0 [|x1 [|]]]; try discriminate HX. cbn in Es. unfold padl in Es. cbn in Es.
      destruct (bdim x0 1); [|discriminate]. destruct (bdim x1 _); [|discriminate]. injection Es as <-. cbn. lia. }
    match goal with |- rteq (bind (tdiv ?X D) _) (bind (tdiv ?X' D) _) => assert (HX : teq X X') end.
    { apply teq_mk2. intros q l Hq Hl. cbn [nth]. apply (same_B _ _ _ _ Hsv); auto; lia. }
    pose proof (bcast2_cong Rdiv _ _ _ _ HX (teq_refl D)) as Hd. fold tdiv in Hd.
    match goal with |- rteq (bind (tdiv ?X D) _) _ => pose proof (HD X eq_refl) as HD' end.
    unfold tdiv in *. destruct (bcast2 Rdiv _ D) as [Y|] eqn:E1; destruct (bcast2 Rdiv _ D) as [Y'|] eqn:E2 in Hd |- *; cbn [rteq bind] in *; try tauto.
    apply rteq_bind; [apply ttake_cong; [apply HD'; reflexivity|exact Hd]|]. intros Z Z' HZ. apply bcast2_cong; auto using teq_refl.
  Qed.
  Lemma flux_down_arr_same anti tau : rteq (flux_down_arr a sv anti tau) (flux_down_arr a' sv' anti tau).
  Proof.
    unfold flux_down_arr. change (a_iso a') with (a_iso a). change (a_beam a') with (a_beam a). change (a_N a') with (a_N a). apply rteq_bind.
    - destruct (a_iso a) eqn:Ei; [apply iso_same; auto; lia|apply rteq_refl].
    - intros V V' HV. apply rteq_bind.
      + destruct (a_beam a) eqn:Eb; [|apply rteq_refl]. destruct anti; [apply down_beam_anti_same; auto|apply half_beam_same; lia].
      + intros B B' HB. apply rteq_bind; [apply bcast2_cong; auto; apply half_hom_same; lia|]. intros X X' HX.
        apply rteq_bind; [apply bcast2_cong; auto|]. intros Y Y' HY. apply rteq_bind; [apply tvm_cong; exact HY|]. intros Z Z' HZ.
        apply rteq_bind; [apply bcast2_cong; [exact HZ|apply teq_refl]|]. intros Q Q' HQ. apply bcast2_cong; [exact HQ|apply teq_refl].
  Qed.
  Theorem cl_flux_down_same tau anti rt : same_ret (cl_flux_down a sv tau anti rt) (cl_flux_down a' sv' tau anti rt).
  Proof.
    unfold cl_flux_down. apply same_bind_eq; [reflexivity|]. intros _. apply same_bind; [apply flux_down_arr_same|]. intros A B H.
    constructor; [|constructor; [apply teq_refl|apply pvs_refl]]. cbn. apply tscal_cong, tsqueeze_cong, H.
  Qed.
End Same.

(** The isotropic part has one row per stream. *)
Lemma bcast2_row f A B r x n y : shp A = [r; x] -> shp B = [1%nat; y] -> bcast2 f A B = Ok n -> exists k, shp n = [r; k].
Proof.
  intros SA SB. unfold bcast2. rewrite SA, SB. cbn. unfold padl. cbn. rewrite bdim_1_r. destruct (bdim x y); [|discriminate].
  intros H. injection H as <-. cbn. eauto.
Qed.
Lemma bcast2_same_rows f A B r x y n : shp A = [r; x] -> shp B = [r; y] -> bcast2 f A B = Ok n -> exists k, shp n = [r; k].
Proof.
  intros SA SB. unfold bcast2. rewrite SA, SB. cbn. unfold padl. cbn. rewrite bdim_refl. destruct (bdim x y); [|discriminate].
  intros H. injection H as <-. cbn. eauto.
Qed.
Lemma bcast2_vec f A B r x y n : shp A = [r; x] -> shp B = [y] -> bcast2 f A B = Ok n -> exists k, shp n = [r; k].
Proof.
  intros SA SB. unfold bcast2. rewrite SA, SB. cbn. unfold padl. cbn. rewrite bdim_1_r. destruct (bdim x y); [|discriminate].
  intros H. injection H as <-. cbn. eauto.
Qed.
Lemma bcast2_1d f A B x y n : shp A = [x] -> shp B = [y] -> bcast2 f A B = Ok n -> exists k, shp n = [k].
Proof.
  intros SA SB. unfold bcast2. rewrite SA, SB. cbn. unfold padl. cbn. destruct (bdim x y); [|discriminate].
  intros H. injection H as <-. cbn. eauto.
Qed.
Lemma ttake1_shape ids A n r x : shp A = [r; x] -> ttake 1 ids A = Ok n -> shp n = [r; length ids].
Proof. intros SA. unfold ttake. destruct (forallb _ _); [|discriminate]. intros H. injection H as <-. cbn. rewrite SA. reflexivity. Qed.
Lemma mathscr_v_rows nr nq NL tau sc l Ns s G K gm anti A y : shp sc = [y] ->
  mathscr_v nr nq NL tau sc l Ns s G K gm anti = Ok A -> exists k, shp A = [nr; k].
Proof.
  intros Hsc. unfold mathscr_v. destruct (Nat.eqb Ns 1); [|destruct (Nat.eqb Ns 2)].
  - unfold v_branch1. intros H. apply bind_Ok in H as (p0 & Hp & H). apply bind_Ok in H as (d & Hd & H).
    assert (exists k, shp p0 = [k]) as (k & Hk).
    { destruct anti; [eapply bcast2_1d; [| |exact Hp]; [reflexivity|exact Hsc]|]. injection Hp as <-. cbn. eauto. }
    eapply ttake1_shape in Hd; [|reflexivity]. eapply bcast2_row; [exact Hd| |exact H]. unfold tnew. cbn. rewrite Hk. reflexivity.
  - unfold v_branch2. intros H. apply bind_Ok in H as (d0 & Hd & H). apply bind_Ok in H as (d1 & Hd1 & H).
    apply bind_Ok in H as (x & Hx & H). apply bind_Ok in H as (z & Hz & H). apply bind_Ok in H as (w & Hw & H).
    eapply ttake1_shape in Hd; [|reflexivity]. eapply ttake1_shape in Hd1; [|reflexivity].
    destruct anti; (eapply bcast2_row in Hx as (k1 & Hx); [|exact Hd|reflexivity]; eapply bcast2_row in Hz as (k2 & Hz); [|exact Hd1|reflexivity];
      eapply bcast2_same_rows in Hw as (k3 & Hw); [|exact Hx|exact Hz]).
    1: eapply bcast2_vec; [exact Hw|exact Hsc|exact H].
    injection H as <-. eauto.
  - unfold v_branchN. intros H. apply bind_Ok in H as (p0 & Hp & H). apply bind_Ok in H as (d & Hd & H).
    destruct (list_eqb _ _); [|discriminate]. injection H as <-. cbn. eauto.
Qed.
Lemma iso_part_rows a sv anti r0 nr tau A : iso_part a sv anti r0 nr tau = Ok A -> exists k, shp A = [nr; k].
Proof. unfold iso_part. apply mathscr_v_rows with (a_NLayers a). cbn. unfold vlist; rewrite map_length, seq_length. reflexivity. Qed.

(** [um[0] += v] and its counterpart for automatic differentiation. *)
Lemma um_add_autograd NF r nt f v k : shp v = [r; k] -> (1 < NF)%nat ->
  let um := mkT [NF; r; nt] f in
  rteq (let! s := iop Rplus (mkT [r; nt] (fun idx => f (0%nat :: idx))) v in
        Ok (mkT [NF; r; nt] (fun idx => match idx with 0%nat :: idx' => elt s idx' | _ => f idx end)))
       (let! s := tadd (tslice 0 0 1 um) v in tconcat 0 s (tslice 0 1 (NF - 1) um)).
Proof.
  intros Hv HNF um.
  assert (E2 : tadd (tslice 0 0 1 um) v = match bdim nt k with Some d =>
     Ok (mkT [1%nat; r; d] (fun idx => elt (tslice 0 0 1 um) (bidx [1%nat; r; nt] idx) + elt v (skipn 1 (bidx [1%nat; r; k] idx)))) | None => Err EShape end).
  { unfold tadd, bcast2. rewrite Hv. cbn. unfold padl. cbn. rewrite bdim_refl. destruct (bdim nt k); reflexivity. }
  assert (E1 : bcast2 Rplus (mkT [r; nt] (fun idx => f (0%nat :: idx))) v = match bdim nt k with Some d =>
     Ok (mkT [r; d] (fun idx => f (0%nat :: bidx [r; nt] idx) + elt v (bidx [r; k] idx))) | None => Err EShape end).
  { unfold bcast2. rewrite Hv. cbn. unfold padl. cbn. rewrite bdim_refl. destruct (bdim nt k); reflexivity. }
  unfold iop. rewrite E1, E2. destruct (bdim nt k) as [d|] eqn:Ed; [|reflexivity]. cbn [bind shp].
  unfold tconcat. cbn [shp tslice um firstn skipn nth app list_eqb andb]. rewrite Nat.eqb_refl. cbn [andb].
  cbn [list_eqb]. rewrite andb_true_r. destruct (Nat.eqb_spec d nt) as [->|]; cbn [bind]; [|reflexivity].
  replace (1 + (NF - 1))%nat with NF by lia. apply teq_mk3. intros i j x Hi Hj Hx. cbn [nth firstn skipn app elt tslice um].
  destruct i as [|i].
  - cbn. reflexivity.
  - cbn. f_equal. f_equal. lia.
Qed.

Section SameU.
  Variable a : as_in.
  Hypothesis Hlen : length (a_tau a) = a_NLayers a.
  Hypothesis HNL : (1 <= a_NLayers a)%nat.
  Hypothesis HNF : (1 <= a_NFourier a)%nat.
  Hypothesis HN : (1 <= a_N a)%nat.
  Variables (fl : bool) (bn : nat) (ag : bool).
  Let a' := a_with a (a_NFourier a) fl bn ag.
  Variables sv sv' : solved.
  Hypothesis Hsv : sv_same a (a_NFourier a) sv sv'.

  Lemma um_core_same anti tau : teq (um_core a sv anti tau) (um_core a' sv' anti tau).
  Proof.
    apply teq_mk3. intros m q t Hm Hq Ht. cbn [nth]. apply at_tau_same. intros x.
    rewrite (hom_same a Hlen HNL (a_NFourier a) (a_NFourier a) fl bn ag sv sv' Hsv HNF anti m q x Hm Hq).
    rewrite (beam_same a Hlen HNL (a_NFourier a) (a_NFourier a) fl bn ag sv sv' Hsv HNF anti m q x Hm Hq). reflexivity.
  Qed.
  Lemma um_add_same f g v v' k r nt : shp v = [r; k] -> teq v v' -> teq (mkT [a_NFourier a; r; nt] f) (mkT [a_NFourier a; r; nt] g) ->
    rteq (um_add a (mkT [a_NFourier a; r; nt] f) v) (um_add a' (mkT [a_NFourier a; r; nt] g) v').
  Proof.
    intros Sv Hv Hum. unfold um_add. change (a_NFourier a') with (a_NFourier a). destruct (Nat.eqb_spec (a_NFourier a) 1); [apply bcast2_cong; auto|].
    assert (H0 : rteq (let! s := iop Rplus (mkT [r; nt] (fun idx => f (0%nat :: idx))) v in
        Ok (mkT [a_NFourier a; r; nt] (fun idx => match idx with 0%nat :: idx' => elt s idx' | _ => f idx end)))
       (let! s := iop Rplus (mkT [r; nt] (fun idx => g (0%nat :: idx))) v' in
        Ok (mkT [a_NFourier a; r; nt] (fun idx => match idx with 0%nat :: idx' => elt s idx' | _ => g idx end)))).
    { pose proof (iop_cong Rplus (mkT [r; nt] (fun idx => f (0%nat :: idx))) (mkT [r; nt] (fun idx => g (0%nat :: idx))) v v') as Hi.
      assert (Hfg : teq (mkT [r; nt] (fun idx => f (0%nat :: idx))) (mkT [r; nt] (fun idx => g (0%nat :: idx)))).
      { apply teq_mk2. intros i j Hi' Hj. apply (proj2 Hum [0%nat; i; j]). cbn. lia. }
      specialize (Hi Hfg Hv). unfold iop in *.
      destruct (bcast2 Rplus (mkT [r; nt] (fun idx => f (0%nat :: idx))) v) as [A|]; destruct (bcast2 Rplus (mkT [r; nt] (fun idx => g (0%nat :: idx))) v') as [B|]; cbn [bind shp] in *;
        repeat match goal with |- context [if list_eqb ?x ?y then _ else _] => destruct (list_eqb x y) eqn:? end; cbn [bind rteq] in *; try tauto; try congruence.
      apply teq_mk3. intros i j x Hi' Hj Hx. destruct i; [apply (proj2 Hi)|apply (proj2 Hum [S i; j; x]); cbn; lia].
      match goal with H : list_eqb (shp A) _ = true |- _ => apply list_eqb_iff in H; rewrite H end. cbn. lia. }
    assert (H1 : forall f v, shp v = [r; k] -> _) by (intros f0 v0 Sv0; exact (um_add_autograd (a_NFourier a) r nt f0 v0 k Sv0 ltac:(lia))).
    pose proof (H1 f v Sv) as Hf. pose proof (H1 g v' ltac:(rewrite <- (proj1 Hv); exact Sv)) as Hg. cbv zeta in Hf, Hg.
    change (a_autograd a') with ag. cbn [shp tl elt].
    assert (Hsym : forall x y, rteq x y -> rteq y x). { intros [x|] [y|]; cbn; auto using teq_sym. }
    assert (Htr : forall x y z, rteq x y -> rteq y z -> rteq x z).
    { intros [x|] [y|] [z|]; cbn; try tauto; try congruence. apply teq_trans. }
    destruct (a_autograd a), ag; eauto.
  Qed.
  Lemma um_all_same anti tau : rteq (um_all a sv anti tau) (um_all a' sv' anti tau).
  Proof.
    unfold um_all. change (a_iso a') with (a_iso a). change (a_N a') with (a_N a). destruct (a_iso a) eqn:Ei; [|apply um_core_same].
    pose proof (iso_same a Hlen HNL (a_NFourier a) (a_NFourier a) fl bn ag sv sv' Hsv HNF anti 0 (2 * a_N a) tau Ei ltac:(lia)) as H.
    destruct (iso_part a sv anti 0 (2 * a_N a) tau) as [v|] eqn:Ev; destruct (iso_part _ sv' anti 0 (2 * a_N a) tau) as [v'|]; cbn [rteq bind] in *; try tauto.
    destruct (iso_part_rows _ _ _ _ _ _ _ Ev) as (k & Hk). apply um_add_same with k; auto. apply um_core_same.
  Qed.
  Lemma u_full_same u u' phi n m p : shp u = [n; m; p] -> n = a_NFourier a -> teq u u' -> teq (u_full a u phi) (u_full a' u' phi).
  Proof.
    intros Su Hn [S E]. unfold u_full. rewrite <- S, Su. cbn [nth]. apply teq_mk3. intros i j k Hi Hj Hk. cbn [nth].
    change (a_NFourier a') with (a_NFourier a). apply rsum_ext. intros x Hx. f_equal. apply E. rewrite Su. cbn. lia.
  Qed.

  Lemma um_all_shape anti tau A : um_all a sv anti tau = Ok A -> exists k, shp A = [a_NFourier a; (2 * a_N a)%nat; k].
  Proof.
    unfold um_all. destruct (a_iso a); [|intros H; injection H as <-; cbn; eauto]. intros H. apply bind_Ok in H as (v & Hv & H).
    destruct (iso_part_rows _ _ _ _ _ _ _ Hv) as (k & Hk).
    assert (G : forall f, rteq (Ok A) (let! s := iop Rplus (mkT [(2 * a_N a)%nat; length tau] (fun idx => f (0%nat :: idx))) v in
        Ok (mkT [a_NFourier a; (2 * a_N a)%nat; length tau] (fun idx => match idx with 0%nat :: idx' => elt s idx' | _ => f idx end))) ->
        exists k, shp A = [a_NFourier a; (2 * a_N a)%nat; k]).
    { intros f G. destruct (iop _ _ v); cbn [bind rteq] in G; [|contradiction]. rewrite (proj1 G). cbn. eauto. }
    unfold um_add in H. destruct (Nat.eqb_spec (a_NFourier a) 1) as [E|E].
    - revert H. unfold tadd, bcast2. rewrite Hk. cbn [um_core shp length Nat.max padl Nat.sub repeat app]. unfold padl. cbn [length Nat.sub repeat app bshape].
      rewrite bdim_1_r, bdim_refl. destruct (bdim _ _); [|discriminate]. intros H. injection H as <-. cbn. eauto.
    - destruct (a_autograd a).
      + apply (G (elt (um_core a sv anti tau))). rewrite <- H.
        pose proof (um_add_autograd (a_NFourier a) (2 * a_N a) (length tau) (elt (um_core a sv anti tau)) v k Hk ltac:(lia)) as X. cbv zeta in X.
        destruct (let! s := iop Rplus _ v in _) as [P|]; change (um_core a sv anti tau) with (mkT [a_NFourier a; (2 * a_N a)%nat; length tau] (elt (um_core a sv anti tau)));
        destruct (let! s := tadd (tslice 0 0 1 (mkT [a_NFourier a; (2 * a_N a)%nat; length tau] (elt (um_core a sv anti tau)))) v in _) as [Q|]; cbn [rteq] in *; try tauto; try congruence.
        apply teq_sym. exact X.
      + apply (G (elt (um_core a sv anti tau))). rewrite <- H. apply rteq_refl.
  Qed.

  Lemma err_beam_same anti tau : a_beam a = true -> rteq (err_beam a sv anti tau) (err_beam a' sv' anti tau).
  Proof.
    intros Hb. unfold err_beam. change (a_NLayers a') with (a_NLayers a). change (a_N a') with (a_N a). change (layers a' tau) with (layers a tau). change (a_NFourier a') with (a_NFourier a).
    destruct anti.
    - set (D := tnew 0 (t1 (vlist (a_NLayers a) (fun l => - a_scale a l / a_mu0 a)))).
      change (tnew 0 (t1 (vlist (a_NLayers a) (fun l => - a_scale a' l / a_mu0 a')))) with D.
      set (X := mkT [a_NLayers a; a_NFourier a] (fun idx => sv_B sv (nth 1 idx 0%nat) (nth 0 idx 0%nat) (2 * a_N a - 1)%nat)).
      set (X' := mkT [a_NLayers a; a_NFourier a] (fun idx => sv_B sv' (nth 1 idx 0%nat) (nth 0 idx 0%nat) (2 * a_N a - 1)%nat)).
      assert (HX : teq X X'). { apply teq_mk2. intros l m Hl Hm. cbn [nth]. apply (same_B _ _ _ _ Hsv); auto; lia. }
      pose proof (bcast2_cong Rdiv _ _ _ _ HX (teq_refl D)) as Hd. unfold tdiv.
      destruct (bcast2 Rdiv X D) as [Y|] eqn:E1; destruct (bcast2 Rdiv X' D) as [Y'|] eqn:E2; cbn [rteq bind] in *; try tauto.
      apply rteq_bind; [apply ttake_cong; [|exact Hd]|].
      + eapply bcast2_row in E1 as (k & ->); [cbn; lia|reflexivity|reflexivity].
      + intros Z Z' HZ. apply bcast2_cong; auto using teq_refl.
    - destruct (forallb _ _) eqn:Ef; [|reflexivity]. apply bcast2_cong; [|apply teq_refl]. apply teq_mk2. intros t l Ht Hl. cbn [nth].
      apply (same_B _ _ _ _ Hsv); auto; [|lia]. rewrite forallb_forall in Ef. apply Nat.ltb_lt. apply Ef. apply nth_In. unfold layers. rewrite map_length. exact Ht.
  Qed.
  Lemma ulast_same anti tau : rteq (ulast a sv anti tau) (ulast a' sv' anti tau).
  Proof.
    unfold ulast. change (a_NFourier a') with (a_NFourier a). change (a_N a') with (a_N a). change (a_beam a') with (a_beam a).
    assert (H : teq (mkT [(2 * a_N a)%nat; length tau] (fun idx => at_tau tau (hom a sv anti (a_NFourier a - 1) (nth 0 idx 0%nat)) (nth 1 idx 0%nat)))
                    (mkT [(2 * a_N a)%nat; length tau] (fun idx => at_tau tau (hom a' sv' anti (a_NFourier a - 1) (nth 0 idx 0%nat)) (nth 1 idx 0%nat)))).
    { apply teq_mk2. intros q t Hq Ht. cbn [nth]. apply at_tau_same. intros x.
      apply (hom_same a Hlen HNL (a_NFourier a) (a_NFourier a) fl bn ag sv sv' Hsv HNF); lia. }
    destruct (a_beam a) eqn:Eb; [|exact H]. apply rteq_bind; [apply err_beam_same; auto|]. intros B B' HB. apply bcast2_cong; auto.
  Qed.
  Lemma bcast2_rank f A B C : bcast2 f A B = Ok C -> length (shp C) = Nat.max (length (shp A)) (length (shp B)).
  Proof.
    assert (L : forall s t r, bshape s t = Some r -> length r = length s).
    { induction s as [|x s IH]; intros [|y t] r H; cbn in H; try discriminate; [injection H as <-; reflexivity|].
      destruct (bdim x y); [|discriminate]. destruct (bshape s t) eqn:E; [|discriminate]. injection H as <-. cbn. f_equal. eauto. }
    unfold bcast2. destruct (bshape _ _) eqn:E; [|discriminate]. intros H. injection H as <-. cbn [shp]. rewrite (L _ _ _ E). unfold padl.
    rewrite app_length, repeat_length. lia.
  Qed.
  Lemma Fourier_error_same anti tau phi u u' : teq u u' -> Fourier_error a sv anti tau phi u = Fourier_error a' sv' anti tau phi u'.
  Proof.
    intros Hu. unfold Fourier_error. change (a_NFourier a') with (a_NFourier a).
    pose proof (ulast_same anti tau) as H. destruct (ulast a sv anti tau) as [x|] eqn:E1; destruct (ulast a' sv' anti tau) as [y|] eqn:E2; cbn [rteq bind] in *; try tauto; [|congruence].
    assert (Hr : (2 <= length (shp x))%nat).
    { unfold ulast in E1. destruct (a_beam a); [|injection E1 as <-; cbn; lia]. apply bind_Ok in E1 as (b & _ & E1). apply bcast2_rank in E1. rewrite E1. cbn [shp length]. lia. }
    assert (Hn : rteq (tmul (tnew 2 x) (tnew 0 (tnew 0 (t1 (map (azimuth a (a_NFourier a - 1)) phi)))))
                      (tmul (tnew 2 y) (tnew 0 (tnew 0 (t1 (map (azimuth a' (a_NFourier a - 1)) phi)))))).
    { apply bcast2_cong; [apply tnew_cong; auto|apply teq_refl]. }
    destruct (tmul (tnew 2 x) _) as [X|]; destruct (tmul (tnew 2 y) _) as [Y|]; cbn [rteq bind] in *; try tauto; [|congruence].
    set (fq := fun x y => if Rltb (1 / 100000000) y then x / y else 0).
    pose proof (bcast2_cong fq _ _ _ _ (tmap_cong Rabs _ _ Hn) (tmap_cong Rabs _ _ Hu)) as Hd.
    destruct (bcast2 fq (tmap Rabs X) (tmap Rabs u)) as [P|]; destruct (bcast2 fq (tmap Rabs Y) (tmap Rabs u')) as [Q|]; cbn [rteq bind] in *; try tauto; [|congruence].
    rewrite <- (proj1 Hd). cbn [tmap shp]. rewrite <- (proj1 Hu). destruct (list_eqb _ _); [|reflexivity]. apply tmax_cong. exact Hd.
  Qed.
  Theorem cl_u_same tau phi anti re rt rl : same_ret (cl_u a sv tau phi anti re rt rl) (cl_u a' sv' tau phi anti re rt rl).
  Proof.
    unfold cl_u. apply same_bind_eq; [reflexivity|]. intros _.
    pose proof (um_all_same anti tau) as H. destruct (um_all a sv anti tau) as [um|] eqn:E1; destruct (um_all a' sv' anti tau) as [um'|] eqn:E2; cbn [rteq bind] in *; try tauto.
    destruct (um_all_shape _ _ _ E1) as (k & Hk).
    pose proof (u_full_same um um' phi _ _ _ Hk eq_refl H) as Hu.
    apply same_bind_eq; [destruct re; [rewrite (Fourier_error_same anti tau phi _ _ Hu); reflexivity|reflexivity]|].
    intros e. apply ret_cong. constructor; [cbn; apply tscal_cong, tsqueeze_cong, Hu|apply pvs_refl].
  Qed.
End SameU.
