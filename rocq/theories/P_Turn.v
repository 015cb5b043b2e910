(** Azimuths enter the results only through the cosine of their difference to the sun's. *)
From Coq Require Import String Reals Lra Lia List Bool Arith ZArith.
From Verif Require Import Base Tensor P_Tensor P_Teq M_LinAlg M_Subroutines M_GenPart M_MathscrV M_Coeffs M_Assemble M_Pydisort
  P_Assemble Spec_Calls P_Same P_Whole Spec_Turn.
Import ListNotations.
Local Open Scope R_scope.

Lemma cos_multiple x y : cos x = cos y -> forall m, cos (INR m * x) = cos (INR m * y).
Proof.
  intros H. assert (G : forall m, cos (INR m * x) = cos (INR m * y) /\ cos (INR (S m) * x) = cos (INR (S m) * y)).
  { induction m as [|m [I1 I2]].
    - cbn [INR]. rewrite !Rmult_0_l, !Rmult_1_l. auto.
    - split; [exact I2|]. assert (C : forall z, cos (INR (S (S m)) * z) = 2 * cos z * cos (INR (S m) * z) - cos (INR m * z)).
      { intros z. rewrite !S_INR. replace ((INR m + 1 + 1) * z) with ((INR m + 1) * z + z) by ring. replace (INR m * z) with ((INR m + 1) * z - z) by ring.
        rewrite cos_plus, cos_minus. ring. }
      rewrite !C, H, I1, I2. reflexivity. }
  intros m. apply G.
Qed.
Lemma cos_swap x y : cos (x - y) = cos (y - x).
Proof. rewrite <- (cos_neg (x - y)). f_equal. ring. Qed.

Section Bearing.
  Variables (x y : R) (phi psi : list R).
  Hypothesis H : same_bearing x y phi psi.
  Lemma b_len : length psi = length phi.
  Proof. induction H; cbn; auto. Qed.
  Lemma b_cos i : (i < length phi)%nat -> cos (x - nth i phi 0) = cos (y - nth i psi 0).
  Proof.
    clear -H. revert i. unfold same_bearing in H. induction H as [|f g phi' psi' Hh H0 IH]; cbn; [intros; lia|]. intros [|i] Hi.
    - rewrite (cos_swap x f), (cos_swap y g). exact Hh.
    - apply IH; [exact H0|lia].
  Qed.
  Lemma nu_same mu mup : teq (calculate_nu mu phi mup [x]) (calculate_nu mu psi mup [y]).
  Proof.
    unfold calculate_nu. apply tsqueeze_cong. unfold calculate_nu_4d. rewrite b_len. split; [reflexivity|]. cbn [shp elt length].
    intros [|i [|j [|k [|l [|]]]]] Hi; cbn in Hi; try tauto. destruct l; [|lia]. cbn [nth]. rewrite b_cos by tauto. reflexivity.
  Qed.
  Lemma append_cong A B : teq A B -> teq (atleast_2d_append A) (atleast_2d_append B).
  Proof.
    intros [S E]. unfold atleast_2d_append. rewrite <- S. destruct (shp A) as [|n [|m s]] eqn:ES.
    - split; [reflexivity|]. cbn. intros idx _. apply E. exact I.
    - apply tnew_cong; [rewrite ES; cbn; lia|]. split; [congruence|]. rewrite ES. exact E.
    - split; [congruence|]. rewrite ES. exact E.
  Qed.
End Bearing.

Lemma bcast_rank f A B C : bcast2 f A B = Ok C -> length (shp C) = Nat.max (length (shp A)) (length (shp B)).
Proof.
  assert (L : forall s t r, bshape s t = Some r -> length r = length s).
  { induction s as [|x s IH]; intros [|y t] r H; cbn in H; try discriminate; [injection H as <-; reflexivity|].
    destruct (bdim x y); [|discriminate]. destruct (bshape s t) eqn:E; [|discriminate]. injection H as <-. cbn. f_equal. eauto. }
  unfold bcast2. destruct (bshape _ _) eqn:E; [|discriminate]. intros H. injection H as <-. cbn [shp]. rewrite (L _ _ _ E). unfold padl.
  rewrite app_length, repeat_length. lia.
Qed.

Section Turn.
  Variables (p : py_in) (y : R).
  Let q := turned p y.
  Variables (lg : leggauss_t) (r : R) (ss : nat -> vec) (sv : solved).
  Let a := assemble_args p lg r ss.
  Let b := assemble_args q lg r ss.
  Variables (phi psi : list R).
  Hypothesis H : same_bearing (p_phi0 p) y phi psi.

  Lemma azimuth_same m i : (i < length phi)%nat -> azimuth a m (nth i phi 0) = azimuth b m (nth i psi 0).
  Proof. intros Hi. unfold azimuth. apply cos_multiple. exact (b_cos _ _ _ _ H i Hi). Qed.
  Lemma u_full_turn um : teq (u_full a um phi) (u_full b um psi).
  Proof.
    unfold u_full. rewrite (b_len _ _ _ _ H). apply teq_mk3. intros i j k Hi Hj Hk. cbn [nth]. change (a_NFourier b) with (a_NFourier a).
    apply rsum_ext. intros m Hm. rewrite azimuth_same by exact Hk. reflexivity.
  Qed.
  Lemma azimuths_turn m : map (azimuth a m) phi = map (azimuth b m) psi.
  Proof.
    apply (nth_ext _ _ 0 0); rewrite !map_length; [symmetry; apply (b_len _ _ _ _ H)|]. intros i Hi.
    rewrite (nth_indep _ 0 (azimuth a m 0)) by (rewrite map_length; exact Hi).
    rewrite (nth_indep (map (azimuth b m) psi) 0 (azimuth b m 0)) by (rewrite map_length, (b_len _ _ _ _ H); exact Hi).
    rewrite !map_nth. apply azimuth_same. exact Hi.
  Qed.
  Lemma error_turn anti tau u u' : teq u u' -> Fourier_error a sv anti tau phi u = Fourier_error b sv anti tau psi u'.
  Proof.
    intros Hu. unfold Fourier_error. change (ulast b sv anti tau) with (ulast a sv anti tau). change (a_NFourier b) with (a_NFourier a).
    rewrite azimuths_turn. destruct (ulast a sv anti tau) as [x|]; cbn [bind]; [|reflexivity].
    destruct (tmul _ _) as [X|]; cbn [bind]; [|reflexivity].
    set (fq := fun x y => if Rltb (1 / 100000000) y then x / y else 0).
    pose proof (bcast2_cong fq _ _ _ _ (teq_refl (tmap Rabs X)) (tmap_cong Rabs _ _ Hu)) as Hd.
    destruct (bcast2 fq (tmap Rabs X) (tmap Rabs u)) as [P|]; destruct (bcast2 fq (tmap Rabs X) (tmap Rabs u')) as [Q|]; cbn [rteq bind] in *; try tauto; [|congruence].
    rewrite <- (proj1 Hd). cbn [tmap shp]. rewrite <- (proj1 Hu). destruct (list_eqb _ _); [|reflexivity]. apply tmax_cong. exact Hd.
  Qed.
  Lemma u_turn tau anti re rt rl : same_ret (cl_u a sv tau phi anti re rt rl) (cl_u b sv tau psi anti re rt rl).
  Proof.
    unfold cl_u. change (tau_check b tau) with (tau_check a tau). apply same_bind_eq; [reflexivity|]. intros _.
    change (um_all b sv anti tau) with (um_all a sv anti tau). apply same_bind_eq; [reflexivity|]. intros um.
    pose proof (u_full_turn um) as Hu.
    apply same_bind_eq; [destruct re; [rewrite (error_turn anti tau _ _ Hu); reflexivity|reflexivity]|].
    intros e. apply ret_cong. constructor; [cbn; apply tscal_cong, tsqueeze_cong, Hu|apply pvs_refl].
  Qed.

  Lemma TMS_turn tau anti ls : rteq (TMS_correction p lg a tau phi anti ls) (TMS_correction q lg b tau psi anti ls).
  Proof.
    unfold TMS_correction. change (mu_arr q lg) with (mu_arr p lg). change (p_mu0 q) with (p_mu0 p). change (p_phi0 q) with y.
    pose proof (append_cong _ _ (nu_same _ _ _ _ H (mu_arr p lg) [- p_mu0 p])) as [S E].
    set (nu := atleast_2d_append (calculate_nu (mu_arr p lg) phi _ _)) in *. set (nu' := atleast_2d_append (calculate_nu _ psi _ _)) in *.
    destruct ls as [|l ls]; [reflexivity|]. change (existsb (fun l => Reqb (1 - f_at q l) 0) (l :: ls)) with (existsb (fun l => Reqb (1 - f_at p l) 0) (l :: ls)).
    destruct (existsb _ _); [reflexivity|]. rewrite <- S. destruct (shp nu) as [|n0 [|k [|k0 s0]]]; try reflexivity.
    change (pN q) with (pN p). destruct (Nat.eqb_spec n0 (2 * pN p)) as [->|]; [|reflexivity]. cbn [rteq]. apply teq_mk3. intros i j m Hi Hj Hm. cbn [nth].
    change (tms_own q) with (tms_own p). change (tms_other q) with (tms_other p). f_equal.
    unfold mathscr_B. rewrite <- (E [i; m]) by (cbn; tauto). reflexivity.
  Qed.
  Lemma IMS_turn tau anti : rteq (IMS_correction p lg a tau phi anti) (IMS_correction q lg b tau psi anti).
  Proof.
    unfold IMS_correction. change (quad_mu q lg) with (quad_mu p lg). change (p_mu0 q) with (p_mu0 p). change (p_phi0 q) with y. change (pN q) with (pN p).
    change (sum2 q) with (sum2 p). change (scaled_mu0 q) with (scaled_mu0 p). change (omega_avg q) with (omega_avg p). change (f_avg q) with (f_avg p).
    change (NLeg_all q) with (NLeg_all p). change (Leg_residue_avg q) with (Leg_residue_avg p). change (chi q lg) with (chi p lg).
    change (a_I0_div_4pi b) with (a_I0_div_4pi a).
    pose proof (append_cong _ _ (nu_same _ _ _ _ H (map (fun i => - quad_mu p lg i) (seq 0 (pN p))) [- p_mu0 p])) as [S E].
    set (nu := atleast_2d_append (calculate_nu _ phi _ _)) in *. set (nu' := atleast_2d_append (calculate_nu _ psi _ _)) in *.
    destruct (_ || _)%bool; [reflexivity|]. rewrite <- S. destruct (shp nu) as [|n0 [|k [|k0 s0]]]; try reflexivity.
    apply bcast2_cong; [|apply teq_refl]. apply teq_mk3. intros i j m Hi Hj Hm. cbn [nth]. rewrite <- (E [i; m]) by (cbn; tauto). reflexivity.
  Qed.
  Lemma TMS_shape tau anti ls T : TMS_correction p lg a tau phi anti ls = Ok T -> exists k, shp T = [(2 * pN p)%nat; length tau; k].
  Proof.
    unfold TMS_correction. destruct ls; [discriminate|]. destruct (existsb _ _); [discriminate|]. destruct (shp _) as [|n0 [|k [|k0 s0]]]; try discriminate.
    destruct (Nat.eqb _ _); [|discriminate]. intros E. injection E as <-. cbn [shp]. eauto.
  Qed.
  Lemma NT_turn tau anti ls : rteq (NT_corrections p lg a tau phi anti ls) (NT_corrections q lg b tau psi anti ls).
  Proof.
    unfold NT_corrections. pose proof (TMS_turn tau anti ls) as HT.
    destruct (TMS_correction p lg a tau phi anti ls) as [T|] eqn:ET; destruct (TMS_correction q lg b tau psi anti ls) as [T'|]; cbn [rteq bind] in *; try tauto.
    destruct (TMS_shape _ _ _ _ ET) as (k & ST).
    apply rteq_bind; [apply IMS_turn|]. intros V V' HV. change (p_autograd q) with (p_autograd p). change (pN q) with (pN p).
    assert (S1 : teq (tslice 0 (pN p) (pN p) T) (tslice 0 (pN p) (pN p) T')) by (apply tslice_cong; [rewrite ST; cbn; lia|rewrite ST; cbn [nth]; lia|exact HT]).
    destruct (p_autograd p).
    - pose proof (bcast2_cong Rplus _ _ _ _ S1 HV) as HA. unfold tadd.
      destruct (bcast2 Rplus (tslice 0 (pN p) (pN p) T) V) as [s|] eqn:Es; destruct (bcast2 Rplus (tslice 0 (pN p) (pN p) T') V') as [s'|]; cbn [rteq bind] in *; try tauto.
      apply tconcat_cong; [unfold tslice; cbn [shp]; rewrite ST; cbn; lia| |apply tslice_cong; [rewrite ST; cbn; lia|rewrite ST; cbn [nth]; lia|exact HT]|exact HA].
      apply bcast_rank in Es. rewrite Es. unfold tslice. cbn [shp]. rewrite ST. cbn [length firstn skipn app]. lia.
    - pose proof (iop_cong Rplus _ _ _ _ S1 HV) as HA.
      destruct (iop Rplus (tslice 0 (pN p) (pN p) T) V) as [s|] eqn:Es; destruct (iop Rplus (tslice 0 (pN p) (pN p) T') V') as [s'|]; cbn [rteq bind] in *; try tauto.
      rewrite <- (proj1 HT), ST. apply teq_mk3. intros i j m Hi Hj Hm. destruct (Nat.ltb_spec i (pN p)).
      + apply (proj2 HT). rewrite ST. cbn. tauto.
      + apply (proj2 HA). unfold iop in Es. destruct (bcast2 _ _ V); cbn [bind] in Es; [|discriminate]. destruct (list_eqb _ _) eqn:El; [|discriminate].
        injection Es as <-. apply list_eqb_iff in El. rewrite El. unfold tslice. cbn [shp]. rewrite ST. cbn. lia.
  Qed.
  Lemma corrected_turn tau anti re rt :
    same_ret (u_corrected p lg a (cl_u a sv) tau phi anti re rt) (u_corrected q lg b (cl_u b sv) tau psi anti re rt).
  Proof.
    pose proof (u_turn tau anti re rt true) as HU. unfold u_corrected. destruct (cl_u a sv tau phi anti re rt true) as [v|e], (cl_u b sv tau psi anti re rt true) as [v'|e']; cbn [same_ret bind] in *; try tauto.
    destruct v as [v|vs], v' as [v'|vs']; cbn [pret_eq] in HU; try tauto; [reflexivity|].
    destruct HU as [|x0 y0 vs ws Hxy HU]; [reflexivity|].
    destruct x0 as [A| | |], y0 as [B| | |]; cbn [pv_eq] in Hxy; try tauto; try reflexivity; [].
    assert (Hl : length vs = length ws) by (clear -HU; induction HU; cbn; auto). change (has_iso q) with (has_iso p). rewrite <- Hl.
    set (k := (length vs - _)%nat). pose proof (pv_nth k vs ws (PR 0) HU) as Hk.
    destruct (nth k vs (PR 0)) as [| | |ls], (nth k ws (PR 0)) as [| | |ls']; cbn [pv_eq] in Hk; try tauto; try reflexivity. subst ls'.
    apply same_bind; [apply NT_turn|]. intros X Y HXY. apply same_bind.
    { apply bcast2_cong; [auto|]. apply tscal_cong, tsqueeze_cong. exact HXY. }
    intros X' Y' HX. cbn [same_ret]. apply ret_cong. constructor; [exact HX|]. apply pv_firstn. exact HU.
  Qed.
End Turn.

Lemma sun_ok p x : (0 < p_I0 p -> 0 <= x < 2 * PI) -> (negb (has_beam p) || (Rleb 0 x && Rltb x (2 * PI)))%bool = true.
Proof.
  intros H. destruct (has_beam p) eqn:E; [|reflexivity]. destruct (H (proj1 (Rltb_iff _ _) E)). cbn [negb orb].
  rewrite Rleb_t, Rltb_t by assumption. reflexivity.
Qed.
Lemma validate_turn p x : (0 < p_I0 p -> 0 <= p_phi0 p < 2 * PI /\ 0 <= x < 2 * PI) -> validate (turned p x) = validate p.
Proof.
  intros H. unfold validate. change (p_tau (turned p x)) with (p_tau p). destruct (p_tau p); [reflexivity|]. f_equal.
  unfold checks. change (has_beam (turned p x)) with (has_beam p). change (p_phi0 (turned p x)) with x.
  rewrite (sun_ok p x), (sun_ok p (p_phi0 p)) by (intros Hb; apply (H Hb)). reflexivity.
Qed.
Theorem call_turned p x lg la jk : (0 < p_I0 p -> 0 <= p_phi0 p < 2 * PI /\ 0 <= x < 2 * PI) ->
  same_from (p_phi0 p) x (pydisort p lg la jk) (pydisort (turned p x) lg la jk).
Proof.
  intros Hx. set (q := turned p x). unfold pydisort. unfold q at 1. rewrite (validate_turn p x Hx). destruct (validate p); cbn [bind]; [|reflexivity].
  change (NT_angle_ok q) with (NT_angle_ok p).
  match goal with |- same_from _ _ (bind ?a _) (bind ?a _) => destruct a end; cbn [bind]; [|reflexivity].
  change (scaled_s q) with (scaled_s p). destruct (scaled_s p) as [ss|]; cbn [bind]; [|reflexivity].
  change (rescale q) with (rescale p). destruct (rescale p ss) as [r|]; cbn [bind]; [|reflexivity].
  set (A := assemble_args p lg r ss). set (A' := assemble_args q lg r ss).
  change (solve_all A' la jk) with (solve_all A la jk). destruct (solve_all A la jk) as [sv|]; cbn [bind]; [|reflexivity].
  cbn [same_from po_mu po_flux_up po_flux_down po_u0 po_u po_Leg].
  change (cl_flux_up A' sv) with (cl_flux_up A sv).
  change (cl_flux_down A' sv) with (cl_flux_down A sv).
  change (cl_u0 A' sv) with (cl_u0 A sv).
  change (mu_arr q lg) with (mu_arr p lg).
  do 5 (split; [reflexivity|]).
  change (p_only_flux q) with (p_only_flux p). destruct (p_only_flux p); [exact I|].
  change (NT_active q) with (NT_active p). destruct (NT_active p); intros tau phi psi anti re rt HB.
  - apply corrected_turn. exact HB.
  - apply u_turn. exact HB.
Qed.

Lemma cos_turns x k : cos (x + 2 * PI * IZR k) = cos x.
Proof.
  destruct k as [|k|k].
  - f_equal. ring.
  - rewrite <- (cos_period x (Pos.to_nat k)). rewrite INR_IZR_INZ, positive_nat_Z. f_equal. ring.
  - rewrite <- (cos_period (x + 2 * PI * IZR (Z.neg k)) (Pos.to_nat k)). rewrite INR_IZR_INZ, positive_nat_Z.
    change (Z.neg k) with (- Z.pos k)%Z. rewrite opp_IZR. f_equal. ring.
Qed.
Theorem call_rotated p d k lg la jk out : pydisort p lg la jk = Ok out ->
  let x := p_phi0 p + d - 2 * PI * IZR k in (0 < p_I0 p -> 0 <= x < 2 * PI) ->
  exists out', pydisort (turned p x) lg la jk = Ok out' /\ forall u u', po_u out = Some u -> po_u out' = Some u' ->
  forall tau phi anti re rt, same_ret (u tau phi anti re rt) (u' tau (map (fun f => f + d) phi) anti re rt).
Proof.
  intros Hok x Hx. pose proof (call_turned p x lg la jk) as H. rewrite Hok in H.
  assert (Hp : 0 < p_I0 p -> 0 <= p_phi0 p < 2 * PI).
  { intros Hb. pose proof Hok as Hv. unfold pydisort in Hv. apply bind_Ok in Hv as (t & Hv & _). destruct t.
    apply P_Valid.validate_iff in Hv. apply (Spec_Valid.v_phi0 _ Hv). exact Hb. }
  specialize (H (fun h => conj (Hp h) (Hx h))). destruct (pydisort (turned p x) lg la jk) as [out'|]; [|contradiction].
  exists out'. split; [reflexivity|]. destruct H as (_ & _ & _ & _ & _ & H). intros u u' Hu Hu'. rewrite Hu, Hu' in H. intros tau phi anti re rt. apply H.
  unfold same_bearing. induction phi as [|f phi IH]; cbn [map]; constructor; [|exact IH]. rewrite <- (cos_turns (f - p_phi0 p) k). f_equal. unfold x. ring.
Qed.
Lemma turned_same p : turned p (p_phi0 p) = p.
Proof. destruct p. reflexivity. Qed.
Theorem call_bearing p lg la jk out u : pydisort p lg la jk = Ok out -> po_u out = Some u ->
  forall tau phi psi anti re rt, Forall2 (fun f g => exists k : Z, g = f + 2 * PI * IZR k \/ g = 2 * p_phi0 p - f + 2 * PI * IZR k) phi psi ->
  same_ret (u tau phi anti re rt) (u tau psi anti re rt).
Proof.
  intros Hok Hu tau phi psi anti re rt HB. pose proof (call_turned p (p_phi0 p) lg la jk) as H. rewrite turned_same, Hok in H.
  assert (Hp : 0 < p_I0 p -> 0 <= p_phi0 p < 2 * PI).
  { intros Hb. pose proof Hok as Hv. unfold pydisort in Hv. apply bind_Ok in Hv as (t & Hv & _). destruct t.
    apply P_Valid.validate_iff in Hv. apply (Spec_Valid.v_phi0 _ Hv). exact Hb. }
  specialize (H (fun h => conj (Hp h) (Hp h))). destruct H as (_ & _ & _ & _ & _ & H). rewrite Hu in H. apply H.
  unfold same_bearing. induction HB as [|f g phi psi (k & [E|E]) _ IH]; constructor; auto; subst g.
  - rewrite <- (cos_turns (f - p_phi0 p) k). f_equal. ring.
  - rewrite (cos_swap f), <- (cos_turns (p_phi0 p - f) k). f_equal. ring.
Qed.
