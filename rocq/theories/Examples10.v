(** Sorting the returned directions changes the intensity. Models no function of /repo. *)
From Coq Require Import String Reals Lra Lia List Bool Arith ZArith.
From Verif Require Import Base Tensor Spec M_LinAlg Spec_RTE Calc M_Subroutines M_GenPart M_MathscrV M_Coeffs M_Assemble M_Pydisort M_History
  Spec_Sol P_Sub P_Tensor P_Assemble P_Solve P_Sub3 P_Valid Spec_Valid P_Pydisort P_Pydisort2 P_Pydisort3 P_Pydisort8 P_Error Spec_NT P_NT3 Spec_History P_History
  P_Special Spec_Phys Spec_Solved P_Spec6 P_Spec7 Examples Examples2 Examples3 Examples5 Examples6.
Import ListNotations.
Local Open Scope R_scope.

Lemma an_mu : mu_arr p_an lg_12 = [1/2; -1/2].
Proof. exact (proj1 (dg_one _ _ (mu_arr_gauss p_an lg_12 lg_12_ok1))). Qed.
Lemma an_nt : nt_applies p_an.
Proof.
  repeat split.
  - cbn; lra.
  - exists (1/4). split; [left; reflexivity|lra].
  - cbn. lia.
  - exists (4/5). split; [left; reflexivity|lra].
Qed.
Lemma an_finite : nt_finite p_an [1/2; -1/2].
Proof.
  split; [exact an_nt|]. split.
  - exists 0%nat. split; [cbn; lia|]. unfold fwd, albedo. cbn. lra.
  - intros i Hi. change (half p_an) with 1%nat in Hi. replace i with 0%nat by lia. unfold mu0_s, wavg, favg, fwd, albedo, bot_of. cbn. lra.
Qed.
Definition sort_mu : list event := [Write AMu [0%nat] (-1/2); Write AMu [1%nat] (1/2)].
Definition look : call := CU [0] [PI/2] false false false.

(** The lost source in the first direction and the same with the sorted directions. *)
Lemma bcast2_like f A B B' C : shp B = shp B' -> bcast2 f A B = Ok C -> exists C', bcast2 f A B' = Ok C' /\ shp C' = shp C.
Proof. intros E. unfold bcast2. rewrite E. destruct (bshape _ _); [|discriminate]. intros H. injection H as <-. eexists. split; reflexivity. Qed.

Lemma an_thick l : (l < 2)%nat -> 0 < scaled_thickness p_an l.
Proof. intros Hl. destruct l as [|[|l]]; [| |lia]; unfold scaled_thickness, omega_at, f_at, thickness, tau_top, tau_at; cbn; lra. Qed.
Lemma an_factor : 0 < live_own p_an lg_12 [1; 3] false 0 0 0 + live_other p_an lg_12 [1; 3] false [0%nat] 0 0 0.
Proof.
  assert (Hd : delta_M p_an = true) by (unfold delta_M; cbn -[Rltb]; rewrite (proj2 (Rltb_iff 0 (1/4))) by lra; reflexivity).
  assert (Hmu : quad_mu p_an lg_12 0 = 1/2). { pose proof an_mu as E. unfold mu_arr in E. change (pN p_an) with 1%nat in E. cbn in E. injection E. auto. }
  assert (Es : live_stau p_an [1; 3] 0 0 = 0).
  { unfold live_stau, scaled_tau0, scale_tau, scaled_thickness, thickness, tau_top, tau_at. rewrite Hd. unfold omega_at, f_at. cbn. lra. }
  unfold live_own, live_other. rewrite Es. change (pN p_an) with 1%nat. change (pNL p_an) with 2%nat. cbn [Nat.ltb Nat.leb existsb orb Nat.sub]. rewrite Hmu. change (p_mu0 p_an) with (1/5).
  set (b := scaled_tau0 p_an 1). assert (Hb : b = 4/5). { unfold b, scaled_tau0, scaled_thickness, thickness, tau_top, tau_at. rewrite Hd. unfold omega_at, f_at. cbn. lra. }
  rewrite Hb. apply Rplus_lt_le_0_compat.
  - replace (- 0 / (1/5)) with 0 by lra. rewrite exp_0. assert (exp ((0 - 4/5) / (1/2) - 4/5 / (1/5)) < exp 0) by (apply exp_increasing; lra). rewrite exp_0 in H. lra.
  - apply Rmult_le_pos; [|left; apply exp_pos]. unfold R_pos. change (pNL p_an) with 2%nat. cbn [Nat.ltb Nat.leb Nat.sub rsum Nat.add].
    assert (HD : forall k, 0 < decay_prod p_an lg_12 0 k) by (intros [|k]; unfold decay_prod; [lra|apply exp_pos]).
    apply Rmult_le_pos; [|left; apply Rinv_0_lt_compat, HD]. rewrite Rplus_0_l. apply Rmult_le_pos; [|left; apply HD].
    unfold layer_term_pos. apply Rmult_le_pos; [|unfold exp_taufront; left; apply exp_pos]. rewrite Hmu. change (p_mu0 p_an) with (1/5).
    pose proof (an_thick 1 ltac:(lia)) as HT. assert (exp (- (scaled_thickness p_an 1 * (1 / (1/2) + 1 / (1/5)))) < exp 0).
    { apply exp_increasing. assert (0 < scaled_thickness p_an 1 * (1 / (1/2) + 1 / (1/5))) by (apply Rmult_lt_0_compat; lra). lra. }
    rewrite exp_0 in H. lra.
Qed.

Lemma an_B (a : as_in) (nu nu' : tensor) : 0 < a_I0_div_4pi a -> elt nu [0%nat; 0%nat] = -1/10 -> elt nu' [0%nat; 0%nat] = 1/10 ->
  live_B p_an a [1/4; 0] [1/2; -1/2] nu 0 0 0 <> live_B p_an a [1/4; 0] [-1/2; 1/2] nu' 0 0 0.
Proof.
  intros HI En En'. unfold live_B. rewrite En, En'. change (p_mu0 p_an) with (1/5). change (NLeg_all p_an) with 3%nat. change (pNLeg p_an) with 2%nat. cbn [nth].
  assert (Hd : delta_M p_an = true) by (unfold delta_M; cbn -[Rltb]; rewrite (proj2 (Rltb_iff 0 (1/4))) by lra; reflexivity).
  assert (Hw : 0 < scaled_omega p_an 0). { unfold scaled_omega, scale_tau. rewrite Hd. unfold omega_at, f_at. cbn. lra. }
  assert (HL : forall k, Leg_all p_an 0%nat k = match k with 0%nat => 1 | 1%nat => 2/5 | _ => 1/10 end).
  { intros k. unfold Leg_all. assert (E : leg0_bad p_an = false). { unfold leg0_bad. cbn -[Reqb Rmult]. unfold omega_at. cbn -[Reqb Rmult]. rewrite !Rmult_1_r, !Reqb_refl. reflexivity. } rewrite E. reflexivity. }
  unfold legendre_series. cbn [rsum]. unfold weighted_Leg_all, weighted_scaled_Leg, scaled_Leg. rewrite Hd, !HL. unfold f_at. cbn [nth p_f p_an].
  cbn [legendre INR]. intros E.
  assert (E2 : scaled_omega p_an 0 * a_I0_div_4pi a * (-9/350) = scaled_omega p_an 0 * a_I0_div_4pi a * (-11/150)).
  { rewrite !(Rmult_assoc (_ * _)) in E. revert E. match goal with |- ?k * ?x = ?k * ?y -> _ => replace x with (-9/350); [replace y with (-11/150); [auto|]|] end; cbn; lra. }
  assert (0 < scaled_omega p_an 0 * a_I0_div_4pi a) by (apply Rmult_lt_0_compat; auto). nra.
Qed.

Definition nu_of (x y : R) : tensor := atleast_2d_append (calculate_nu [x; y] [PI/2] [- (1/5)] [0]).
Lemma nu_first x y : elt (nu_of x y) [0%nat; 0%nat] = - (1/5) * x.
Proof.
  unfold nu_of, atleast_2d_append, calculate_nu, calculate_nu_4d, tsqueeze. cbn -[cos sqrt Rmult Rplus Ropp Rminus Rdiv PI pow].
  replace (0 - PI / 2) with (- (PI / 2)) by ring. rewrite cos_neg, cos_PI2. ring.
Qed.
Lemma an_TMS a x y : Rabs x <= 1 -> Rabs y <= 1 -> 1/5 + x <> 0 -> 1/5 + y <> 0 ->
  exists T, live_TMS p_an lg_12 a [1; 3] [1/4; 0] [x; y] [0] [PI/2] false [0%nat] = Ok T /\ shp T = [2; 1; 1]%nat /\
    elt T [0; 0; 0]%nat = live_B p_an a [1/4; 0] [x; y] (nu_of x y) 0 0 0 * (live_own p_an lg_12 [1; 3] false 0 0 0 + live_other p_an lg_12 [1; 3] false [0%nat] 0 0 0).
Proof.
  intros Hx Hy Ex Ey. unfold live_TMS. change (p_mu0 p_an) with (1/5). change (p_phi0 p_an) with 0. fold (nu_of x y).
  assert (G : (existsb (fun l => Reqb (1 - nth l [1/4; 0] 0) 0) [0%nat] || existsb (fun z => Rltb 1 (Rabs z) || Reqb (1/5 + z) 0) [x; y])%bool = false).
  { cbn [existsb nth]. rewrite !orb_false_r. apply not_true_is_false. rewrite !orb_true_iff, !Rltb_iff, !Reqb_iff. intuition lra. }
  rewrite G. assert (S : shp (nu_of x y) = [2; 1]%nat) by reflexivity. rewrite S. change (2 * pN p_an)%nat with 2%nat. cbn [Nat.eqb]. eexists. split; [reflexivity|]. split; reflexivity.
Qed.

Theorem an_sorted jk given : exists out A A', pydisort p_an lg_12 la_full jk = Ok out /\ answer out look = Ok (PVal (PT A)) /\
  session p_an lg_12 la_full jk given (sort_mu ++ [Call look]) = Ok [Ok (PVal (PT A'))] /\ elt A [0%nat] <> elt A' [0%nat].
Proof.
  destruct (posed_ok p_an _ lg_12 la_full jk an_input an_free lg_12_ok1 la_full_ok la_full_complete la_full_total) as (out & Hok).
  exists out.
  assert (HNT : NT_active p_an = true) by (apply NT_iff; exact an_nt).
  pose proof an_valid as V.
  assert (HS : exists ss r sv, scaled_s p_an = Ok ss /\ rescale p_an ss = Ok r /\ solve_all (assemble_args p_an lg_12 r ss) la_full jk = Ok sv /\
     session p_an lg_12 la_full jk given (sort_mu ++ [Call look]) = Ok (run p_an lg_12 given (assemble_args p_an lg_12 r ss) sv (start p_an lg_12) (sort_mu ++ [Call look])) /\
     po_u out = Some (u_corrected p_an lg_12 (assemble_args p_an lg_12 r ss) (cl_u (assemble_args p_an lg_12 r ss) sv)) /\ po_mu out = mu_arr p_an lg_12).
  { pose proof Hok as H. unfold pydisort in H. unfold session.
    apply bind_Ok in H as (? & E1 & H). rewrite E1. cbn [bind]. apply bind_Ok in H as (? & E2 & H). rewrite E2. cbn [bind].
    apply bind_Ok in H as (ss & E3 & H). rewrite E3. cbn [bind]. apply bind_Ok in H as (r & E4 & H). rewrite E4. cbn [bind].
    apply bind_Ok in H as (sv & E5 & H). rewrite E5. cbn [bind]. rewrite HNT in H. injection H as <-. exists ss, r, sv. repeat split; auto. }
  destruct HS as (ss & r & sv & Hss & Hr & Hsv & Hses & Hu & Hmu).
  destruct (nt_solution p_an lg_12 la_full jk out la_full_ok lg_12_ok1 Hok _ Hu) as (w & U & G & W & _ & _ & _ & _ & _ & _ & _ & _ & _ & _ & HA).
  { rewrite Hmu, an_mu. exact an_finite. }
  destruct (HA [0] [PI/2]) as (A & EA & _).
  { split; [discriminate|]. split; [intros t [<-|[]]; unfold bottom; cbn; lra|]. split; [|right; reflexivity].
    intros t [<-|[]]. unfold lay. cbn -[Rltb]. rewrite !Rltb_f by lra. unfold fwd. cbn. lra. }
  assert (EAns : answer out look = Ok (PVal (PT A))) by (cbn [answer look]; rewrite Hu; exact EA).
  exists A. set (a := assemble_args p_an lg_12 r ss) in *.
  rewrite <- (live_corrected_same p_an lg_12 la_full jk out lg_12_ok1 Hok a (cl_u a sv) [0] [PI/2] false false false HNT) in EA.
  pose proof (a_good p_an V lg_12 lg_12_ok1 ss r) as Ha. fold a in Ha.
  destruct (um_all_val a sv (g_NL a Ha) (g_len a Ha) (HKne p_an V lg_12 lg_12_ok1 ss r la_full la_full_ok jk sv Hsv) [0]) as (C & HC & SC & _).
  { intros t [<-|[]]. unfold tau_bot. cbn. lra. }
  { exact (g_NF a Ha). }
  assert (HI : has_iso p_an = true). { apply has_iso_iff. exists 0%nat, 1%nat. cbn. repeat split; try lia. lra. }
  assert (HL : layers a [0] = [0%nat]). { unfold layers, layer_of. cbn -[Rleb]. rewrite (proj2 (Rleb_iff 0 1)) by lra. reflexivity. }
  set (us := tscal (a_rescale a) (tsqueeze (u_full a C [PI/2]))).
  assert (Hus : exists rest, cl_u a sv [0] [PI/2] false false false true = Ok (PTup (PT us :: PI_ [0%nat] :: rest)) /\ length rest = 2%nat).
  { unfold cl_u, tau_check. assert (ER : in_range a [0] = true) by (apply in_range_iff; intros t [<-|[]]; unfold tau_bot; cbn; lra). rewrite ER. cbn [check bind]. rewrite HC. cbn [bind app orb ret].
    assert (EI : a_iso a = true) by exact HI. rewrite EI, HL. eexists. split; reflexivity. }
  destruct Hus as (rest & Eus & Lrest).
  assert (Hsh : shp us = [2%nat]). { unfold us, u_full. cbn [tscal tmap shp tsqueeze]. rewrite SC. reflexivity. }
  assert (HU : forall muL, live_corrected p_an lg_12 a [1; 3] [1/4; 0] muL (cl_u a sv) [0] [PI/2] false false false =
    bind (live_NT p_an lg_12 a [1; 3] [1/4; 0] muL [0] [PI/2] false [0%nat]) (fun c => bind (tadd us (tscal (a_rescale a) (tsqueeze c))) (fun v => Ok (PVal (PT v))))).
  { intros muL. unfold live_corrected. rewrite Eus. cbn [bind length]. rewrite HI, Lrest. cbn [Nat.sub nth firstn orb ret hd]. reflexivity. }
  change (p_tau p_an) with [1; 3] in EA. change (p_f p_an) with [1/4; 0] in EA. rewrite an_mu in EA. rewrite HU in EA.
  destruct (an_TMS a (1/2) (-1/2)) as (T & ET & ST & VT); try (unfold Rabs; destruct Rcase_abs; lra); try lra.
  destruct (an_TMS a (-1/2) (1/2)) as (T' & ET' & ST' & VT'); try (unfold Rabs; destruct Rcase_abs; lra); try lra.
  unfold live_NT in EA. rewrite ET in EA. cbn [bind] in EA. apply bind_Ok in EA as (c & Ec & EA). apply bind_Ok in Ec as (Vi & EV & Ec).
  change (p_autograd p_an) with false in Ec. cbv iota in Ec. apply bind_Ok in Ec as (s & Es & Ec). injection Ec as <-.
  unfold iop in Es. apply bind_Ok in Es as (s0 & Es0 & Es). 
  assert (Es0' : exists s1, bcast2 Rplus (tslice 0 (pN p_an) (pN p_an) T') Vi = Ok s1 /\ shp s1 = shp s0).
  { revert Es0. unfold bcast2. cbn [tslice shp]. rewrite ST, ST'. destruct (bshape _ _); [|discriminate]. intros H. injection H as <-. eexists. split; reflexivity. }
  destruct Es0' as (s1 & Es1 & Ss1).
  assert (Es' : iop Rplus (tslice 0 (pN p_an) (pN p_an) T') Vi = Ok s1).
  { unfold iop. rewrite Es1. cbn [bind]. rewrite Ss1. cbn [tslice shp] in *. rewrite ST in Es. rewrite ST'. destruct (list_eqb (shp s0) _); [reflexivity|discriminate]. }
  apply bind_Ok in EA as (v & Ev & EA). injection EA as <-.
  rewrite Hses. cbn [sort_mu app run].
  set (st2 := write _ AMu [1%nat] (1/2)).
  assert (Et : read1 st2 (ref_tau given) (length (p_tau p_an)) = p_tau p_an).
  { apply read1_nth. intros i. rewrite <- (start_tau p_an lg_12 given i). unfold st2, ref_tau, write. destruct (given ATau); reflexivity. }
  assert (Ef : read1 st2 (ref_f given) (length (p_f p_an)) = p_f p_an).
  { apply read1_nth. intros i. rewrite <- (start_f p_an lg_12 given i). unfold st2, ref_f, write. destruct (given AF); reflexivity. }
  assert (Em : read1 st2 AMu (length (mu_arr p_an lg_12)) = [-1/2; 1/2]) by (rewrite an_mu; reflexivity).
  unfold do_call, look. rewrite Et, Ef, Em. rewrite (with_tau_same a (p_tau p_an) eq_refl). change (p_only_flux p_an) with false. cbv iota. rewrite HNT.
  change (p_tau p_an) with [1; 3]. change (p_f p_an) with [1/4; 0]. rewrite HU. unfold live_NT. rewrite ET'. cbn [bind]. rewrite EV. cbn [bind]. change (p_autograd p_an) with false. cbv iota. rewrite Es'. cbn [bind].
  assert (Hd : forall Q, shp Q = [2; 1; 1]%nat -> exists v, tadd us (tscal (a_rescale a) (tsqueeze Q)) = Ok v /\ elt v [0%nat] = elt us [0%nat] + a_rescale a * elt Q [0; 0; 0]%nat).
  { intros Q SQ. unfold tadd. assert (S2 : shp (tscal (a_rescale a) (tsqueeze Q)) = [2%nat]) by (cbn [tscal tmap shp tsqueeze]; rewrite SQ; reflexivity).
    destruct (bcast2_1 Rplus us (tscal (a_rescale a) (tsqueeze Q)) 2 2 2 Hsh S2 (bc_same 2)) as (v0 & Hv0 & _ & Ev0). exists v0. split; [exact Hv0|]. rewrite Ev0 by lia. cbn [tscal tmap elt tsqueeze]. rewrite SQ. reflexivity. }
  match goal with |- context [tadd us (tscal _ (tsqueeze ?Q))] => destruct (Hd Q ST') as (v' & Ev' & Vv') end. rewrite Ev'. cbn [bind].
  exists v'. split; [exact Hok|]. split; [exact EAns|]. split; [reflexivity|].
  match type of Ev with tadd us (tscal _ (tsqueeze ?Q)) = _ => destruct (Hd Q ST) as (v2 & Ev2 & Vv2) end. rewrite Ev in Ev2. injection Ev2 as <-.
  rewrite Vv2, Vv'. cbn [elt]. change (Nat.ltb 0 (pN p_an)) with true. cbv iota. rewrite VT, VT'.
  intros E. pose proof an_factor as HF. set (F := live_own p_an lg_12 [1; 3] false 0 0 0 + live_other p_an lg_12 [1; 3] false [0%nat] 0 0 0) in *.
  assert (Hr1 : 1 <= r). { pose proof (rescale_ge p_an ss r Hr) as H. exact H. }
  apply (an_B a (nu_of (1/2) (-1/2)) (nu_of (-1/2) (1/2))).
  - cbn [a assemble_args a_I0_div_4pi]. change (p_I0 p_an) with 1. unfold divisor. rewrite Reqb_f by lra. pose proof PI_RGT_0. apply Rmult_lt_0_compat; [|apply Rinv_0_lt_compat; lra]. apply Rmult_lt_0_compat; [lra|]. apply Rinv_0_lt_compat. lra.
  - rewrite nu_first. lra.
  - rewrite nu_first. lra.
  - change (a_rescale a) with r in E. apply (Rmult_eq_reg_r (r * F)); [|apply Rgt_not_eq, Rmult_lt_0_compat; lra]. apply Rplus_eq_reg_l in E. rewrite (Rmult_comm r F), <- !Rmult_assoc, (Rmult_comm _ r), (Rmult_comm _ r). exact E.
Qed.
