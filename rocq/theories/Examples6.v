(** An anisotropic atmosphere that is solved, and one whose beam resonates. Models no function of /repo. *)
From Coq Require Import String Reals Lra Lia List Bool Arith ZArith.
From Coquelicot Require Import Coquelicot.
From Verif Require Import Base Tensor Spec M_LinAlg Spec_RTE Calc M_Subroutines M_Assemble M_Pydisort P_Sub3 P_Special Spec_Sol Spec_Valid P_Valid P_Pydisort P_Pydisort2 P_Unique2 P_Max4
  Spec_Calls Spec_Phys Spec_Solved P_Pydisort6 P_Pydisort8 P_Spec6 P_Spec7 Examples Examples2 Examples3.
Import ListNotations.
Local Open Scope R_scope.

Lemma dg_one mu w : double_gauss 1 mu w -> mu = [1/2; -1/2] /\ w 0%nat = 1.
Proof.
  intros HD. assert (Ew : w 0%nat = 1).
  { assert (E : rsum 1 (fun i => w i * peval [1] (nth i mu 0)) = 1).
    { rewrite (dg_rule 1 mu w [1] HD) by (cbn; lia). apply is_RInt_unique. assert (EI : is_RInt (peval [1]) 0 1 (minus 1 0)).
      { apply (is_RInt_derive (fun x => x)); intros x _; [auto_derive; [auto|]; cbn; ring|]. apply (ex_derive_continuous (peval [1])). cbn. auto_derive. auto. }
      replace (minus 1 0) with 1 in EI by (unfold minus, plus, opp; cbn; ring). exact EI. }
    cbn in E. lra. }
  pose proof (dg_first 1 mu w ltac:(lia) HD) as E. cbn in E. rewrite Ew in E. destruct HD as (HL & HM & _). destruct (HM 0%nat ltac:(lia)) as (_ & E2 & _).
  destruct mu as [|a [|b [|? ?]]]; cbn in *; try lia. split; [|exact Ew]. f_equal; [|f_equal]; lra.
Qed.

(** Two layers that scatter forward, over a reflecting surface, lit by a beam and a diffuse
    source from above, with thermal emission and the Nakajima-Tanaka corrections. *)
Definition p_an : py_in := {|
  p_tau := [1; 3]; p_omega := [4/5; 9/10]; p_NQuad := 2;
  p_Leg := mkA2 2 3 (fun l k => match k with 0%nat => 1 | 1%nat => (match l with 0%nat => 2/5 | _ => 1/4 end) | _ => 1/10 end);
  p_mu0 := 1/5; p_I0 := 1; p_phi0 := 0; p_NLeg := None; p_NFourier := None;
  p_bpos := t0 0; p_bneg := t0 1; p_only_flux := false; p_f := [1/4; 0]; p_NT := true;
  p_BDRF := [MScal (1/2)]; p_s := mkA2 2 2 (fun l j => INR l + INR j); p_banded := 10; p_autograd := false |}.

Lemma an_valid : valid p_an.
Proof.
  constructor; cbn -[Rlt Rle PI INR].
  - lia.
  - intros [|[|l]] Hl; cbn; try lra; lia.
  - intros [|[|l]] Hl; cbn; try lra; lia.
  - intros w [<-|[<-|[]]]; lra.
  - lia.
  - reflexivity.
  - reflexivity.
  - reflexivity.
  - reflexivity.
  - intros [|l] [|[|k]] Hl Hk; try lia; lra.
  - lia.
  - reflexivity.
  - lia.
  - lia.
  - lra.
  - intros _. lra.
  - intros _. pose proof PI_RGT_0. lra.
  - left. intros. reflexivity.
  - right; left; reflexivity.
  - intros f [<-|[<-|[]]]; lra.
  - lia.
Qed.

Lemma an_ab l : (l < 2)%nat -> 0 <= albedo_s p_an l <= 9/10 /\ 0 <= phase_s p_an l 1 <= 1/4 /\ phase_s p_an l 0 = 1.
Proof.
  intros Hl. destruct l as [|[|l]]; [| |lia]; unfold albedo_s, phase_s, scl, albedo, fwd, phase; cbn -[Rle Rlt].
  - split; [|split; [|field]]; lra.
  - split; [|split; [|field]]; lra.
Qed.

Lemma poch_11 : poch_term 1 1 = 1/2.
Proof. unfold poch_term. cbn. lra. Qed.
Lemma lpmv_01 x : lpmv 0 1 x = x.
Proof. unfold lpmv. cbn. field. Qed.
Lemma lpmv_11 x : lpmv 1 1 x = - sqrt (1 - x ^ 2).
Proof. unfold lpmv. cbn. field. Qed.

Lemma an_phase l x y phi : (l < 2)%nat -> x ^ 2 = 1/4 -> y ^ 2 = 1/4 -> 0 <= phase_fn p_an l x y phi.
Proof.
  intros Hl Hx Hy. destruct (an_ab l Hl) as (_ & (H1 & H2) & H0). unfold phase_fn. change (ncoeffs p_an) with 2%nat. cbn [rsum Nat.eqb].
  unfold phase_mode. change (ncoeffs p_an) with 2%nat. cbn [rsum Nat.leb]. unfold wphase_s. rewrite H0, poch_11, lpmv_11, lpmv_11, !lpmv_01, !lpmv_00. unfold poch_term. cbn [Nat.sub Nat.add fact INR Nat.mul].
  rewrite Hx, Hy. assert (Es : sqrt (1 - 1/4) * sqrt (1 - 1/4) = 3/4) by (rewrite sqrt_sqrt by lra; lra).
  set (s := sqrt (1 - 1/4)) in *. set (g := phase_s p_an l 1) in *. rewrite Rmult_0_l, cos_0.
  pose proof (COS_bound phi) as (C1 & C2). assert (Hxy : -1/4 <= x * y <= 1/4) by (split; nra).
  replace (1 * phi) with phi by ring. match goal with |- 0 <= ?e => replace e with (1 + 3 * g * (x * y + (s * s) * cos phi)) by field end. rewrite Es. nra.
Qed.

Lemma an_physical mu w : double_gauss (half p_an) mu w -> physical p_an mu w (fun _ _ _ => 1/2).
Proof.
  intros HD. change (half p_an) with 1%nat in HD. destruct (dg_one mu w HD) as (-> & Ew).
  assert (HN : forall i, (i < 2)%nat -> nth i [1/2; -1/2] 0 ^ 2 = 1/4) by (intros [|[|i]] Hi; try lia; cbn; field).
  constructor.
  - intros l i j phi Hl _ Hi Hj. apply an_phase; [exact Hl|apply HN; exact Hi|apply HN; exact Hj].
  - intros i j phi Hi Hj. unfold surface_fn. cbn [length p_BDRF p_an rsum INR]. rewrite Rmult_0_l, cos_0. lra.
  - intros [|i] Hi; [|change (half p_an) with 1%nat in Hi; lia]. unfold reflectance. change (half p_an) with 1%nat. cbn. rewrite Ew. lra.
Qed.

Lemma an_input : physical_input p_an (fun _ _ _ => 1/2).
Proof.
  constructor.
  - exact an_valid.
  - exists (fun _ => 0). apply bc_zero; auto.
  - exists (fun _ => 1). apply bc_scal; auto.
  - intros [|m] Hm; [|cbn in Hm; lia]. left. exists (1/2). auto.
  - intros _. right. reflexivity.
  - intros _. left. cbn. lra.
  - intros _ mu w [|i] HD Hi; [|change (half p_an) with 1%nat in Hi; lia]. change (half p_an) with 1%nat in HD. destruct (dg_one mu w HD) as (-> & _). cbn. rewrite Rabs_right; lra.
  - exact an_physical.
Qed.

Lemma an_far mu w l i : double_gauss (half p_an) mu w -> (l < nlayers p_an)%nat -> (i < half p_an)%nat -> albedo_s p_an l < Rabs (1 - nth i mu 0 / p_mu0 p_an).
Proof.
  intros HD Hl Hi. change (half p_an) with 1%nat in *. destruct (dg_one mu w HD) as (-> & _). destruct i as [|i]; [|lia]. destruct (an_ab l Hl) as ((_ & H) & _).
  cbn [nth p_mu0 p_an]. rewrite Rabs_left; lra.
Qed.
Lemma an_free : no_resonance p_an.
Proof.
  intros _ mu w m l HD Hm Hl. apply (far_free p_an mu w (fun _ _ _ => 1/2) l an_valid HD (an_physical mu w HD)); [cbn; lra|exact Hl|].
  intros i Hi. exact (an_far mu w l i HD Hl Hi).
Qed.

(** One isotropic layer with (scaled) single-scattering albedo 3/4 under an overhead beam: the
    free solutions of its azimuthal mean decay like exp(-tau), like the beam itself. *)
Definition p_res : py_in := p_ex 1 1 0 1 0 (1/2) false false false.

Lemma res_valid : valid p_res.
Proof.
  constructor; cbn -[Rlt Rle PI].
  - lia.
  - intros [|l] Hl; cbn; [lra|lia].
  - intros [|l] Hl; cbn; [lra|lia].
  - intros w [<-|[]]. lra.
  - lia.
  - reflexivity.
  - reflexivity.
  - reflexivity.
  - reflexivity.
  - intros l [|[|k]] Hl Hk; try lia; lra.
  - lia.
  - reflexivity.
  - lia.
  - lia.
  - lra.
  - intros _. lra.
  - intros _. pose proof PI_RGT_0. lra.
  - right; left; reflexivity.
  - right; left; reflexivity.
  - intros f [<-|[]]. lra.
  - lia.
Qed.
Lemma res_ab : albedo_s p_res 0 = 3/4 /\ phase_s p_res 0 1 = 0 /\ phase_s p_res 0 0 = 1.
Proof. unfold albedo_s, phase_s, scl, albedo, fwd, phase; cbn -[Rle Rlt]. split; [|split]; field. Qed.

Lemma res_physical mu w : double_gauss (half p_res) mu w -> physical p_res mu w (fun _ _ _ => 1/2).
Proof.
  intros HD. change (half p_res) with 1%nat in HD. destruct (dg_one mu w HD) as (-> & Ew). destruct res_ab as (_ & H1 & H0).
  constructor.
  - intros l i j phi Hl _ Hi Hj. change (nlayers p_res) with 1%nat in Hl. destruct l as [|l]; [|lia]. unfold phase_fn. change (ncoeffs p_res) with 2%nat. cbn [rsum Nat.eqb].
    unfold phase_mode. change (ncoeffs p_res) with 2%nat. cbn [rsum Nat.leb]. unfold wphase_s. rewrite H0, H1, !lpmv_00. unfold poch_term. cbn [Nat.sub Nat.add fact INR Nat.mul].
    rewrite Rmult_0_l, cos_0. lra.
  - intros i j phi Hi Hj. unfold surface_fn. cbn [length p_BDRF p_res p_ex rsum INR]. rewrite Rmult_0_l, cos_0. lra.
  - intros [|i] Hi; [|change (half p_res) with 1%nat in Hi; lia]. unfold reflectance. change (half p_res) with 1%nat. cbn. rewrite Ew. lra.
Qed.
Lemma res_input : physical_input p_res (fun _ _ _ => 1/2).
Proof.
  constructor.
  - exact res_valid.
  - exists (fun _ => 0). apply bc_zero; auto.
  - exists (fun _ => 1). apply bc_scal; auto.
  - intros [|m] Hm; [|cbn in Hm; lia]. left. exists (1/2). auto.
  - intros _. right. reflexivity.
  - intros _. left. cbn. lra.
  - intros H. discriminate.
  - exact res_physical.
Qed.
Lemma res_resonant mu w : double_gauss (half p_res) mu w -> resonant p_res mu w 0 0.
Proof.
  intros HD. change (half p_res) with 1%nat in HD. destruct (dg_one mu w HD) as (-> & Ew). destruct res_ab as (Ha & H1 & H0). unfold resonant. rewrite Ha. split.
  - intros Hn. specialize (Hn 0%nat ltac:(change (ncoeffs p_res) with 2%nat; lia)). unfold wphase_s in Hn. rewrite H0 in Hn. cbn in Hn. rewrite Rabs_right in Hn; lra.
  - exists (fun i => match i with 0%nat => 1 | _ => 3 end). split; [exists 0%nat; split; [change (streams p_res) with 2%nat; lia|lra]|].
    change (streams p_res) with 2%nat. change (half p_res) with 1%nat. intros i Hi. unfold D_spec. change (ncoeffs p_res) with 2%nat. cbn [rsum Nat.leb]. unfold wphase_s. rewrite H0, H1, !lpmv_00.
    unfold wnode, poch_term. cbn [Nat.ltb Nat.leb Nat.sub Nat.add fact INR Nat.mul]. rewrite Ew. destruct i as [|[|i]]; [| |lia]; cbn [nth p_mu0 p_res p_ex]; field.
Qed.
Lemma res_not_free : ~ no_resonance p_res.
Proof.
  intros H. assert (HD : double_gauss (half p_res) [1/2; -1/2] (fun _ => 1)).
  { assert (HG : double_gauss (half p_res) (mu_arr p_res lg_12) (quad_W p_res lg_12)) by (apply mu_arr_gauss; exact lg_12_ok1).
    destruct (dg_one _ _ HG) as (E & Ew). rewrite E in HG. destruct HG as (A & B & C & D). split; [exact A|]. split; [intros [|i] Hi; [change (half p_res) with 1%nat; cbn; lra|change (half p_res) with 1%nat in Hi; lia]|]. split; [exact C|].
    change (half p_res) with 1%nat in *. cbn [map seq] in *. rewrite Ew in D. exact D. }
  apply (H ltac:(cbn; lra) _ _ 0%nat 0%nat HD ltac:(change (nmodes p_res) with 2%nat; lia) ltac:(change (nlayers p_res) with 1%nat; lia)). exact (res_resonant _ _ HD).
Qed.

Theorem res_unsolved lg la jk out : leggauss_ok (half p_res) (lg (half p_res)) -> linalg_ok la -> linalg_unique la -> pydisort p_res lg la jk <> Ok out.
Proof.
  intros Hlg Hla Hlu H. destruct (modes_exist p_res lg la jk out Hla Hlg H) as (U & HU). destruct (call_fluxes p_res lg la jk out Hla Hlg H U HU) as (w & Hw & _).
  apply (call_no_resonance p_res lg la jk out Hla Hlu Hlg H ltac:(cbn; lra) w 0%nat 0%nat Hw ltac:(change (nmodes p_res) with 2%nat; lia) ltac:(change (nlayers p_res) with 1%nat; lia)).
  exact (res_resonant _ _ Hw).
Qed.

(** [p_an] without its beam. *)
Definition p_dif : py_in := {|
  p_tau := [1; 3]; p_omega := [4/5; 9/10]; p_NQuad := 2; p_Leg := p_Leg p_an;
  p_mu0 := 0; p_I0 := 0; p_phi0 := 0; p_NLeg := None; p_NFourier := None;
  p_bpos := t0 0; p_bneg := t0 1; p_only_flux := false; p_f := [1/4; 0]; p_NT := false;
  p_BDRF := [MScal (1/2)]; p_s := p_s p_an; p_banded := 10; p_autograd := false |}.
Lemma dif_input : physical_input p_dif (fun _ _ _ => 1/2).
Proof.
  pose proof an_input as [V B1 B2 B3 B4 B5 _ B7]. constructor; auto.
  - pose proof V as [W1 W2 W3 W4 W5 W6 W7 W8 W9 W10 W11 W12 W13 W14 W15 W16 W17 W18 W19 W20 W21].
    constructor; try assumption; cbn; try lra.
  - intros _. right; right. exists []. split; [reflexivity|cbn; lra].
  - intros H. discriminate.
  - intros mu w HD. destruct (B7 mu w HD) as [C1 C2 C3]. constructor; auto.
Qed.
