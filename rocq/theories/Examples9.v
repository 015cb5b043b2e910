(** Atmospheres with any number of streams. Models no function of /repo. *)
From Coq Require Import String Reals Lra Lia List Bool Arith ZArith Classical.
From Coquelicot Require Import Coquelicot.
From Verif Require Import Base Tensor Spec M_LinAlg Spec_RTE Calc M_Subroutines M_Assemble M_Pydisort P_Sub3 P_Special Spec_Sol Spec_Valid P_Valid P_Pydisort P_Pydisort2 P_Pydisort6 P_Pydisort8 P_Unique2 P_Max3 P_Max4
  Spec_Calls Spec_Phys Spec_Solved Spec_Mono Spec_Unique Spec_Sun P_Spec6 P_Spec7 Spec_Full P_Addition P_Full P_Full2 P_Full3 P_Gauss P_Sun Examples Examples2 Examples3 Examples5 Examples6.
Import ListNotations.
Local Open Scope R_scope.

(** Two layers that scatter forward between two diffuse boundary sources, over a surface of albedo 1/2,
    with a beam of strength [I0] at the cosine [x]; [2 * n] streams. *)
Definition p_ns (n : nat) (I0 x : R) : py_in := {|
  p_tau := [1; 3]; p_omega := [1/2; 9/10]; p_NQuad := Z.of_nat (2 * n);
  p_Leg := mkA2 2 2 (fun l k => match k with 0%nat => 1 | _ => match l with 0%nat => 1/5 | _ => 1/4 end end);
  p_mu0 := x; p_I0 := I0; p_phi0 := 0; p_NLeg := Some 2%Z; p_NFourier := Some 2%Z;
  p_bpos := t0 1; p_bneg := t0 2; p_only_flux := false; p_f := [0; 0]; p_NT := false;
  p_BDRF := [MScal (1/2)]; p_s := mkA2 2 1 (fun _ _ => 1); p_banded := 10; p_autograd := false |}.

Section Ns.
  Variable n : nat.
  Variables I0 x : R.
  Hypothesis Hn : (1 <= n)%nat.
  Hypothesis HI : 0 <= I0.
  Hypothesis Hx : 0 < x <= 1.
  Let p := p_ns n I0 x.
  Lemma ns_half : half p = n.
  Proof using n I0 x. clear Hn HI Hx. unfold half. cbn [p_NQuad p p_ns]. rewrite Nat2Z.inj_mul. change (Z.of_nat 2) with 2%Z. rewrite Z.mul_comm, Z.div_mul by lia. apply Nat2Z.id. Qed.
  Lemma ns_streams : streams p = (2 * n)%nat.
  Proof. unfold streams. cbn [p_NQuad p p_ns]. apply Nat2Z.id. Qed.
  Lemma ns_valid : valid p.
  Proof.
    constructor; cbn -[Rlt Rle PI INR Z.of_nat Nat.mul Z.modulo].
    - lia.
    - intros [|[|l]] Hl; cbn; try lra; lia.
    - intros [|[|l]] Hl; cbn; try lra; lia.
    - intros w [<-|[<-|[]]]; lra.
    - lia.
    - reflexivity.
    - reflexivity.
    - reflexivity.
    - reflexivity.
    - intros [|l] [|[|k]] Hl Hk; try lia; lra.
    - lia.
    - rewrite Nat2Z.inj_mul, Z.mul_comm. apply Z.mod_mul. lia.
    - lia.
    - lia.
    - exact HI.
    - intros _; exact Hx.
    - intros _. pose proof PI_RGT_0. lra.
    - right; left; reflexivity.
    - right; left; reflexivity.
    - intros f [<-|[<-|[]]]; lra.
    - lia.
  Qed.
  Lemma ns_ab l : (l < 2)%nat -> 1/5 <= phase_s p l 1 <= 1/4 /\ phase_s p l 0 = 1.
  Proof. intros Hl. destruct l as [|[|l]]; [| |lia]; unfold phase_s, fwd, phase; cbn -[Rle Rlt]; split; try field; lra. Qed.
  Lemma ns_phase_at l c : (l < 2)%nat -> phase_at p l c = 1 + 3 * phase_s p l 1 * c.
  Proof. intros Hl. destruct (ns_ab l Hl) as (_ & H0). unfold phase_at. change (ncoeffs p) with 2%nat. cbn [rsum]. rewrite H0. unfold legendre, legendre_poly. cbn. field. Qed.
  Lemma ns_positive : phase_positive p.
  Proof. intros l c Hl _ Hc. change (nlayers p) with 2%nat in Hl. rewrite ns_phase_at by exact Hl. destruct (ns_ab l Hl) as (H & _). nra. Qed.
  Lemma ns_refl mu w i : double_gauss (half p) mu w -> (i < half p)%nat -> reflectance p mu w (fun _ _ => 1/2) i = 1/2.
  Proof.
    intros HD Hi. rewrite ns_half in *. pose proof (dg_first n mu w ltac:(lia) HD) as E. unfold reflectance. cbn [length p_BDRF p p_ns Nat.ltb Nat.leb]. fold p. rewrite ns_half.
    rewrite (rsum_ext n _ (fun j => 1/2 * (w j * nth j mu 0))) by (intros; ring). rewrite rsum_scal, E. field.
  Qed.
  Lemma ns_physical mu w : double_gauss (half p) mu w -> physical p mu w (fun _ _ _ => 1/2).
  Proof.
    intros HD. constructor.
    - intros l i j phi Hl Ha Hi Hj. pose proof (node p ns_valid mu w HD i) as Ni. pose proof (node p ns_valid mu w HD j) as Nj. rewrite ns_half in Ni, Nj. rewrite ns_streams in Hi, Hj.
      pose proof (phase_modes p l (nth i mu 0) phi (nth j mu 0) 0 ltac:(cbn; lia) (proj1 (Ni Hi)) (proj1 (Nj Hj))) as X. rewrite Rminus_0_r in X.
      unfold phase_fn. unfold ec in X. rewrite <- X. apply ns_positive; auto. apply nu_range; [apply Ni|apply Nj]; auto.
    - intros i j phi Hi Hj. unfold surface_fn. cbn [length p_BDRF p p_ns rsum INR]. rewrite Rmult_0_l, cos_0. lra.
    - intros i Hi. rewrite (ns_refl mu w) by auto. lra.
  Qed.
  Lemma ns_input : physical_input p (fun _ _ _ => 1/2).
  Proof.
    constructor.
    - exact ns_valid.
    - exists (fun _ => 1). apply bc_scal; auto.
    - exists (fun _ => 2). apply bc_scal; auto.
    - intros [|m] Hm; [|cbn in Hm; lia]. left. exists (1/2). auto.
    - intros _. right. reflexivity.
    - intros _. right; right. exists []. split; [exact I|]. cbn. lra.
    - discriminate.
    - exact ns_physical.
  Qed.
  Lemma ns_free : I0 = 0 -> no_resonance p.
  Proof. intros E H. cbn in H. lra. Qed.
End Ns.

(** Directions and weights exist for every number of streams. *)
Lemma directions_exist n : exists mu w, double_gauss n mu w.
Proof.
  pose proof (mu_arr_gauss (p_ns n 0 1) gauss_rule (proj1 (gauss_rule_ok _))) as H. rewrite (ns_half n 0 1) in H. eauto.
Qed.
Lemma all_solved p rho jk : physical_input p rho -> (exists out, pydisort p gauss_rule la_full jk = Ok out) <-> no_resonance p.
Proof. intros H. apply (posed_iff p rho); auto; [apply gauss_rule_ok|exact la_full_ok|exact la_full_unique|exact la_full_complete|exact la_full_total]. Qed.

(** The rule enters only through its answer for half the number of streams. *)
Lemma pydisort_rule p lg la jk : pydisort p lg la jk = pydisort p (fun _ => lg (half p)) la jk.
Proof. reflexivity. Qed.
Lemma deps_same p lg lg' la la' jk jk' out out' rho : linalg_ok la -> linalg_ok la' -> leggauss_ok (half p) (lg (half p)) -> leggauss_ok (half p) (lg' (half p)) ->
  increasing (fst (lg (half p))) -> increasing (fst (lg' (half p))) ->
  pydisort p lg la jk = Ok out -> pydisort p lg' la' jk' = Ok out' ->
  (forall mu w, double_gauss (half p) mu w -> physical p mu w rho) ->
  (forall m, (m < length (p_BDRF p))%nat -> mode_is (nth m (p_BDRF p) (MScal 0)) (rho m)) -> same_values out out'.
Proof.
  intros L L' G G' I I' E E' P M. rewrite pydisort_rule in E, E'. rewrite <- (ok_unique _ _ _ G G' I I') in E'.
  exact (phys_same p (fun _ => lg (half p)) la la' jk jk' out out' rho L L' G E E' P M).
Qed.

(** All but finitely many sun angles are solved. *)
Lemma suns p rho : 0 < p_I0 p -> exists L, (length L <= nmodes p * (nlayers p * half p))%nat /\
  forall x lg la jk, physical_input (at_sun p x) rho -> leggauss_ok (half p) (lg (half p)) -> linalg_ok la -> linalg_unique la -> linalg_complete la -> linalg_total la ->
  ((exists out, pydisort (at_sun p x) lg la jk = Ok out) <-> ~ In x L).
Proof.
  intros HI. destruct (classic (exists x, physical_input (at_sun p x) rho)) as [HE|HE].
  - destruct (sun_free p rho (directions_exist (half p)) HE) as (L & HL & E). exists L. split; auto. intros x lg la jk HP Hlg H1 H2 H3 H4. rewrite <- (E x HP HI).
    apply (posed_iff (at_sun p x) rho); auto.
  - exists []. split; [cbn; lia|]. intros x lg la jk HP. exfalso. eauto.
Qed.
