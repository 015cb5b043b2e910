(** A wrong answer is another answer. *)
From Coq Require Import String Reals Lra Lia List Bool Arith ZArith.
From Coquelicot Require Import Coquelicot.
From Verif Require Import Base Tensor Spec M_LinAlg Spec_RTE Calc M_Subroutines M_MathscrV M_Assemble M_Pydisort M_Ints P_Solve Spec_Sol Spec_Valid P_Valid P_Pydisort P_Pydisort2 P_Pydisort3 P_Pydisort4
  P_Unique2 P_Ints P_Ints2 P_Ints3.
Import ListNotations.
Local Open Scope R_scope.

(** What [u0] reports at one depth. *)
Lemma one_depth p (V : valid p) A f i : (i < streams p)%nat -> squeezed A [streams p; 1%nat] f -> elt A [i] = f [i; 0%nat].
Proof.
  intros Hi (SA & HA). pose proof (streams_eq p V) as Es. pose proof (half_pos p V) as Hh.
  assert (E1 : shp A = [streams p]). { rewrite SA. unfold tsqueeze. cbn [shp length]. unfold sq_shape. cbn [filter]. destruct (Nat.eqb_spec (streams p) 1); [lia|]. reflexivity. }
  assert (Hin : inb (shp A) [i]) by (rewrite E1; cbn; auto). rewrite (HA [i] Hin). unfold tsqueeze. cbn [elt shp length unsq].
  destruct (Nat.eqb_spec (streams p) 1); [lia|]. cbn [unsq nth Nat.eqb]. reflexivity.
Qed.

Theorem wrong_differs b n : first_bad b n -> forall p lg la jk out, linalg_ok la -> leggauss_ok (half p) (lg (half p)) -> ncol (p_s p) = S n ->
  @pydisort exact_ints p lg la jk = Ok out -> (exists l, (l < nrow (p_s p))%nat /\ at2 (p_s p) l n <> 0) ->
  @pydisort (machine_ints b) p lg la jk <> @pydisort exact_ints p lg la jk.
Proof.
  intros Hb p lg la jk out Hla Hlg Hcol Hok (l & Hl & Hne) E. rewrite Hok in E.
  destruct (first_bad_facts b n Hb) as (A & B & C & D).
  destruct (wrong_call n A B C D p lg la jk out Hla Hlg Hcol E) as (w & U & Hw & HU & HX).
  destruct (solution_exists p lg la jk out Hla Hlg Hok) as (w' & U' & F & Hw' & HU' & HF & HO & _).
  pose proof (call_valid p lg la jk out Hok) as V.
  assert (Hl' : (l < nlayers p)%nat) by (rewrite <- (v_ns p V); [exact Hl|exists l, n; rewrite Hcol; repeat split; auto; lia]).
  pose proof (v_inc p V l Hl') as Hinc. set (t := (top_of p l + bot_of p l) / 2).
  assert (Ht : top_of p l < t < bot_of p l) by (unfold t; lra).
  destruct (cutoff_ex (albedo_s p l) (wphase_s p l) (ncoeffs p) 0) as (wg & Hwg).
  destruct (HX l wg t Hl Hne Ht Hwg) as (i & Hi & HN). apply HN. clear HN HX.
  assert (HE : forall j x, (j < streams p)%nat -> top_of p l < x < bot_of p l -> F 0%nat l j x = U j x).
  { intros j x Hj Hx. assert (Hx0 : depths_ok p [x]).
    { intros y [<-|[]]. pose proof (layer_in_range p lg la jk out Hlg Hok l x Hl' ltac:(lra)). lra. }
    destruct (HU [x] Hx0) as (T & ET & ST). destruct (proj1 HU' [x] Hx0) as (T' & ET' & ST'). rewrite ET in ET'. injection ET' as <-.
    pose proof (one_depth p V T _ j Hj ST) as E1. pose proof (one_depth p V T _ j Hj ST') as E2. cbn [nth] in E1, E2.
    rewrite <- (HF 0%nat l j x) by (auto; try lra; apply nmodes_pos; auto). congruence. }
  apply (is_derive_ext_loc (V := R_NormedModule) (F 0%nat l i)).
  - assert (He : 0 < Rmin (t - top_of p l) (bot_of p l - t)) by (apply Rmin_glb_lt; lra).
    exists (mkposreal _ He). intros y Hy. apply HE; auto. change (Rabs (y - t) < Rmin (t - top_of p l) (bot_of p l - t)) in Hy.
    pose proof (Rmin_l (t - top_of p l) (bot_of p l - t)). pose proof (Rmin_r (t - top_of p l) (bot_of p l - t)).
    assert (HR : Rabs (y - t) < t - top_of p l /\ Rabs (y - t) < bot_of p l - t) by lra. destruct HR as [R1 R2].
    apply Rabs_def2 in R1. apply Rabs_def2 in R2. lra.
  - pose proof (HO 0%nat l i wg t (nmodes_pos p V) Hl' Hi Hwg) as D1.
    refine (eq_ind _ (fun v => is_derive (F 0%nat l i) t v) D1 _ _). f_equal. unfold rte. rewrite HE by auto.
    do 3 f_equal. f_equal. apply rsum_ext. intros j Hj. rewrite HE by auto. f_equal. f_equal. unfold wnode.
    pose proof (streams_eq p V). destruct (Nat.ltb_spec j (half p)); apply (dg_weights (half p) (po_mu out)); auto; lia.
Qed.
