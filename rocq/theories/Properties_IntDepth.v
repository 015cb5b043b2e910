(** Property C106: depths given as integers. *)
From Coq Require Import Reals Lra Lia List Bool Arith ZArith.
From Verif Require Import Base Tensor Spec M_LinAlg M_Subroutines M_MathscrV M_Assemble M_Pydisort M_Ints M_IntDepth M_WarnSource Spec_Sol Spec_Valid Spec_Calls
  P_Gauss P_Orth3 P_Ints P_WarnSource P_Error P_IntDepth P_IntDepth2 Examples5 Examples15.
Import ListNotations.
Local Open Scope R_scope.

(** C106, for depths whose powers fit: on a machine with [b] bits every function of an answered call gives,
    at depths given as integers, exactly what it gives at the equal floats (errors, flags and
    antiderivatives included), if there is no source, or the depths are scaled, or the depth to the power of the
    degree of the source (plus 1 for antiderivatives) is below 2^(b-1). Missing: the other depths, for
    which it is false ([C106_beyond_range]). *)
Theorem C106_same_partial : forall (IM : IntModel) b p lg la jk out, (2 <= b)%Z -> pydisort p lg la jk = Ok out ->
  exists zo, pydisortz b p lg la jk = Ok zo /\
  forall (tau : list Z) (anti : bool),
    ~ (exists i j, (i < nrow (p_s p))%nat /\ (j < ncol (p_s p))%nat /\ at2 (p_s p) i j <> 0) \/
    (exists l, (l < nlayers p)%nat /\ scl p l <> 1) \/
    (forall z, In z tau -> (Z.abs z ^ Z.of_nat (if anti then ncol (p_s p) else ncol (p_s p) - 1) < 2 ^ (b - 1))%Z) ->
    (forall rt, zo_flux_up zo tau anti rt = po_flux_up out (map IZR tau) anti rt) /\
    (forall rt, zo_flux_down zo tau anti rt = po_flux_down out (map IZR tau) anti rt) /\
    (forall rt ra, zo_u0 zo tau anti rt ra = po_u0 out (map IZR tau) anti rt ra) /\
    (forall f g, zo_u zo = Some f -> po_u out = Some g -> forall phi re rt, f tau phi anti re rt = g (map IZR tau) phi anti re rt) /\
    (zo_u zo = None <-> po_u out = None).
Proof. intros IM b p lg la jk out Hb. exact (int_depths b p lg la jk Hb out). Qed.
Print Assumptions C106_same_partial.
Example C106_same_partial_nonvacuous jk : (exists out, pydisort (p_deep 10) gauss_rule la_full jk = Ok out) /\
  (forall z, In z [0; 7; 127]%Z -> (Z.abs z ^ Z.of_nat (if false then ncol (p_s (p_deep 10)) else ncol (p_s (p_deep 10)) - 1) < 2 ^ (64 - 1))%Z).
Proof. split; [apply deep_answer|]. intros z [<-|[<-|[<-|[]]]]; reflexivity. Qed.

(** C106 fails beyond: without scaling, with a source of [n + 1 >= 3] coefficients, at every depth [z] whose [n]-th
    power is the first not to fit in [b] bits and where the last coefficient is not zero, the
    azimuthal mean of an answered call differs from that at the equal float. *)
Theorem C106_beyond_range : forall b n p lg la jk out zo l z, linalg_ok la -> leggauss_ok (half p) (lg (half p)) -> (1 <= b)%Z -> (2 <= n)%nat ->
  ncol (p_s p) = S n -> (forall k, (k < nlayers p)%nat -> scl p k = 1) ->
  pydisort p lg la jk = Ok out -> pydisortz b p lg la jk = Ok zo ->
  (l < nlayers p)%nat -> top_of p l < IZR z <= bot_of p l -> (l < nrow (p_s p))%nat -> at2 (p_s p) l n <> 0 ->
  (z ^ Z.of_nat (n - 1) < 2 ^ (b - 1) <= z ^ Z.of_nat n)%Z ->
  zo_u0 zo [z] false false false <> po_u0 out [IZR z] false false false.
Proof.
  intros b n p lg la jk out zo l z Hla Hlg Hb Hn Hcol Hsc Hok Hzo Hl Hz Hr Hne Hf.
  apply (int_depth_differs p lg la jk Hla Hlg n Hn Hcol ltac:(exists l, n; rewrite Hcol; repeat split; auto; lia) Hsc b z l out Hb Hok Hl Hz Hne Hf zo Hzo).
Qed.
Print Assumptions C106_beyond_range.

(** The hypotheses of [C106_beyond_range], at depth 128 with 64 bits and 10 coefficients. *)
Example C106_beyond_range_nonvacuous jk : exists out zo, pydisort (p_deep 10) gauss_rule la_full jk = Ok out /\ pydisortz 64 (p_deep 10) gauss_rule la_full jk = Ok zo /\
  ncol (p_s (p_deep 10)) = 10%nat /\ (forall k, (k < nlayers (p_deep 10))%nat -> scl (p_deep 10) k = 1) /\
  (1 < nlayers (p_deep 10))%nat /\ top_of (p_deep 10) 1 < 128 <= bot_of (p_deep 10) 1 /\ at2 (p_s (p_deep 10)) 1%nat 9%nat <> 0 /\
  (128 ^ Z.of_nat (9 - 1) < 2 ^ (64 - 1) <= 128 ^ Z.of_nat 9)%Z.
Proof.
  destruct (deep_answer 10 jk) as (out & H). destruct (C106_same_partial _ 64 _ _ _ _ _ ltac:(lia) H) as (zo & Hz & _).
  exists out, zo. split; [exact H|]. split; [exact Hz|]. split; [reflexivity|]. split; [|split; [cbn; lia|split; [cbn; lra|split; [exact (deep_last 10 1%nat ltac:(lia))|split; reflexivity || discriminate]]]].
  intros k Hk. unfold scl, albedo, fwd. destruct k as [|[|k]]; [cbn; lra|cbn; lra|cbn in Hk; lia].
Qed.

(** C106 as stated is false: with 64 bits it fails even among the calls that warn of nothing about the source. *)
Theorem C106_refuted : ~ forall p lg la jk out zo tau, linalg_ok la -> leggauss_ok (half p) (lg (half p)) ->
  pydisort p lg la jk = Ok out -> pydisortz 64 p lg la jk = Ok zo -> depths_ok p (map IZR tau) -> eval_warns p = 0%nat ->
  zo_u0 zo tau false false false = po_u0 out (map IZR tau) false false false.
Proof.
  intros H. destruct (C106_beyond_range_nonvacuous junk0) as (out & zo & Hok & Hzo & Hc & Hs & Hl & Hz & Hne & Hf).
  refine (C106_beyond_range 64 9 _ _ _ _ out zo 1 128 la_full_ok (proj1 (gauss_rule_ok _)) ltac:(lia) ltac:(lia) Hc Hs Hok Hzo Hl Hz ltac:(cbn; lia) Hne Hf _).
  apply (H (p_deep 10) gauss_rule la_full junk0 out zo [128%Z]); auto; [exact la_full_ok|exact (proj1 (gauss_rule_ok _))| |].
  - intros t [<-|[]]. cbn. lra.
  - destruct (eval_warns (p_deep 10)) eqn:E; [reflexivity|]. destruct (proj1 (eval_warns_iff (p_deep 10))) as [_ X]; [lia|]. cbn in X. lia.
Qed.
Print Assumptions C106_refuted.
