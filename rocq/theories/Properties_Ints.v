(** Property C103: sources with many coefficients on machines with bounded integers. *)
From Coq Require Import String Reals Lra Lia List Bool Arith ZArith.
From Coquelicot Require Import Coquelicot.
From Verif Require Import Base Tensor Spec M_LinAlg Spec_RTE M_Subroutines M_MathscrV M_Assemble M_Pydisort M_Ints Spec_Sol Spec_Valid Spec_Calls
  P_Gauss P_Orth3 P_Ints P_Ints2 P_Ints3 Examples5 Examples14.
Import ListNotations.
Local Open Scope R_scope.

(** C103 as far as it holds: with integers of [b] bits, a source whose number of coefficients [n] is
    such that (n - 1)! fits gets exactly the answer (error, returned functions, everything) that
    unbounded integers give. *)
Theorem C103_factorial_fits_partial : forall b p lg la jk, (1 <= b)%Z -> (Z.of_nat (fact (ncol (p_s p) - 1)) < 2 ^ (b - 1))%Z ->
  @pydisort (machine_ints b) p lg la jk = @pydisort exact_ints p lg la jk.
Proof. exact ints_suffice. Qed.
Print Assumptions C103_factorial_fits_partial.
Example C103_factorial_fits_nonvacuous jk : (1 <= 16)%Z /\ (Z.of_nat (fact (ncol (p_s (p_src 8)) - 1)) < 2 ^ (16 - 1))%Z /\
  exists out, @pydisort (machine_ints 16) (p_src 8) gauss_rule la_full jk = Ok out.
Proof. split; [lia|]. split; [rewrite zf_fact; reflexivity|]. apply src_machine. Qed.

(** On the usual machines: 21 coefficients with 64 bits, 13 with 32 bits. *)
Theorem C103_usual_machines_partial : forall b p lg la jk, (b = 64%Z /\ (ncol (p_s p) <= 21)%nat) \/ (b = 32%Z /\ (ncol (p_s p) <= 13)%nat) ->
  @pydisort (machine_ints b) p lg la jk = @pydisort exact_ints p lg la jk.
Proof. intros b p lg la jk [[-> H]|[-> H]]; [exact (ints_64 p lg la jk H)|exact (ints_32 p lg la jk H)]. Qed.
Print Assumptions C103_usual_machines_partial.
Example C103_usual_machines_nonvacuous jk : (ncol (p_s (p_src 21)) <= 21)%nat /\ (ncol (p_s (p_src 13)) <= 13)%nat /\
  (exists out, @pydisort (machine_ints 64) (p_src 21) gauss_rule la_full jk = Ok out) /\ exists out, @pydisort (machine_ints 32) (p_src 13) gauss_rule la_full jk = Ok out.
Proof. split; [cbn; lia|]. split; [cbn; lia|]. split; apply src_machine. Qed.

(** No number of coefficients is rejected because of the integers: every machine answers the same calls. *)
Theorem C103_no_rejection : forall b p lg la jk, linalg_ok la -> linalg_unique la -> linalg_complete la ->
  (exists out, @pydisort (machine_ints b) p lg la jk = Ok out) <-> exists out, @pydisort exact_ints p lg la jk = Ok out.
Proof. intros b p lg la jk H1 H2 H3. split; apply answered_same; assumption. Qed.
Print Assumptions C103_no_rejection.
Example C103_no_rejection_nonvacuous jk : linalg_ok la_full /\ linalg_unique la_full /\ linalg_complete la_full /\
  exists out, @pydisort exact_ints (p_src 40) gauss_rule la_full jk = Ok out.
Proof. repeat (split; [first [exact la_full_ok|exact la_full_unique|exact la_full_complete]|]). apply src_answer. Qed.

(** The full property is false: one coefficient more, not zero, and the answer is wrong. What u0
    reports does not satisfy the transfer equation at any depth inside a layer with such a source. *)
Theorem C103_one_more_coefficient_refuted :
  (forall b n, (b = 64%Z /\ n = 21%nat) \/ (b = 32%Z /\ n = 13%nat) ->
   forall p lg la jk out, linalg_ok la -> leggauss_ok (half p) (lg (half p)) -> ncol (p_s p) = S n ->
   @pydisort (machine_ints b) p lg la jk = Ok out ->
   exists w U, double_gauss (half p) (po_mu out) w /\
    (forall tau, depths_ok p tau -> exists A, po_u0 out tau false false false = Ok (PVal (PT A)) /\
       squeezed A [streams p; length tau] (fun idx => U (nth 0 idx 0%nat) (nth (nth 1 idx 0%nat) tau 0))) /\
    forall l wg t, (l < nrow (p_s p))%nat -> at2 (p_s p) l n <> 0 -> top_of p l < t < bot_of p l ->
      is_cutoff (albedo_s p l) (wphase_s p l) (ncoeffs p) 0 wg ->
      exists i, (i < streams p)%nat /\
        ~ is_derive (U i) t (rte p (po_mu out) w wg 0 l i t (fun j => U j t) / nth i (po_mu out) 0)) /\
  (forall jk, exists p out, linalg_ok la_full /\ leggauss_ok (half p) (gauss_rule (half p)) /\ ncol (p_s p) = 22%nat /\
   @pydisort (machine_ints 64) p gauss_rule la_full jk = Ok out /\
   exists l t, (l < nrow (p_s p))%nat /\ at2 (p_s p) l 21%nat <> 0 /\ top_of p l < t < bot_of p l).
Proof.
  split.
  - intros b n Hb p lg la jk out H1 H2 H3 H4. destruct (first_bad_facts b n Hb) as (A & B & C & D). exact (wrong_call n A B C D p lg la jk out H1 H2 H3 H4).
  - intros jk. destruct (src_machine 22 64 jk) as (out & H). exists (p_src 22), out. split; [exact la_full_ok|]. split; [apply gauss_rule_ok|].
    split; [reflexivity|]. split; [exact H|]. exists 1%nat, 2. split; [cbn; lia|]. split; [apply (src_last 22); lia|]. cbn. lra.
Qed.
Print Assumptions C103_one_more_coefficient_refuted.
