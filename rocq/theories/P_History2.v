(** Writes that do change later results. *)
From Coq Require Import String Reals Lra Lia List Bool Arith ZArith.
From Verif Require Import Base Tensor Spec M_LinAlg Spec_RTE Calc M_Subroutines M_GenPart M_MathscrV M_Coeffs M_Assemble M_Pydisort M_History
  Spec_Sol P_Sub P_Tensor P_Assemble P_Solve P_Sub3 P_Valid Spec_Valid P_Pydisort P_Pydisort2 P_Pydisort3 P_Pydisort8 Spec_NT P_NT3 Spec_History P_History
  P_Special Spec_Phys Spec_Solved P_Spec6 P_Spec7 Examples Examples2 Examples3 Examples5 Examples6.
Import ListNotations.
Local Open Scope R_scope.

Lemma last_read1 st x n : (1 <= n)%nat -> last (read1 st x n) 0 = st x [(n - 1)%nat].
Proof.
  intros Hn. destruct n; [lia|]. unfold read1. rewrite seq_S, map_app. cbn [map]. rewrite last_last, Nat.sub_succ, Nat.sub_0_r. reflexivity.
Qed.

Section Lost.
  Variables (p : py_in) (lg : leggauss_t) (la : linalg) (jk : junk) (out : py_out).
  Hypothesis Hla : linalg_ok la.
  Hypothesis Hlg : leggauss_ok (half p) (lg (half p)).
  Hypothesis Hok : pydisort p lg la jk = Ok out.
  Variable given : arr -> bool.
  Hypothesis Hgiven : given ATau = true.

  Lemma bot_pos : 0 < bottom p.
  Proof. destruct (pydisort_parts _ _ _ _ _ Hok) as (V & _). rewrite (bottom_eq p). apply (v_tau p V). pose proof (v_ne p V). lia. Qed.
  Lemma nl_pos : (1 <= length (p_tau p))%nat.
  Proof. destruct (pydisort_parts _ _ _ _ _ Hok) as (V & _). exact (v_ne p V). Qed.

  (** The last boundary is overwritten by [v]; [run_one] is a call of u0 afterwards. *)
  Lemma run_one v t : session p lg la jk given [Write ATau [(nlayers p - 1)%nat] v; Call (CU0 [t] false false false)]
    = (if Rltb v t then Ok [Err (EValue "tau input outside the tau range given for the atmosphere (check `tau_arr`).")]
       else session p lg la jk given [Write ATau [(nlayers p - 1)%nat] v; Call (CU0 [t] false false false)]).
  Proof.
    destruct (Rltb v t) eqn:E; [|reflexivity].
    destruct (session_run p lg la jk out Hok given [Write ATau [(nlayers p - 1)%nat] v; Call (CU0 [t] false false false)]) as (ss & r & sv & -> & _).
    cbn [run]. unfold do_call, cl_u0, tau_check. unfold in_range. cbn [with_tau a_tau existsb]. unfold ref_tau. rewrite Hgiven.
    rewrite last_read1 by exact nl_pos. unfold write at 1. cbn [arr_eqb andb]. change (length (p_tau p)) with (nlayers p). cbn [list_eqb]. rewrite Nat.eqb_refl. cbn [andb].
    rewrite E, !orb_false_r, orb_true_r. reflexivity.
  Qed.
  Theorem bottom_lost : exists A,
    answer out (CU0 [bottom p] false false false) = Ok (PVal (PT A)) /\
    session p lg la jk given [Write ATau [(nlayers p - 1)%nat] (bottom p / 2); Call (CU0 [bottom p] false false false)]
    = Ok [Err (EValue "tau input outside the tau range given for the atmosphere (check `tau_arr`).")].
  Proof.
    pose proof bot_pos as HB. destruct (modes_exist p lg la jk out Hla Hlg Hok) as (U & (HU & _)).
    destruct (HU [bottom p]) as (A & HA & _). { intros t [<-|[]]. lra. }
    exists A. split; [exact HA|]. rewrite run_one. rewrite (proj2 (Rltb_iff _ _)) by lra. reflexivity.
  Qed.
  Theorem below_accepted : exists e A,
    answer out (CU0 [2 * bottom p] false false false) = Err e /\
    session p lg la jk given [Write ATau [(nlayers p - 1)%nat] (2 * bottom p); Call (CU0 [2 * bottom p] false false false)]
    = Ok [Ok (PVal (PT A))].
  Proof.
    pose proof bot_pos as HB. destruct (pydisort_parts _ _ _ _ _ Hok) as (V & ss0 & r0 & sv0 & Hss0 & Hr0 & Hsv0 & _ & _ & _ & Eu00 & _).
    set (w := Write ATau [(nlayers p - 1)%nat] (2 * bottom p)).
    assert (HS : exists ss r sv, scaled_s p = Ok ss /\ rescale p ss = Ok r /\ solve_all (assemble_args p lg r ss) la jk = Ok sv /\
       session p lg la jk given [w; Call (CU0 [2 * bottom p] false false false)] = Ok (run p lg given (assemble_args p lg r ss) sv (start p lg) [w; Call (CU0 [2 * bottom p] false false false)])).
    { pose proof Hok as H. unfold pydisort in H. unfold session.
      apply bind_Ok in H as (? & E1 & H). rewrite E1. cbn [bind]. apply bind_Ok in H as (? & E2 & H). rewrite E2. cbn [bind].
      apply bind_Ok in H as (ss & E3 & H). rewrite E3. cbn [bind]. apply bind_Ok in H as (r & E4 & H). rewrite E4. cbn [bind].
      apply bind_Ok in H as (sv & E5 & H). rewrite E5. cbn [bind]. exists ss, r, sv. repeat split; auto. }
    destruct HS as (ss & r & sv & Hss & Hr & Hsv & ->).
    set (a := assemble_args p lg r ss) in *. pose proof (a_good p V lg Hlg ss r) as Ha. fold a in Ha.
    set (tl := read1 (write (start p lg) ATau [(nlayers p - 1)%nat] (2 * bottom p)) ATau (length (p_tau p))).
    assert (Hlast : last tl 0 = 2 * bottom p).
    { unfold tl. rewrite last_read1 by exact nl_pos. unfold write. cbn [arr_eqb andb]. change (length (p_tau p)) with (nlayers p). cbn [list_eqb]. rewrite Nat.eqb_refl. reflexivity. }
    assert (Hlen : length tl = nlayers p) by (unfold tl, read1; rewrite map_length, seq_length; reflexivity).
    assert (HT : forall t, In t [2 * bottom p] -> 0 <= t <= tau_bot (with_tau a tl)).
    { intros t [<-|[]]. unfold tau_bot. cbn [with_tau a_tau]. rewrite Hlast. lra. }
    destruct (u0_all_val (with_tau a tl) sv (g_NL a Ha) Hlen (HKne p V lg Hlg ss r la Hla jk sv Hsv) [2 * bottom p] HT) as (C & HC & _).
    exists (EValue "tau input outside the tau range given for the atmosphere (check `tau_arr`)."). eexists. split.
    - cbn [answer]. rewrite Eu00. unfold cl_u0, tau_check, in_range. cbn [existsb a_tau assemble_args]. fold (bottom p).
      rewrite (proj2 (Rltb_iff (bottom p) _)) by lra. rewrite !orb_false_r, orb_true_r. reflexivity.
    - cbn [run w]. unfold do_call. unfold ref_tau. rewrite Hgiven. fold tl. unfold cl_u0, tau_check.
      rewrite (proj2 (in_range_iff (with_tau a tl) [2 * bottom p]) HT). cbn [check bind]. rewrite HC. cbn [bind orb app ret]. reflexivity.
  Qed.
End Lost.
