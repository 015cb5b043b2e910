(** A complete call used to show that hypotheses of the whole-call theorems can be met. *)
From Coq Require Import String Reals Lra Lia List Bool Arith ZArith.
From Verif Require Import Base Tensor Spec M_LinAlg Spec_RTE M_Subroutines M_Assemble M_Pydisort
  P_Sub3 P_Tensor Spec_Sol P_Valid P_Pydisort2 P_Pydisort4 Examples Examples2.
Import ListNotations.
Local Open Scope R_scope.

(** One scattering layer (albedo 4/5, forward fraction 1/4), beam, surface, both boundary sources,
    isotropic source, two Fourier modes. *)
Definition p1 : py_in := p_ex 3 (1 / 4) 1 1 2 (1 / 2) false false false.
Definition p1_flux : py_in := p_ex 3 (1 / 4) 1 1 2 (1 / 2) false true false.
Definition p1_NT : py_in := p_ex 3 (1 / 4) 1 1 2 (1 / 2) true false false.
(** Three non-scattering layers over a reflecting surface. *)
Definition p3 (banded : Z) : py_in := p_exn [1; 2; 4] 1 (1 / 2) banded.

Lemma lg_12_ok1 : leggauss_ok 1%nat (lg_12 1%nat). Proof. exact leggauss1_ok. Qed.
Lemma p1_ok jk : exists out, pydisort p1 lg_12 (la_ex []) jk = Ok out.
Proof. apply ex_ok; try lra. Qed.
Lemma p1_flux_ok jk : exists out, pydisort p1_flux lg_12 (la_ex []) jk = Ok out.
Proof. apply ex_ok; try lra. Qed.
Lemma p1_NT_ok jk : exists out, pydisort p1_NT lg_12 (la_ex []) jk = Ok out.
Proof. apply ex_ok; try lra. Qed.
Lemma p3_ok_gen la banded jk : finds la (cand_exn [1; 2; 4] (1 / 2)) -> (3 <= banded)%Z -> exists out, pydisort (p3 banded) lg_12 la jk = Ok out.
Proof.
  intros Hf Hb. apply exn_ok; auto; cbn; [lia| | |lra].
  - intros l Hl. unfold bot_of. cbn. destruct l as [|[|[|l]]]; cbn; try lra; lia.
  - intros l Hl. unfold bot_of, top_of. cbn. destruct l as [|[|[|l]]]; cbn; try lra; lia.
Qed.
Lemma p3_ok banded jk : (3 <= banded)%Z -> exists out, pydisort (p3 banded) lg_12 (la_ex (cand_exn [1; 2; 4] (1 / 2))) jk = Ok out.
Proof. apply p3_ok_gen, la_ex_finds. Qed.
Lemma p3_ok_id banded jk : (3 <= banded)%Z -> exists out, pydisort (p3 banded) lg_12 la_id jk = Ok out.
Proof. apply p3_ok_gen, la_id_finds. Qed.

(** The facts used as hypotheses, all met by [p1]. *)
Lemma p1_facts jk : exists out U, linalg_ok (la_ex []) /\ leggauss_ok (half p1) (lg_12 (half p1)) /\
  pydisort p1 lg_12 (la_ex []) jk = Ok out /\ modes_of p1 out U /\ (exists u, po_u out = Some u) /\
  nonneg (p_bneg p1) /\ nonneg (p_bpos p1) /\ ~ nt_applies p1 /\ nmodes p1 = 2%nat /\
  bc_values (p_bneg p1) (half p1) (fun _ => 1) /\ bc_values (p_bpos p1) (half p1) (fun _ => 1) /\
  (forall m, (m < length (p_BDRF p1))%nat -> mode_is (nth m (p_BDRF p1) (MScal 0)) (fun _ _ => 1 / 2)).
Proof.
  destruct (p1_ok jk) as (out & H). 
  assert (Hlg : leggauss_ok (half p1) (lg_12 (half p1))) by exact leggauss1_ok.
  destruct (solution_exists p1 lg_12 (la_ex []) jk out (la_ex_ok []) Hlg H) as (w & U & F & _ & HU & _).
  exists out, U. split; [apply la_ex_ok|]. split; [exact Hlg|]. split; [exact H|]. split; [exact HU|].
  split; [apply (call_u p1 lg_12 (la_ex []) jk out H); reflexivity|].
  split; [intros idx _; cbn; lra|]. split; [intros idx _; cbn; lra|].
  split; [intros (HN & _); discriminate|]. split; [reflexivity|].
  split; [apply bc_scal; reflexivity|]. split; [apply bc_scal; reflexivity|].
  intros [|m] Hm; cbn in *; [|lia]. left. exists (1 / 2). auto.
Qed.

(** The same for three layers; the dense solver is used with [p3 10], the banded one with [p3 3]. *)
Lemma p3_facts banded jk : (3 <= banded)%Z -> exists out U, linalg_ok (la_ex (cand_exn [1; 2; 4] (1 / 2))) /\
  leggauss_ok (half (p3 banded)) (lg_12 (half (p3 banded))) /\
  pydisort (p3 banded) lg_12 (la_ex (cand_exn [1; 2; 4] (1 / 2))) jk = Ok out /\ modes_of (p3 banded) out U /\
  nlayers (p3 banded) = 3%nat /\ seen (p3 banded) 0.
Proof.
  intros Hb. destruct (p3_ok banded jk Hb) as (out & H).
  assert (Hlg : leggauss_ok (half (p3 banded)) (lg_12 (half (p3 banded)))) by exact leggauss1_ok.
  destruct (solution_exists _ lg_12 _ jk out (la_ex_ok _) Hlg H) as (w & U & F & _ & HU & _).
  exists out, U. split; [apply la_ex_ok|]. split; [exact Hlg|]. split; [exact H|]. split; [exact HU|].
  split; [reflexivity|]. split; [cbn; lia|left; reflexivity].
Qed.

(** One layer without a beam. *)
Definition p1_dark : py_in := p_ex 0 (1 / 4) 1 1 2 (1 / 2) false false false.
Lemma p1_dark_ok jk : exists out, pydisort p1_dark lg_12 (la_ex []) jk = Ok out.
Proof. apply ex_ok; try lra. Qed.
Lemma direct_scalar : forall jk, exists p lg la out tau A B,
  linalg_ok la /\ leggauss_ok (half p) (lg (half p)) /\ pydisort p lg la jk = Ok out /\ depths_ok p tau /\ length tau = 2%nat /\
  po_flux_down out tau false false = Ok (PTup [PT A; PT B]) /\ shp B = [].
Proof.
  intros jk. destruct (p1_dark_ok jk) as (out & H). assert (Hlg : leggauss_ok (half p1_dark) (lg_12 (half p1_dark))) by exact leggauss1_ok.
  assert (Ht : depths_ok p1_dark [0; 1]) by (unfold depths_ok, bottom; cbn; intros t [<-|[<-|[]]]; lra).
  destruct (solution_exists _ lg_12 _ jk out (la_ex_ok _) Hlg H) as (w & U & F & _ & _ & _ & _ & _ & _ & _ & HD).
  destruct (HD _ Ht) as (A & B & E & _ & _ & SB). exists p1_dark, lg_12, (la_ex []), out, [0; 1], A, B.
  repeat (split; [first [assumption|apply la_ex_ok|reflexivity]|]). destruct (SB eq_refl) as [S _]. rewrite S. reflexivity.
Qed.
