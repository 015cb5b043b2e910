(** Whether a call is answered does not depend on the integers; the machines with 64 and 32 bits. *)
From Coq Require Import String Reals Lra Lia List Bool Arith ZArith.
From Coquelicot Require Import Coquelicot.
From Verif Require Import Base Tensor Spec M_LinAlg Spec_RTE Calc M_Subroutines M_GenPart M_MathscrV M_Coeffs M_Assemble M_Pydisort M_Ints
  P_LinA Spec_Sol P_Ints P_Ints2.
Import ListNotations.
Local Open Scope R_scope.

(** Both fail, or both succeed with related values. *)
Definition alike {A} (rel : A -> A -> Prop) (x y : res A) : Prop :=
  match x, y with Ok a, Ok b => rel a b | Err _, Err _ => True | _, _ => False end.
Lemma alike_refl {A} (rel : A -> A -> Prop) x : (forall a, rel a a) -> alike rel x x.
Proof. intros H. destruct x; cbn; auto. Qed.
Lemma alike_bind {A B} (ra : A -> A -> Prop) (rb : B -> B -> Prop) x y f g :
  alike ra x y -> (forall a b, ra a b -> alike rb (f a) (g b)) -> alike rb (bind x f) (bind y g).
Proof. intros H Hf. destruct x, y; cbn in H; try contradiction; cbn [bind]; auto. Qed.
Lemma alike_eq {A} (x y : res A) : x = y -> alike eq x y.
Proof. intros ->. apply alike_refl. auto. Qed.
Definition shp_eq (A B : tensor) : Prop := shp A = shp B.
Definition any {A} (_ _ : A) : Prop := True.

Lemma bcast2_alike f A A' B B' : shp_eq A A' -> shp_eq B B' -> alike shp_eq (bcast2 f A B) (bcast2 f A' B').
Proof. intros HA HB. unfold shp_eq in HA, HB. unfold bcast2. rewrite HA, HB. destruct (bshape _ _); [reflexivity|exact I]. Qed.
Lemma ttake_alike k ids A A' : shp_eq A A' -> alike shp_eq (ttake k ids A) (ttake k ids A').
Proof. unfold shp_eq. intros H. destruct A as [sa ea], A' as [sa' ea']. cbn [shp] in H. subst. unfold ttake. cbn [shp]. destruct (forallb _ _); [reflexivity|exact I]. Qed.

Section Alike.
  Variables (IM IM' : IntModel).

  Lemma mathscr_v_alike nr nq NL tau sc l Ns s G K gm anti :
    alike shp_eq (@mathscr_v IM nr nq NL tau sc l Ns s G K gm anti) (@mathscr_v IM' nr nq NL tau sc l Ns s G K gm anti).
  Proof.
    unfold mathscr_v. destruct (Nat.eqb Ns 1); [apply alike_refl; reflexivity|]. destruct (Nat.eqb Ns 2); [apply alike_refl; reflexivity|].
    unfold v_branchN. apply (alike_bind eq); [apply alike_refl; auto|]. intros tp _ <-.
    apply (alike_bind shp_eq); [apply ttake_alike; reflexivity|]. intros b b' _. destruct (list_eqb _ _); [reflexivity|exact I].
  Qed.

  Section Stage.
    Variable g : sc_in.
    Lemma rhs_iso_alike m bd r r' : alike any (@rhs_iso IM g m bd r) (@rhs_iso IM' g m bd r').
    Proof.
      unfold rhs_iso. destruct (_ && _)%bool; [|exact I].
      apply (alike_bind shp_eq); [apply mathscr_v_alike|]. intros a a' _.
      apply (alike_bind any).
      - destruct (sc_multi g); [|exact I]. apply (alike_bind shp_eq); [apply mathscr_v_alike|]. intros b b' Hb.
        apply (alike_bind shp_eq); [apply mathscr_v_alike|]. intros c c' Hc.
        apply (alike_bind shp_eq); [apply bcast2_alike; auto|]. intros d d' _. exact I.
      - intros b b' _. apply (alike_bind shp_eq); [apply mathscr_v_alike|]. intros c c' _.
        destruct bd as [[R X]|]; [|exact I]. apply (alike_bind shp_eq); [apply mathscr_v_alike|]. intros d d' _. exact I.
    Qed.
    Lemma rhs_bc_alike m r r' : alike any (rhs_bc g m r) (rhs_bc g m r').
    Proof.
      unfold rhs_bc. apply (alike_bind eq); [apply alike_refl; auto|]. intros a _ <-. apply (alike_bind eq); [apply alike_refl; auto|]. intros b _ <-. exact I.
    Qed.

    Variable la : linalg.
    Hypothesis Hu : linalg_unique la.
    Hypothesis Hc : linalg_complete la.
    Hypothesis Hok : linalg_ok la.

    Lemma kernel_free n (A : mat) b x : (forall i, (i < n)%nat -> rsum n (fun j => A i j * x j) = b i) ->
      (forall y, (forall i, (i < n)%nat -> rsum n (fun j => A i j * y j) = b i) -> forall i, (i < n)%nat -> y i = x i) -> inj n A.
    Proof.
      intros Hx Hun v Hv i Hi. specialize (Hun (fun j => x j + v j)). enough (x i + v i = x i) by lra. apply Hun; auto.
      intros k Hk. rewrite (rsum_ext _ _ (fun j => A k j * x j + A k j * v j)) by (intros; ring). rewrite rsum_plus, Hx, Hv by auto. ring.
    Qed.
    Lemma one_answer n (A : mat) (b : vec) : inj n A -> exists y, (forall i, (i < n)%nat -> rsum n (fun j => A i j * y j) = b i) /\
      forall z : vec, (forall i, (i < n)%nat -> rsum n (fun j => A i j * z j) = b i) -> forall i, (i < n)%nat -> z i = y i.
    Proof.
      intros HI. destruct (inj_surj n A HI b) as (y & Hy). exists y. split; [exact Hy|]. intros z Hz i Hi.
      apply Rminus_diag_uniq. apply (HI (fun j => z j - y j)); auto. intros k Hk.
      rewrite (rsum_ext _ _ (fun j => A k j * z j - A k j * y j)) by (intros; ring). rewrite rsum_minus, Hz, Hy by auto. ring.
    Qed.
    Lemma solve_any n A b b' x : la_solve la (rows n n A) (vlist n b) = Some x -> exists x', la_solve la (rows n n A) (vlist n b') = Some x'.
    Proof.
      intros E. assert (HI : inj n A).
      { apply (kernel_free n A b (of_list x)); [exact (solve_ok la Hok n A b x E)|exact (solve_unique la Hu n A b x E)]. }
      destruct (one_answer n A b' HI) as (y & Hy & Hz). exact (solve_complete la Hc n A b' y Hy Hz).
    Qed.
    Lemma banded_any n l u ab b b' x : la_solve_banded la l u ab (vlist n b) = Some x -> exists x', la_solve_banded la l u ab (vlist n b') = Some x'.
    Proof.
      intros E. assert (HI : inj n (banded_elt l u ab)).
      { apply (kernel_free n _ b (of_list x)); [exact (banded_ok la Hok n l u ab b x E)|exact (banded_unique la Hu n l u ab b x E)]. }
      destruct (one_answer n _ b' HI) as (y & Hy & Hz). exact (banded_complete la Hc n l u ab b' y Hy Hz).
    Qed.

    Definition same_lhs (s s' : sc_st) : Prop := ss_lhs s = ss_lhs s' /\ ss_dof s = ss_dof s'.
    Lemma ofopt_alike {A} (x y : option A) : (forall a, x = Some a -> exists b, y = Some b) -> (forall b, y = Some b -> exists a, x = Some a) -> alike any (ofopt x) (ofopt y).
    Proof.
      intros H1 H2. destruct x as [a|], y as [b|]; cbn; auto.
      - exact I.
      - destruct (H1 a eq_refl); discriminate.
      - destruct (H2 b eq_refl); discriminate.
    Qed.
    Lemma step_alike clob s s' m : same_lhs s s' -> alike same_lhs (@sc_step IM g la clob s m) (@sc_step IM' g la clob s' m).
    Proof.
      intros [H1 H2]. unfold sc_step. apply (alike_bind eq); [apply alike_refl; auto|]. intros bd _ <-.
      apply (alike_bind any); [apply rhs_bc_alike|]. intros r r' _. apply (alike_bind any); [apply rhs_iso_alike|]. intros q q' _.
      cbv zeta. destruct (Nat.leb _ _).
      - rewrite <- H2. apply (alike_bind eq); [apply alike_refl; auto|]. intros F _ <-.
        apply (alike_bind any); [apply ofopt_alike; intros x; apply banded_any|]. intros x x' _. split; [exact H1|reflexivity].
      - rewrite <- H1. apply (alike_bind any); [apply ofopt_alike; intros x; apply solve_any|]. intros x x' _. split; [reflexivity|exact H2].
    Qed.
    Lemma loop_alike clob l : forall x x', alike same_lhs x x' ->
      alike same_lhs (fold_left (fun rs m => let! s := rs in @sc_step IM g la clob s m) l x) (fold_left (fun rs m => let! s := rs in @sc_step IM' g la clob s m) l x').
    Proof.
      induction l as [|m l IH]; intros x x' H; [exact H|]. cbn [fold_left]. apply IH. apply (alike_bind same_lhs); [exact H|]. intros s s' Hs. apply step_alike; exact Hs.
    Qed.
    Lemma coeffs_alike clob jC jR : alike any (@solve_for_coeffs IM g la clob jC jR) (@solve_for_coeffs IM' g la clob jC jR).
    Proof.
      unfold solve_for_coeffs. apply (alike_bind same_lhs); [apply loop_alike; split; reflexivity|]. intros s s' _. exact I.
    Qed.
  End Stage.

  (** The two platforms answer the same calls. *)
  Theorem answered_same p lg la jk : linalg_ok la -> linalg_unique la -> linalg_complete la ->
    (exists out, @pydisort IM p lg la jk = Ok out) -> exists out, @pydisort IM' p lg la jk = Ok out.
  Proof.
    intros Hok Hu Hc (out & H).
    assert (A : alike any (@pydisort IM p lg la jk) (@pydisort IM' p lg la jk)).
    { unfold pydisort. apply (alike_bind eq); [apply alike_refl; auto|]. intros _ _ _. apply (alike_bind eq); [apply alike_refl; auto|]. intros _ _ _.
      apply (alike_bind eq); [apply alike_refl; auto|]. intros ss _ <-. apply (alike_bind eq); [apply alike_refl; auto|]. intros r _ <-.
      apply (alike_bind any); [|intros; exact I].
      unfold solve_all. apply (alike_bind eq); [apply alike_refl; auto|]. intros o _ <-.
      apply (alike_bind any); [apply coeffs_alike; auto|]. intros; exact I. }
    rewrite H in A. destruct (@pydisort IM' p lg la jk) as [out'|e]; [eauto|destruct A].
  Qed.
End Alike.

(** The first factorial that does not fit: 21! in 64 bits, 13! in 32 bits. *)
Definition first_bad (b : Z) (n : nat) : Prop := (b = 64%Z /\ n = 21%nat) \/ (b = 32%Z /\ n = 13%nat).
Lemma first_bad_facts b n : first_bad b n -> (2 <= n)%nat /\ (forall k, (k < n)%nat -> @np_fact (machine_ints b) k = INR (fact k)) /\
  @np_fact (machine_ints b) n <> 0 /\ @np_fact (machine_ints b) n <> INR (fact n).
Proof.
  assert (G : forall b n, (1 <= b)%Z -> (2 <= n)%nat -> (zf (n - 1) < 2 ^ (b - 1))%Z -> fac_int b n <> 0%Z -> fac_int b n <> zf n ->
    (2 <= n)%nat /\ (forall k, (k < n)%nat -> @np_fact (machine_ints b) k = INR (fact k)) /\ @np_fact (machine_ints b) n <> 0 /\ @np_fact (machine_ints b) n <> INR (fact n)).
  { clear. intros b n Hb Hn H1 H2 H3. split; [exact Hn|]. unfold np_fact, machine_ints. split; [|split].
    - intros k Hk. rewrite INR_IZR_INZ. f_equal. apply fac_fits; auto. rewrite <- zf_fact in H1. pose proof (fact_mono_Z k (n - 1) ltac:(lia)). lia.
    - intros H. apply H2. apply eq_IZR. exact H.
    - rewrite INR_IZR_INZ, zf_fact. intros H. apply H3. apply eq_IZR. exact H. }
  intros [[-> ->]|[-> ->]]; apply G; try lia; vm_compute; congruence.
Qed.
