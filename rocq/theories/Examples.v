(** A concrete instance of the external routines, used to show that the hypotheses of
    the theorems can be met. Models no function of /repo. *)
From Coq Require Import String Reals Lra Lia List Bool Arith ZArith.
From Verif Require Import Base Tensor Spec M_LinAlg Spec_RTE P_Special M_GenPart P_GenPart P_GenPart2 P_GenPart3 P_GenPart4.
Import ListNotations.
Local Open Scope R_scope.

(** Exact routines: 1 x 1 eigenproblems, 2 x 2 inverses and systems; larger systems
    succeed when [cand] is the only solution. *)
Definition cand_ok (n : nat) (A : mat) (b : list R) (cand : list R) : bool :=
  forallb (fun i => Reqb (rsum n (fun j => A i j * of_list cand j)) (of_list b i)) (seq 0 n).
Definition dec (P : Prop) : {P} + {~ P} :=
  match ClassicalDedekindReals.sig_not_dec P with left H => left (Classical_Prop.NNPP P H) | right H => right H end.
Definition cand_only (n : nat) (A : mat) (b : list R) (cand : list R) : bool :=
  if dec (forall y : vec, (forall i, (i < n)%nat -> rsum n (fun j => A i j * y j) = of_list b i) -> forall i, (i < n)%nat -> y i = of_list cand i)
  then true else false.
Definition la_ex (cand : list R) : linalg := {|
  la_eig := fun L => match L with [[a]] => Some ([a], [[1]]) | _ => None end;
  la_inv := fun L => match L with
    | [[a; b]; [c; d]] => if Reqb (a * d - b * c) 0 then None
        else Some [[d / (a * d - b * c); - b / (a * d - b * c)]; [- c / (a * d - b * c); a / (a * d - b * c)]]
    | _ => None end;
  la_solve := fun L v => match L, v with
    | [[a; b]; [c; d]], [x; y] => if Reqb (a * d - b * c) 0 then None
        else Some [(d * x - b * y) / (a * d - b * c); (a * y - c * x) / (a * d - b * c)]
    | _, _ => if (cand_ok (length v) (of_rows L) v cand && cand_only (length v) (of_rows L) v cand)%bool then Some cand else None end;
  la_solve_banded := fun l u ab v => if (cand_ok (length v) (banded_elt l u ab) v cand && cand_only (length v) (banded_elt l u ab) v cand)%bool then Some cand else None
|}.

Lemma cand_ok_spec n A b c : cand_ok n A b c = true ->
  forall i, (i < n)%nat -> rsum n (fun j => A i j * of_list c j) = of_list b i.
Proof.
  intros H i Hi. unfold cand_ok in H. rewrite forallb_forall in H. apply Reqb_iff. apply H. apply in_seq. lia.
Qed.
Lemma vlist_length n b : length (vlist n b) = n.
Proof. unfold vlist. rewrite map_length, seq_length. auto. Qed.
Lemma rows_length n m A : length (rows n m A) = n.
Proof. unfold rows. rewrite map_length, seq_length. auto. Qed.

Lemma rows1 A : rows 1 1 A = [[A 0%nat 0%nat]]. Proof. reflexivity. Qed.
Lemma rows2 A : rows 2 2 A = [[A 0%nat 0%nat; A 0%nat 1%nat]; [A 1%nat 0%nat; A 1%nat 1%nat]]. Proof. reflexivity. Qed.

Lemma la_ex_ok cand : linalg_ok (la_ex cand).
Proof.
  constructor.
  - intros n A k E H. assert (n = 1%nat) as ->.
    { pose proof (rows_length n n A) as HL. cbn [la_eig la_ex] in H.
      destruct (rows n n A) as [|[|x [|y r]] [|r' L]]; try discriminate. simpl in HL. lia. }
    rewrite rows1 in H. cbn [la_eig la_ex] in H. inversion H; subst. intros i j Hi Hj.
    assert (i = 0%nat) by lia. assert (j = 0%nat) by lia. subst. unfold of_rows, of_list. simpl. ring.
  - intros n A B H. assert (n = 2%nat) as ->.
    { pose proof (rows_length n n A) as HL. cbn [la_inv la_ex] in H.
      destruct (rows n n A) as [|r1 [|r2 [|r3 L]]]; try (destruct r1 as [|? [|? [|? ?]]]; discriminate); try discriminate; [simpl in HL; lia|].
      destruct r1 as [|? [|? [|? ?]]]; try discriminate. destruct r2 as [|? [|? [|? ?]]]; discriminate. }
    rewrite rows2 in H. cbn [la_inv la_ex] in H.
    set (D := A 0%nat 0%nat * A 1%nat 1%nat - A 0%nat 1%nat * A 1%nat 0%nat) in *.
    destruct (Reqb D 0) eqn:ED; [discriminate|]. apply Reqb_false in ED. inversion H; subst; clear H.
    intros i j Hi Hj. unfold of_rows.
    assert (E1 : A 0%nat 0%nat * A 1%nat 1%nat = D + A 0%nat 1%nat * A 1%nat 0%nat) by (unfold D; ring). clearbody D.
    assert (Hc : (i = 0 \/ i = 1)%nat) by lia. assert (Hc' : (j = 0 \/ j = 1)%nat) by lia.
    destruct Hc as [-> | ->]; destruct Hc' as [-> | ->]; cbn [rsum nth delta Nat.eqb]; unfold delta; cbn [Nat.eqb];
      field_simplify_eq; auto; lra.
  - intros n A b x H i Hi. cbn [la_solve la_ex] in H.
    destruct (Nat.eq_dec n 2) as [->|Hn].
    + rewrite rows2 in H. change (vlist 2 b) with [b 0%nat; b 1%nat] in H.
      set (D := A 0%nat 0%nat * A 1%nat 1%nat - A 0%nat 1%nat * A 1%nat 0%nat) in *.
      destruct (Reqb D 0) eqn:ED; [discriminate|]. apply Reqb_false in ED. inversion H; subst; clear H.
      assert (E1 : A 0%nat 0%nat * A 1%nat 1%nat = D + A 0%nat 1%nat * A 1%nat 0%nat) by (unfold D; ring). clearbody D.
      assert (Hc : (i = 0 \/ i = 1)%nat) by lia.
      destruct Hc as [-> | ->]; cbn [rsum]; unfold of_list; cbn [nth]; field_simplify_eq; auto.
      * replace (A 0%nat 0%nat * A 1%nat 1%nat * b 0%nat) with ((A 0%nat 0%nat * A 1%nat 1%nat) * b 0%nat) by ring. rewrite E1. ring.
      * replace (A 0%nat 0%nat * A 1%nat 1%nat * b 1%nat) with ((A 0%nat 0%nat * A 1%nat 1%nat) * b 1%nat) by ring.
        match goal with |- ?L = _ => replace L with ((A 0%nat 0%nat * A 1%nat 1%nat) * b 1%nat - A 0%nat 1%nat * A 1%nat 0%nat * b 1%nat) by ring end.
        rewrite E1. ring.
    + assert (H' : (if (cand_ok (length (vlist n b)) (of_rows (rows n n A)) (vlist n b) cand && cand_only (length (vlist n b)) (of_rows (rows n n A)) (vlist n b) cand)%bool then Some cand else None) = Some x).
      { rewrite <- H. pose proof (rows_length n n A) as HL.
        destruct (rows n n A) as [|[|a [|b0 [|]]] [|[|c [|d [|]]] [|]]]; auto.
        destruct (vlist n b) as [|v0 [|v1 [|]]]; auto. simpl in HL. lia. }
      destruct (cand_ok _ _ _ _) eqn:Ec; [|discriminate]. destruct (cand_only _ _ _ _); [|discriminate]. inversion H'; subst.
      rewrite vlist_length in Ec. pose proof (cand_ok_spec _ _ _ _ Ec i Hi) as C. rewrite of_list_vlist in C by auto.
      rewrite <- C. apply rsum_ext. intros j Hj. rewrite of_rows_rows by auto. reflexivity.
  - intros n l u ab b x H i Hi. cbn [la_solve_banded la_ex] in H.
    destruct (cand_ok _ _ _ _) eqn:Ec; [|discriminate]. destruct (cand_only _ _ _ _); [|discriminate]. inversion H; subst.
    rewrite vlist_length in Ec. pose proof (cand_ok_spec _ _ _ _ Ec i Hi) as C. rewrite of_list_vlist in C by auto. auto.
Qed.

Lemma cand_only_iff n A b c : cand_only n A b c = true <->
  forall y : vec, (forall i, (i < n)%nat -> rsum n (fun j => A i j * y j) = of_list b i) -> forall i, (i < n)%nat -> y i = of_list c i.
Proof. unfold cand_only. destruct (dec _); intuition discriminate. Qed.
Lemma la_ex_unique cand : linalg_unique (la_ex cand).
Proof.
  constructor.
  - intros n A b x H y Hy i Hi. cbn [la_solve la_ex] in H.
    destruct (Nat.eq_dec n 2) as [->|Hn].
    + rewrite rows2 in H. change (vlist 2 b) with [b 0%nat; b 1%nat] in H.
      set (D := A 0%nat 0%nat * A 1%nat 1%nat - A 0%nat 1%nat * A 1%nat 0%nat) in *.
      destruct (Reqb D 0) eqn:ED; [discriminate|]. apply Reqb_false in ED. inversion H; subst; clear H.
      pose proof (Hy 0%nat ltac:(lia)) as H0. pose proof (Hy 1%nat ltac:(lia)) as H1. cbn [rsum] in H0, H1.
      assert (Hc : (i = 0 \/ i = 1)%nat) by lia.
      destruct Hc as [-> | ->]; unfold of_list; cbn [nth]; apply Rmult_eq_reg_r with D; auto; field_simplify; auto; rewrite <- H0, <- H1; unfold D; ring.
    + assert (H' : (if (cand_ok (length (vlist n b)) (of_rows (rows n n A)) (vlist n b) cand && cand_only (length (vlist n b)) (of_rows (rows n n A)) (vlist n b) cand)%bool then Some cand else None) = Some x).
      { rewrite <- H. pose proof (rows_length n n A) as HL.
        destruct (rows n n A) as [|[|a [|b0 [|]]] [|[|c [|d [|]]] [|]]]; auto.
        destruct (vlist n b) as [|v0 [|v1 [|]]]; auto. simpl in HL. lia. }
      destruct (cand_ok _ _ _ _); [|discriminate]. destruct (cand_only _ _ _ _) eqn:Ec; [|discriminate]. inversion H'; subst.
      rewrite vlist_length in Ec. apply (proj1 (cand_only_iff _ _ _ _) Ec y); auto. intros k Hk. rewrite of_list_vlist by auto. rewrite <- Hy by auto.
      apply rsum_ext. intros j Hj. rewrite of_rows_rows by auto. reflexivity.
  - intros n l u ab b x H y Hy i Hi. cbn [la_solve_banded la_ex] in H.
    destruct (cand_ok _ _ _ _); [|discriminate]. destruct (cand_only _ _ _ _) eqn:Ec; [|discriminate]. inversion H; subst.
    rewrite vlist_length in Ec. apply (proj1 (cand_only_iff _ _ _ _) Ec y); auto. intros k Hk. rewrite of_list_vlist by auto. apply Hy; auto.
Qed.

(** Exact solvers for all sizes (not computable); eigenproblems and inverses as above. *)
Lemma the_bound (P : R -> Prop) : (exists! x, P x) -> bound P.
Proof. intros (x & _ & Hu). exists x. intros y Hy. rewrite (Hu y Hy). lra. Qed.
Lemma the_ex (P : R -> Prop) : (exists! x, P x) -> exists x, P x.
Proof. intros (x & Hx & _). eauto. Qed.
Definition the (P : R -> Prop) : R :=
  match dec (exists! x, P x) with
  | left H => proj1_sig (completeness P (the_bound P H) (the_ex P H))
  | right _ => 0
  end.
Lemma the_spec (P : R -> Prop) x : P x -> (forall y, P y -> y = x) -> the P = x.
Proof.
  intros Hx Hu. unfold the. destruct (dec _) as [H|H].
  - destruct (completeness P _ _) as [m [H1 H2]]. cbn. apply Rle_antisym; [apply H2; intros y Hy; rewrite (Hu y Hy); lra|apply H1; exact Hx].
  - exfalso. apply H. exists x. split; [exact Hx|]. intros y Hy. symmetry. auto.
Qed.
Definition sol (n : nat) (A : mat) (b y : vec) : Prop := forall i, (i < n)%nat -> rsum n (fun j => A i j * y j) = b i.
Definition solvable (n : nat) (A : mat) (b : vec) : Prop := exists y, sol n A b y /\ forall z, sol n A b z -> forall i, (i < n)%nat -> z i = y i.
Definition the_sol (n : nat) (A : mat) (b : vec) : option (list R) :=
  if dec (solvable n A b) then Some (vlist n (fun i => the (fun x => exists y, sol n A b y /\ y i = x))) else None.
Lemma the_sol_spec n A b x : the_sol n A b = Some x -> sol n A b (of_list x) /\ forall z, sol n A b z -> forall i, (i < n)%nat -> z i = of_list x i.
Proof.
  unfold the_sol. destruct (dec _) as [(y & Hy & Hu)|]; [|discriminate]. intros H. injection H as <-.
  assert (E : forall i, (i < n)%nat -> of_list (vlist n (fun i => the (fun x => exists y, sol n A b y /\ y i = x))) i = y i).
  { intros i Hi. rewrite of_list_vlist by auto. apply the_spec; [eauto|]. intros x (z & Hz & <-). apply Hu; auto. }
  split.
  - intros i Hi. rewrite <- (Hy i Hi). apply rsum_ext. intros j Hj. rewrite E by auto. reflexivity.
  - intros z Hz i Hi. rewrite E by auto. apply Hu; auto.
Qed.
Lemma the_sol_ext n A A' b b' : (forall i j, (i < n)%nat -> (j < n)%nat -> A i j = A' i j) -> (forall i, (i < n)%nat -> b i = b' i) ->
  forall y, sol n A b y -> sol n A' b' y.
Proof. intros HA Hb y H i Hi. rewrite <- Hb, <- (H i Hi) by auto. apply rsum_ext. intros j Hj. rewrite HA by auto. reflexivity. Qed.
Definition la_id : linalg := {|
  la_eig := la_eig (la_ex []); la_inv := la_inv (la_ex []);
  la_solve := fun L v => the_sol (length v) (of_rows L) (of_list v);
  la_solve_banded := fun l u ab v => the_sol (length v) (banded_elt l u ab) (of_list v) |}.
Lemma la_id_ok : linalg_ok la_id.
Proof.
  destruct (la_ex_ok []) as [H1 H2 _ _]. constructor; [exact H1|exact H2| |].
  - intros n A b x H. cbn [la_solve la_id] in H. apply the_sol_spec in H as [H _]. rewrite vlist_length in H.
    refine (the_sol_ext n _ _ _ _ _ _ _ H); intros; [apply of_rows_rows|apply of_list_vlist]; auto.
  - intros n l u ab b x H. cbn [la_solve_banded la_id] in H. apply the_sol_spec in H as [H _]. rewrite vlist_length in H.
    refine (the_sol_ext n _ _ _ _ _ _ _ H); intros; [reflexivity|apply of_list_vlist]; auto.
Qed.
Lemma la_id_unique : linalg_unique la_id.
Proof.
  constructor.
  - intros n A b x H y Hy. cbn [la_solve la_id] in H. apply the_sol_spec in H as [_ H]. rewrite vlist_length in H.
    apply H. refine (the_sol_ext n _ _ _ _ _ _ _ Hy); intros; symmetry; [apply of_rows_rows|apply of_list_vlist]; auto.
  - intros n l u ab b x H y Hy. cbn [la_solve_banded la_id] in H. apply the_sol_spec in H as [_ H]. rewrite vlist_length in H.
    apply H. refine (the_sol_ext n _ _ _ _ _ _ _ Hy); intros; symmetry; [reflexivity|apply of_list_vlist]; auto.
Qed.
Lemma la_id_complete : linalg_complete la_id.
Proof.
  constructor.
  - intros n A b y Hy Hu. cbn [la_solve la_id]. rewrite vlist_length. unfold the_sol. destruct (dec _) as [|H]; [eauto|]. exfalso. apply H. exists y. split.
    + refine (the_sol_ext n _ _ _ _ _ _ _ Hy); intros; symmetry; [apply of_rows_rows|apply of_list_vlist]; auto.
    + intros z Hz. apply Hu. refine (the_sol_ext n _ _ _ _ _ _ _ Hz); intros; [apply of_rows_rows|apply of_list_vlist]; auto.
  - intros n l u ab b y Hy Hu. cbn [la_solve_banded la_id]. rewrite vlist_length. unfold the_sol. destruct (dec _) as [|H]; [eauto|]. exfalso. apply H. exists y. split.
    + refine (the_sol_ext n _ _ _ _ _ _ _ Hy); intros; symmetry; [reflexivity|apply of_list_vlist]; auto.
    + intros z Hz. apply Hu. refine (the_sol_ext n _ _ _ _ _ _ _ Hz); intros; [reflexivity|apply of_list_vlist]; auto.
Qed.

(** One isotropically scattering layer over one absorbing layer; two streams at +-1/2. *)
Definition g_ex (NF : nat) (beam iso : bool) : gp_in := {|
  gp_NFourier := NF; gp_omega := fun l => if Nat.eqb l 0 then 3 / 4 else 0;
  gp_mu := fun _ => 1 / 2; gp_M_inv := fun _ => 2; gp_W := fun _ => 1;
  gp_N := 1; gp_NLeg := 1; gp_NLayers := 2; gp_wLeg := fun _ _ => 1;
  gp_mu0 := 1 / 2; gp_I0_div_4pi := 1; gp_beam := beam; gp_iso := iso |}.

Lemma lpmv_00 x : lpmv 0 0 x = 1.
Proof. rewrite lpmv_0. apply legendre_0. Qed.

Lemma g_ex_scatters NF beam iso l : scatters (g_ex NF beam iso) 0 l = Nat.eqb l 0.
Proof.
  unfold scatters, om_leg. cbn -[Rltb Rabs]. destruct (Nat.eqb l 0).
  - rewrite Rltb_t; [reflexivity|]. rewrite Rabs_right; lra.
  - rewrite Rltb_f; [reflexivity|]. replace (0 / 2 * 1) with 0 by lra. rewrite Rabs_R0. lra.
Qed.
Lemma g_ex_no_scatter_hi NF beam iso m l : scatters (g_ex NF beam iso) (S m) l = false.
Proof. reflexivity. Qed.

Lemma g_ex_ab NF beam iso : alpha (g_ex NF beam iso) 0 0 0%nat 0%nat = -5 / 4 /\ beta (g_ex NF beam iso) 0 0 0%nat 0%nat = 3 / 4.
Proof.
  unfold alpha, beta, D_pos, D_neg, D_temp, om_leg, leg_neg, leg_pos, gp_poch, signs, delta.
  cbn -[lpmv poch_term]. rewrite lpmv_00, poch_0. split; field.
Qed.

Lemma g_ex_eig NF beam iso cand : exists e, gp_eig (g_ex NF beam iso) (la_ex cand) (cA (g_ex NF beam iso) 0 0) = Ok e /\ fst e 0%nat = 1 /\ snd e 0%nat 0%nat = 1.
Proof.
  unfold gp_eig. destruct (g_ex_ab NF beam iso) as [Ha Hb].
  cbn [g_ex gp_N]. rewrite rows1. cbn [la_eig la_ex ofopt bind]. unfold mmul. cbn [rsum].
  unfold cA. cbn [g_ex gp_N Nat.add Nat.ltb Nat.leb Nat.sub]. fold (g_ex NF beam iso). rewrite Ha, Hb.
  replace (0 + (-5 / 4 - 3 / 4) * (-5 / 4 + 3 / 4)) with 1 by lra.
  cbn [forallb seq]. unfold of_list at 1. cbn [nth]. rewrite Rltb_t by lra. cbn [andb].
  eexists. split; [reflexivity|]. cbn [fst snd]. unfold of_list, of_rows. cbn [nth]. split; [apply sqrt_1|reflexivity].
Qed.

Lemma g_ex_good NF beam iso cand : gp_good (g_ex NF beam iso) (la_ex cand).
Proof.
  intros m l Hm Hl Hs. destruct m as [|m]; [|rewrite g_ex_no_scatter_hi in Hs; discriminate].
  rewrite g_ex_scatters in Hs. apply Nat.eqb_eq in Hs. subst l.
  destruct (g_ex_eig NF beam iso cand) as (e & He & E1 & E2). exists e. split; [exact He|].
  destruct (g_ex_ab NF beam iso) as [Ha Hb].
  split.
  - intros _ _. split.
    + cbn [g_ex gp_N Nat.mul Nat.add]. rewrite rows2. fold (g_ex NF beam iso). unfold blockG. cbn [g_ex gp_N Nat.ltb Nat.leb Nat.sub].
      fold (g_ex NF beam iso). unfold gp_P, gp_Q, mmul. cbn [g_ex gp_N rsum Nat.add]. fold (g_ex NF beam iso).
      unfold cA. cbn [g_ex gp_N Nat.add Nat.ltb Nat.leb Nat.sub]. fold (g_ex NF beam iso). rewrite Ha, Hb, E1, E2.
      cbn [la_inv la_ex]. rewrite Reqb_f; [eauto|]. lra.
    + intros _ j Hj. cbn in Hj. assert (j = 0%nat) by lia. subst j. rewrite E1. cbn. lra.
  - intros _ _. cbn [g_ex gp_N Nat.mul Nat.add]. rewrite rows2. fold (g_ex NF beam iso).
    change (vlist 2 (cX (g_ex NF beam iso) 0 0)) with [cX (g_ex NF beam iso) 0 0 0%nat; cX (g_ex NF beam iso) 0 0 1%nat].
    cbn [la_solve la_ex]. unfold A_full, setblk. cbn [g_ex gp_N gp_mu0 Nat.add Nat.ltb Nat.leb Nat.sub andb]. fold (g_ex NF beam iso).
    unfold cA. cbn [g_ex gp_N Nat.add Nat.ltb Nat.leb Nat.sub]. fold (g_ex NF beam iso). rewrite Ha, Hb. unfold delta. cbn [Nat.eqb].
    rewrite Reqb_f; [eauto|]. lra.
Qed.
