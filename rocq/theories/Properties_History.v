(** C96: what the caller does after the call. *)
From Coq Require Import String Reals Lra Lia List Bool Arith ZArith.
From Verif Require Import Base Tensor Spec M_LinAlg Spec_RTE M_Subroutines M_Assemble M_Pydisort M_History Spec_Sol Spec_History P_History P_History2
  P_Sub3 P_Special Spec_Phys Spec_Solved P_Spec6 P_Spec7 Examples Examples2 Examples3 Examples5 Examples6 Examples10.
Import ListNotations.
Local Open Scope R_scope.

(** C96: false of the code: whenever tau_arr was given as an array, writing into it afterwards makes
    the returned functions reject the bottom of the atmosphere, or accept depths below it. *)
Theorem C96_depths_refuted :
  forall p lg la jk out, linalg_ok la -> leggauss_ok (half p) (lg (half p)) -> pydisort p lg la jk = Ok out ->
  forall given, given ATau = true ->
  (exists A e, answer out (CU0 [bottom p] false false false) = Ok (PVal (PT A)) /\
     session p lg la jk given [Write ATau [(nlayers p - 1)%nat] (bottom p / 2); Call (CU0 [bottom p] false false false)] = Ok [Err e]) /\
  (exists e A, answer out (CU0 [2 * bottom p] false false false) = Err e /\
     session p lg la jk given [Write ATau [(nlayers p - 1)%nat] (2 * bottom p); Call (CU0 [2 * bottom p] false false false)] = Ok [Ok (PVal (PT A))]).
Proof.
  intros p lg la jk out H1 H2 H3 given Hg. split.
  - destruct (bottom_lost p lg la jk out H1 H2 H3 given Hg) as (A & E1 & E2). exact (ex_intro _ A (ex_intro _ _ (conj E1 E2))).
  - exact (below_accepted p lg la jk out H1 H2 H3 given Hg).
Qed.
Print Assumptions C96_depths_refuted.
(** Sorting the returned directions in place changes the intensity, silently. *)
Theorem C96_directions_refuted :
  forall jk given, exists p lg la out A A', linalg_ok la /\ leggauss_ok (half p) (lg (half p)) /\ pydisort p lg la jk = Ok out /\
  po_mu out = [1/2; -1/2] /\
  answer out (CU [0] [PI/2] false false false) = Ok (PVal (PT A)) /\
  session p lg la jk given [Write AMu [0%nat] (-1/2); Write AMu [1%nat] (1/2); Call (CU [0] [PI/2] false false false)] = Ok [Ok (PVal (PT A'))] /\
  elt A [0%nat] <> elt A' [0%nat].
Proof.
  intros jk given. destruct (an_sorted jk given) as (out & A & A' & E1 & E2 & E3 & E4). exists p_an, lg_12, la_full, out, A, A'.
  split; [exact la_full_ok|]. split; [exact lg_12_ok1|]. split; [exact E1|]. split; [|split; [exact E2|split; [exact E3|exact E4]]].
  destruct (P_Pydisort2.pydisort_parts _ _ _ _ _ E1) as (_ & ss & r & sv & _ & _ & _ & E & _). rewrite E. exact an_mu.
Qed.
Print Assumptions C96_directions_refuted.
(** What holds: whatever the history, the calls give what they give right after [pydisort], as long
    as each of them is made while the fragile arrays (Spec_History) hold their first contents. *)
Theorem C96_later_writes_partial :
  forall p lg la jk out, leggauss_ok (half p) (lg (half p)) -> pydisort p lg la jk = Ok out ->
  forall given h,
  (forall h1 c h2, h = h1 ++ Call c :: h2 -> forall x, fragile p given x -> forall i, after (start p lg) h1 x i = start p lg x i) ->
  session p lg la jk given h = Ok (map (answer out) (calls h)).
Proof. exact session_fresh. Qed.
Print Assumptions C96_later_writes_partial.
(** In particular whatever is written into the other arrays. *)
Theorem C96_other_arrays_partial :
  forall p lg la jk out, leggauss_ok (half p) (lg (half p)) -> pydisort p lg la jk = Ok out ->
  forall given h, (forall x i v, In (Write x i v) h -> ~ fragile p given x) ->
  session p lg la jk given h = Ok (map (answer out) (calls h)).
Proof. exact session_untouched. Qed.
Print Assumptions C96_other_arrays_partial.
(** A history that fills the albedos and coefficients with 0, doubles tau_arr and puts it back. *)
Example C96_nonvacuous jk given : exists out h, leggauss_ok (half p_an) (lg_12 (half p_an)) /\ pydisort p_an lg_12 la_full jk = Ok out /\
  h = [Write AOmega [0%nat] 0; Write ALeg [0%nat; 1%nat] 0; Call (CUp [1] false false); Write ATau [1%nat] 6; Write ATau [1%nat] 3; Call (CU [0] [PI/2] false false false)] /\
  (forall h1 c h2, h = h1 ++ Call c :: h2 -> forall x, fragile p_an given x -> forall i, after (start p_an lg_12) h1 x i = start p_an lg_12 x i).
Proof.
  destruct (posed_ok p_an _ lg_12 la_full jk an_input an_free lg_12_ok1 la_full_ok la_full_complete la_full_total) as (out & Hok).
  exists out. eexists. split; [exact lg_12_ok1|]. split; [exact Hok|]. split; [reflexivity|].
  intros h1 c h2 Eh x Hx i.
  destruct h1 as [|e1 h1]; [discriminate|]. injection Eh as <- Eh. destruct h1 as [|e2 h1]; [discriminate|]. injection Eh as <- Eh.
  destruct h1 as [|e3 h1].
  - destruct x; cbn in Hx; try contradiction; reflexivity.
  - injection Eh as <- Eh. destruct h1 as [|e4 h1]; [discriminate|]. injection Eh as <- Eh. destruct h1 as [|e5 h1]; [discriminate|]. injection Eh as <- Eh.
    destruct h1 as [|e6 h1].
    + destruct x; cbn in Hx; try contradiction; try reflexivity. cbn [after]. unfold write. cbn [arr_eqb andb].
      destruct (list_eqb [1%nat] i) eqn:E; [|reflexivity]. apply list_eqb_iff in E. subst i. reflexivity.
    + injection Eh as _ Eh. destruct h1; discriminate.
Qed.
