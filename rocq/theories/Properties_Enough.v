(** Property C82: with enough streams every accepted atmosphere loses, and is solved. *)
From Coq Require Import String Reals Lra Lia List Bool Arith ZArith.
From Coquelicot Require Import Coquelicot.
From Verif Require Import Base Tensor Spec M_LinAlg Spec_RTE M_Subroutines M_Assemble M_Pydisort Spec_Sol Spec_Valid Spec_Calls Spec_Unique Spec_Phys Spec_Solved Spec_Sun Spec_Rates Spec_Lossy
  P_Gauss P_Rates2 P_Lossy2 P_Lossy3 P_Orth2 P_Orth3 Examples5.
Import ListNotations.
Local Open Scope R_scope.

(** C82: with NQuad at least twice NLeg, radiation of either symmetry loses in every layer and mode,
    whatever the accepted optical properties, however peaked the phase function. *)
Theorem C82_enough_streams_lose :
  forall p mu w, valid p -> double_gauss (half p) mu w -> (2 * ncoeffs p <= streams p)%nat ->
  forall m l s, (m < nmodes p)%nat -> (l < nlayers p)%nat -> s = 1 \/ s = -1 -> loses p mu w m l s.
Proof. exact enough_lose. Qed.
Print Assumptions C82_enough_streams_lose.

(** C82: so over a surface that does not amplify the call is answered exactly if the beam does not
    resonate; C80 cannot happen. *)
Theorem C82_enough_streams_solved :
  forall p rho lg la jk, well_formed p rho -> (2 * ncoeffs p <= streams p)%nat -> (forall mu w, double_gauss (half p) mu w -> no_gain p mu w rho) ->
  leggauss_ok (half p) (lg (half p)) -> linalg_ok la -> linalg_unique la -> linalg_complete la -> linalg_total la ->
  (exists out, pydisort p lg la jk = Ok out) <-> no_resonance p.
Proof. exact enough_iff. Qed.
Print Assumptions C82_enough_streams_solved.
Example C82_nonvacuous n jk : (1 <= n)%nat -> exists x out, let p := p_en n x in
  well_formed p rho34 /\ (2 * ncoeffs p <= streams p)%nat /\ (forall mu w, double_gauss (half p) mu w -> no_gain p mu w rho34) /\ leggauss_ok (half p) (gauss_rule (half p)) /\
  linalg_ok la_full /\ linalg_unique la_full /\ linalg_complete la_full /\ linalg_total la_full /\ no_resonance p /\ pydisort p gauss_rule la_full jk = Ok out /\
  nmodes p = n /\ ncoeffs p = n /\ p_omega p = [99/100] /\ henyey_greenstein p (9/10).
Proof.
  intros Hn. destruct (en_solved n jk Hn) as (x & out & Hx & HR & HO). destruct (en_sizes n x) as (E1 & E2 & _). exists x, out. cbv zeta. split; [apply en_wf; auto|]. split; [apply en_enough|].
  split; [intros; apply en_gain; auto|]. split; [apply gauss_rule_ok|]. split; [exact la_full_ok|]. split; [exact la_full_unique|]. split; [exact la_full_complete|]. split; [exact la_full_total|].
  split; [exact HR|]. split; [exact HO|]. split; [exact E2|]. split; [exact E1|]. split; [reflexivity|]. intros l k _ _. reflexivity.
Qed.
(** None of the earlier theorems covers it: with two coefficients its phase function is negative
    backwards. *)
Example C82_not_physical x mu w rho : double_gauss (half (p_en 2 x)) mu w -> ~ physical (p_en 2 x) mu w rho.
Proof. exact (en_unphysical x mu w rho). Qed.

(** C82: one coefficient more than that is too many: with NLeg = NQuad / 2 + 1 an accepted call can
    have no answer. *)
Theorem C82_sharp :
  exists p, valid p /\ (2 * ncoeffs p = streams p + 2)%nat /\ p_BDRF p = [] /\
  forall lg la jk out, leggauss_ok (half p) (lg (half p)) -> linalg_ok la -> linalg_total la -> pydisort p lg la jk <> Ok out.
Proof. exact enough_sharp. Qed.
Print Assumptions C82_sharp.

(** C82: of the positions of the sun at most NFourier * NLayers * NQuad / 2 are then not solved. *)
Theorem C82_almost_every_sun :
  forall p rho, 0 < p_I0 p -> exists L, (length L <= nmodes p * (nlayers p * half p))%nat /\
  forall x lg la jk, well_formed (at_sun p x) rho -> (2 * ncoeffs p <= streams p)%nat -> (forall mu w, double_gauss (half p) mu w -> no_gain p mu w rho) ->
  leggauss_ok (half p) (lg (half p)) -> linalg_ok la -> linalg_unique la -> linalg_complete la -> linalg_total la ->
  ((exists out, pydisort (at_sun p x) lg la jk = Ok out) <-> ~ In x L).
Proof. exact enough_suns. Qed.
Print Assumptions C82_almost_every_sun.
(** C81: the same for every atmosphere that loses. *)
Theorem C81_almost_every_sun :
  forall p rho, 0 < p_I0 p -> exists L, (length L <= nmodes p * (nlayers p * half p))%nat /\
  forall x lg la jk, lossy_input (at_sun p x) rho -> leggauss_ok (half p) (lg (half p)) -> linalg_ok la -> linalg_unique la -> linalg_complete la -> linalg_total la ->
  ((exists out, pydisort (at_sun p x) lg la jk = Ok out) <-> ~ In x L).
Proof. exact lossy_suns. Qed.
Print Assumptions C81_almost_every_sun.
(** C81: and its values depend on the inputs alone, not on which libraries compute the rule (in
    increasing order) and the linear algebra. *)
Theorem C81_only_inputs_matter :
  forall p lg lg' la la' jk jk' out out' rho, linalg_ok la -> linalg_ok la' -> leggauss_ok (half p) (lg (half p)) -> leggauss_ok (half p) (lg' (half p)) ->
  increasing (fst (lg (half p))) -> increasing (fst (lg' (half p))) ->
  pydisort p lg la jk = Ok out -> pydisort p lg' la' jk' = Ok out' -> lossy_input p rho -> same_values out out'.
Proof. exact lossy_deps. Qed.
Print Assumptions C81_only_inputs_matter.
Example C82_sun_nonvacuous n jk : (1 <= n)%nat -> 0 < p_I0 (p_en n 1) /\ (forall x, 0 < x <= 1 -> well_formed (at_sun (p_en n 1) x) rho34 /\ lossy_input (at_sun (p_en n 1) x) rho34) /\
  (2 * ncoeffs (p_en n 1) <= streams (p_en n 1))%nat /\ (forall mu w, double_gauss (half (p_en n 1)) mu w -> no_gain (p_en n 1) mu w rho34) /\
  increasing (fst (gauss_rule (half (p_en n 1)))) /\ exists x out, 0 < x <= 1 /\ pydisort (at_sun (p_en n 1) x) gauss_rule la_full jk = Ok out.
Proof.
  intros Hn. split; [cbn; lra|]. split.
  - intros x Hx. split; [exact (en_wf n x Hn Hx)|]. apply (enough_lossy (p_en n x)); [exact (en_wf n x Hn Hx)|apply en_enough|intros; apply en_gain; auto].
  - split; [apply en_enough|]. split; [intros; apply en_gain; auto; lra|]. split; [apply gauss_rule_ok|]. destruct (en_solved n jk Hn) as (x & out & Hx & _ & HO). exists x, out. auto.
Qed.
