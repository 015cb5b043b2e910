(** The sun angles at which a beam resonates are finitely many. *)
From Coq Require Import String Reals Lra Lia List Bool Arith ZArith Classical.
From Coquelicot Require Import Coquelicot.
From Verif Require Import Base Tensor Spec M_LinAlg Spec_RTE M_Subroutines M_Assemble M_Pydisort P_LinA Spec_Sol Spec_Valid Spec_Calls Spec_Phys Spec_Solved Spec_Sym Spec_Sun P_Unique2 P_Pydisort2 P_Max3 P_Sym P_Spec6 P_Spec7.
Import ListNotations.
Local Open Scope R_scope.

(** At most as many eigenvalues as rows. *)
Lemma eig_count n m (A G : mat) (K : vec) :
  (forall i j, (i < n)%nat -> (j < m)%nat -> rsum n (fun p => A i p * G p j) = G i j * K j) ->
  (forall j k, (j < m)%nat -> (k < m)%nat -> j <> k -> K j <> K k) -> (forall j, (j < m)%nat -> exists i, (i < n)%nat /\ G i j <> 0) -> (m <= n)%nat.
Proof.
  intros HA HK HG. destruct (Nat.le_gt_cases m n) as [|H]; auto. exfalso. destruct (kernel_ex n m G H) as (c & (j0 & Hj0 & Hc0) & Hc). apply Hc0.
  assert (P : forall k, (k <= m)%nat -> forall c : vec, (forall i, (i < n)%nat -> rsum m (fun j => G i j * c j) = 0) -> (forall j, (k <= j < m)%nat -> c j = 0) -> forall j, (j < m)%nat -> c j = 0).
  { clear c j0 Hj0 Hc0 Hc. induction k; intros Hk c Hc Hz; [intros; apply Hz; lia|].
    assert (Z : forall j, (j < m)%nat -> (K j - K k) * c j = 0).
    { apply (IHk ltac:(lia) (fun j => (K j - K k) * c j)).
      - intros i Hi. rewrite (rsum_ext m _ (fun j => rsum n (fun p => A i p * (G p j * c j)) - K k * (G i j * c j))).
        2:{ intros q Hq. rewrite (rsum_ext n (fun p => A i p * (G p q * c q)) (fun p => A i p * G p q * c q)) by (intros; ring). rewrite rsum_scal_r, HA by auto. ring. }
        rewrite rsum_minus, rsum_scal, Hc, rsum_swap by auto. rewrite rsum_0; [ring|]. intros p Hp. rewrite rsum_scal, Hc by auto. ring.
      - intros q Hq. destruct (Nat.eq_dec q k) as [->|]; [ring|]. rewrite Hz by lia. ring. }
    assert (Z' : forall j, (j < m)%nat -> j <> k -> c j = 0).
    { intros j Hj Hn. specialize (Z j Hj). apply Rmult_integral in Z as [Z|Z]; auto. exfalso. apply (HK j k Hj ltac:(lia) Hn). lra. }
    intros j Hj. destruct (Nat.eq_dec j k) as [->|]; [|apply Z'; auto]. destruct (HG k Hj) as (i & Hi & Hne). specialize (Hc i Hi).
    rewrite (rsum_single m k) in Hc; auto; [|intros q Hq Hn; rewrite Z' by auto; ring]. apply Rmult_integral in Hc as [Hc|Hc]; [contradiction|auto]. }
  apply (P m ltac:(lia) c Hc); auto. intros; lia.
Qed.

(** A set of reals without more than [n] elements is the set of elements of a list. *)
Lemma finite_list (P : R -> Prop) n : (forall l, NoDup l -> (forall x, In x l -> P x) -> (length l <= n)%nat) -> exists L, (length L <= n)%nat /\ forall x, P x <-> In x L.
Proof.
  intros H.
  assert (G : forall k l, (n - length l <= k)%nat -> NoDup l -> (forall x, In x l -> P x) -> exists L, (length L <= n)%nat /\ forall x, P x <-> In x L).
  { induction k; intros l Hk Hl Pl.
    - exists l. split; [auto|]. intros x. split; auto. intros Px. destruct (in_dec Req_EM_T x l) as [|N]; auto. exfalso.
      specialize (H (x :: l)). cbn [length] in H. assert (S (length l) <= n)%nat; [|lia]. apply H; [constructor; auto|]. intros y [<-|Hy]; auto.
    - destruct (classic (exists x, P x /\ ~ In x l)) as [(x & Px & Nx)|N].
      + apply (IHk (x :: l)); [cbn; lia|constructor; auto|]. intros y [<-|Hy]; auto.
      + exists l. split; [auto|]. intros x. split; auto. intros Px. apply NNPP. intros Nx. apply N. eauto. }
  apply (G n []); [cbn; lia|constructor|intros x []].
Qed.

Section Sun.
  Variable p : py_in.
  Variables (mu : list R) (w : nat -> R).
  Hypothesis HD : double_gauss (half p) mu w.
  Hypothesis Es : streams p = (2 * half p)%nat.
  Let N := half p.

  Definition ker (m l : nat) : mat := fun i j => wnode N w j * D_spec (albedo_s p l) (wphase_s p l) (ncoeffs p) m (nth i mu 0) (nth j mu 0).
  Lemma ker_opp m l i j : (i < 2 * N)%nat -> (j < 2 * N)%nat -> ker m l (opposite N i) (opposite N j) = ker m l i j.
  Proof. intros Hi Hj. unfold ker. rewrite wnode_opp, !(mu_opp N mu w), D_spec_opp by auto. reflexivity. Qed.
  Definition evec (m l : nat) (k : R) (v : vec) : Prop := (exists i, (i < 2 * N)%nat /\ v i <> 0) /\
    forall i, (i < 2 * N)%nat -> nth i mu 0 * (- k * v i) = v i - rsum (2 * N) (fun j => ker m l i j * v j).
  Lemma evec_opp m l k v : evec m l k v -> evec m l (- k) (fun i => v (opposite N i)).
  Proof.
    intros ((i0 & Hi0 & Hv0) & Hv). split.
    - exists (opposite N i0). split; [apply opp_lt; auto|]. rewrite opp_inv; auto.
    - intros i Hi. pose proof (Hv (opposite N i) (opp_lt N i Hi)) as E. rewrite (mu_opp N mu w i HD Hi) in E.
      rewrite <- (rsum_opposite N) in E. rewrite (rsum_ext (2 * N) _ (fun j => ker m l i j * v (opposite N j))) in E by (intros; rewrite ker_opp; auto). lra.
  Qed.
  Lemma sun_bound m l L : NoDup L -> (forall x, In x L -> 0 < x /\ resonant (at_sun p x) mu w m l) -> (length L <= N)%nat.
  Proof.
    intros HL HR. set (k := length L).
    destruct (fin_choice (fun _ : nat => 0) (fun j v => evec m l (/ nth j L 0) v) k) as (v & Hv).
    { intros j Hj. destruct (HR (nth j L 0)) as (_ & _ & v & H0 & H1); [apply nth_In; auto|]. exists v.
      change (streams (at_sun p (nth j L 0))) with (streams p) in *. rewrite Es in *. split; auto. }
    enough (2 * k <= 2 * N)%nat by lia.
    apply (eig_count (2 * N) (2 * k) (fun i j => - / nth i mu 0 * (delta i j - ker m l i j)) (fun i j => if Nat.ltb j k then v j i else v (j - k)%nat (opposite N i))
      (fun j => if Nat.ltb j k then / nth j L 0 else - / nth (j - k) L 0)).
    - intros i j Hi Hj.
      assert (G : forall c (u : vec), evec m l c u -> rsum (2 * N) (fun q => - / nth i mu 0 * (delta i q - ker m l i q) * u q) = u i * c).
      { intros c u (_ & Hu). specialize (Hu i Hi). rewrite (rsum_ext (2 * N) _ (fun q => - / nth i mu 0 * (delta i q * u q - ker m l i q * u q))) by (intros; ring).
        rewrite rsum_scal, rsum_minus, rsum_delta_l by auto. rewrite <- Hu. field. 
        pose proof HD as (_ & HM & _). destruct (Nat.lt_ge_cases i N) as [H|H]; [pose proof (HM i H); lra|]. destruct (HM (i - N)%nat ltac:(lia)) as (H1 & H2 & _). replace (half p + (i - N))%nat with i in H2 by (unfold N in *; lia). lra. }
      destruct (Nat.ltb_spec j k) as [H|H]; [apply G, Hv; auto|]. apply (G _ (fun i => v (j - k)%nat (opposite N i))). apply evec_opp, Hv. lia.
    - intros i j Hi Hj Hn.
      assert (Pos : forall q, (q < k)%nat -> 0 < / nth q L 0) by (intros q Hq; apply Rinv_0_lt_compat, HR, nth_In; auto).
      assert (Inj : forall a b, (a < k)%nat -> (b < k)%nat -> / nth a L 0 = / nth b L 0 -> a = b).
      { intros a b Ha Hb E. apply (proj1 (NoDup_nth L 0) HL); auto. rewrite <- (Rinv_inv (nth a L 0)), E, Rinv_inv. reflexivity. }
      destruct (Nat.ltb_spec i k), (Nat.ltb_spec j k); intros E.
      + apply Hn, Inj; auto.
      + pose proof (Pos i ltac:(lia)). pose proof (Pos (j - k)%nat ltac:(lia)). lra.
      + pose proof (Pos j ltac:(lia)). pose proof (Pos (i - k)%nat ltac:(lia)). lra.
      + assert (i - k = j - k)%nat by (apply Inj; [lia|lia|lra]). lia.
    - intros j Hj. destruct (Nat.ltb_spec j k) as [H|H]; [apply Hv; auto|]. destruct (evec_opp _ _ _ _ (Hv (j - k)%nat ltac:(lia))) as (E & _). exact E.
  Qed.
  Lemma sun_layer m l : exists L, (length L <= N)%nat /\ forall x, 0 < x /\ resonant (at_sun p x) mu w m l <-> In x L.
  Proof. apply finite_list. intros L HL HP. apply (sun_bound m l); auto. Qed.
  Lemma sun_all nm nl : exists L, (length L <= nm * (nl * N))%nat /\ forall x, (0 < x /\ exists m l, (m < nm)%nat /\ (l < nl)%nat /\ resonant (at_sun p x) mu w m l) <-> In x L.
  Proof.
    induction nm as [|nm (L & HL & E)].
    - exists []. split; [cbn; lia|]. intros x. split; [intros (_ & m & l & H & _); lia|intros []].
    - assert (G : exists L', (length L' <= nl * N)%nat /\ forall x, (0 < x /\ exists l, (l < nl)%nat /\ resonant (at_sun p x) mu w nm l) <-> In x L').
      { clear L HL E. induction nl as [|nl (L & HL & E)].
        - exists []. split; [cbn; lia|]. intros x. split; [intros (_ & l & H & _); lia|intros []].
        - destruct (sun_layer nm nl) as (L1 & H1 & E1). exists (L1 ++ L). split; [rewrite app_length; cbn [Nat.mul]; apply Nat.add_le_mono; auto|]. intros x. rewrite in_app_iff, <- E, <- E1. split.
          + intros (Hx & l & Hl & R). destruct (Nat.eq_dec l nl) as [->|]; [left; auto|right]. split; auto. exists l. split; [lia|auto].
          + intros [(Hx & R)|(Hx & l & Hl & R)]; split; eauto. }
      destruct G as (L' & HL' & E'). exists (L' ++ L). split; [rewrite app_length; cbn [Nat.mul]; apply Nat.add_le_mono; auto|]. intros x. rewrite in_app_iff, <- E, <- E'. split.
      + intros (Hx & m & l & Hm & Hl & R). destruct (Nat.eq_dec m nm) as [->|]; [left; eauto|right]. split; auto. exists m, l. split; [lia|]. split; auto.
      + intros [(Hx & l & Hl & R)|(Hx & m & l & Hm & Hl & R)]; (split; [exact Hx|]); [exists nm, l|exists m, l]; (split; [lia|]); auto.
  Qed.
End Sun.

Theorem sun_free p rho : (exists mu w, double_gauss (half p) mu w) -> (exists x, physical_input (at_sun p x) rho) ->
  exists L, (length L <= nmodes p * (nlayers p * half p))%nat /\
  forall x, physical_input (at_sun p x) rho -> 0 < p_I0 p -> (no_resonance (at_sun p x) <-> ~ In x L).
Proof.
  intros (mu & w & HD) (x0 & HP0). assert (Es : streams p = (2 * half p)%nat) by (apply (streams_eq (at_sun p x0)), HP0).
  destruct (sun_all p mu w HD Es (nmodes p) (nlayers p)) as (L & HL & E). exists L. split; auto. intros x HP HI. rewrite <- E. clear E HL L. split.
  - intros NR (_ & m & l & Hm & Hl & R). exact (NR HI mu w m l HD Hm Hl R).
  - intros H _ mu' w' m l HD' Hm Hl R. apply H. split.
    + apply (v_mu0 _ (pi_valid _ _ HP)). exact HI.
    + exists m, l. split; [exact Hm|]. split; [exact Hl|]. exact (resonant_order (at_sun p x) mu' w' mu w m l (pi_valid _ _ HP) HD' HD R).
Qed.
