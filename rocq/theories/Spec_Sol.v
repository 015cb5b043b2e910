(** Vocabulary for statements about a whole call of pydisort: the physical problem
    described by the caller's arguments, and what the returned functions report.
    It uses the types of arguments and results of the model, not its computations. *)
From Coq Require Import String Reals Lra Lia List Bool Arith ZArith.
From Coquelicot Require Import Coquelicot.
From Verif Require Import Base Tensor Spec M_LinAlg Spec_RTE M_Subroutines M_Assemble M_Pydisort.
Import ListNotations.
Local Open Scope R_scope.

Section Problem.
  Variable p : py_in.

  (** Sizes: layers, streams, half of the streams, phase-function coefficients, Fourier modes. *)
  Definition nlayers : nat := length (p_tau p).
  Definition streams : nat := Z.to_nat (p_NQuad p).
  Definition half : nat := Z.to_nat (p_NQuad p / 2).
  Definition ncoeffs : nat := Z.to_nat (match p_NLeg p with None => p_NQuad p | Some n => n end).
  Definition nmodes : nat :=
    if p_only_flux p then 1%nat else Z.to_nat (match p_NFourier p with None => p_NQuad p | Some n => n end).

  (** Optical depth of the layer boundaries. *)
  Definition top_of (l : nat) : R := match l with O => 0 | S k => nth k (p_tau p) 0 end.
  Definition bot_of (l : nat) : R := nth l (p_tau p) 0.
  Definition bottom : R := last (p_tau p) 0.
  Definition depths_ok (tau : list R) : Prop := forall t, In t tau -> 0 <= t <= bottom.

  (** Optical properties of a layer: albedo, forward fraction, normalised phase function,
      isotropic source (none if the array of coefficients has no row for the layer). *)
  Definition albedo (l : nat) : R := nth l (p_omega p) 0.
  Definition fwd (l : nat) : R := nth l (p_f p) 0.
  Definition phase (l k : nat) : R := if Nat.eqb k 0 then 1 else at2 (p_Leg p) l k.
  Definition source (l : nat) (t : R) : R :=
    if Nat.ltb l (nrow (p_s p)) then rsum (ncol (p_s p)) (fun j => at2 (p_s p) l j * t ^ j) else 0.

  (** Delta-M scaling. *)
  Definition scl (l : nat) : R := 1 - albedo l * fwd l.
  Definition albedo_s (l : nat) : R := (1 - fwd l) * albedo l / scl l.
  Definition phase_s (l k : nat) : R := (phase l k - fwd l) / (1 - fwd l).
  Definition wphase_s (l : nat) : vec := fun k => (2 * INR k + 1) * phase_s l k.
  Definition depth_s (l : nat) (t : R) : R :=
    rsum l (fun r => scl r * (bot_of r - top_of r)) + scl l * (t - top_of l).

  (** Boundary source [b] as one value per stream ([n] of them). *)
  Inductive bc_values (b : tensor) (n : nat) (v : nat -> R) : Prop :=
  | bc_zero : (forall idx, inb (shp b) idx -> elt b idx = 0) -> (forall i, v i = 0) -> bc_values b n v
  | bc_scal : shp b = [] -> (forall i, v i = elt b []) -> bc_values b n v
  | bc_one : shp b = [1%nat] -> (forall i, v i = elt b [0%nat]) -> bc_values b n v
  | bc_vec : shp b = [n] -> (forall i, (i < n)%nat -> v i = elt b [i]) -> bc_values b n v
  | bc_row : forall k, shp b = [1%nat; k] -> (k = 1 \/ k = n)%nat -> (forall i, (i < n)%nat -> v i = elt b [0%nat; bi k i]) -> bc_values b n v.
  Definition nonneg (b : tensor) : Prop := forall idx, inb (shp b) idx -> 0 <= elt b idx.
  (** A beam, a positive entry of a boundary source, or a non-zero coefficient of the isotropic source. *)
  Definition some_source : Prop :=
    0 < p_I0 p \/
    (exists b idx, (b = p_bpos p \/ b = p_bneg p) /\ inb (shp b) idx /\ 0 < elt b idx) \/
    (exists l j, (l < nrow (p_s p))%nat /\ (j < ncol (p_s p))%nat /\ at2 (p_s p) l j <> 0).

  (** A surface-reflection mode given by a number or by a function of the outgoing and the
      incoming cosine. *)
  Definition mode_is (md : bmode) (rho : R -> R -> R) : Prop :=
    (exists r, md = MScal r /\ forall x y, rho x y = r) \/ md = pointwise_mode rho.

  (** Double-Gauss quadrature: [n] nodes in (0, 1) with their mirror images. *)
  Definition double_gauss (n : nat) (mu : list R) (w : nat -> R) : Prop :=
    length mu = (2 * n)%nat /\
    (forall i, (i < n)%nat -> 0 < nth i mu 0 < 1 /\ nth (n + i) mu 0 = - nth i mu 0 /\ 0 < w i) /\
    distinct mu /\
    exact_rule (firstn n mu) (map w (seq 0 n)) 0 1 (2 * n).

  (** The corrections for the truncated phase function take part. *)
  Definition nt_applies : Prop :=
    p_NT p = true /\ p_only_flux p = false /\ 0 < p_I0 p /\ (exists f, In f (p_f p) /\ 0 < f) /\
    (ncoeffs < ncol (p_Leg p))%nat /\ (exists w, In w (p_omega p) /\ 0 < w).

  (** The value is np.squeeze of the array of shape [s] with entries [f]. *)
  Definition squeezed (A : tensor) (s : list nat) (f : list nat -> R) : Prop := teq A (tsqueeze (mkT s f)).

  (** [U m i t]: Fourier mode [m] of the intensity in direction [i] at optical depth [t].
      The returned functions report these modes. *)
  Definition modes_of (out : py_out) (U : nat -> nat -> R -> R) : Prop :=
    (forall tau, depths_ok tau -> exists A, po_u0 out tau false false false = Ok (PVal (PT A)) /\
       squeezed A [streams; length tau] (fun idx => U 0%nat (nth 0 idx 0%nat) (nth (nth 1 idx 0%nat) tau 0))) /\
    (forall u, po_u out = Some u -> ~ nt_applies -> forall tau phi, depths_ok tau ->
       exists A, u tau phi false false false = Ok (PVal (PT A)) /\
       squeezed A [streams; length tau; length phi] (fun idx =>
         rsum nmodes (fun m => U m (nth 0 idx 0%nat) (nth (nth 1 idx 0%nat) tau 0)
                               * cos (INR m * (p_phi0 p - nth (nth 2 idx 0%nat) phi 0))))).

  (** Mode [m] can be seen in the returned functions: only the first mode if the corrections take part. *)
  Definition seen (m : nat) : Prop := (m < nmodes)%nat /\ (m = 0%nat \/ ~ nt_applies).

  (** Right-hand side of  nu_i dU_i/dtau = ...  for mode [m] in layer [l]: extinction,
      multiple scattering, single scattering of the direct beam, thermal emission. [wg] are the
      weighted phase-function coefficients, [V] the intensities. *)
  Definition rte (mu : list R) (w : nat -> R) (wg : vec) (m l i : nat) (t : R) (V : nat -> R) : R :=
    let nu k := nth k mu 0 in
    scl l * (V i
      - rsum streams (fun j => wnode half w j * D_spec (albedo_s l) wg ncoeffs m (nu i) (nu j) * V j)
      - X_spec (p_I0 p / (4 * PI)) (albedo_s l) wg ncoeffs m (p_mu0 p) (nu i) * exp (- depth_s l t / p_mu0 p))
    - (if Nat.eqb m 0 then (1 - albedo l) * source l t else 0).

  (** Layer of an optical depth: the upper boundary belongs to the layer above it. *)
  Definition layer_at (t : R) (l : nat) : Prop :=
    (l < nlayers)%nat /\ (top_of l < t <= bot_of l \/ (l = 0%nat /\ t = 0)).

  (** [U m i t]: mode [m], direction [i], optical depth [t]. Inside the layers the modes solve
      the transfer equation. *)
  Definition solves_rte (mu : list R) (w : nat -> R) (U : nat -> nat -> R -> R) : Prop :=
    forall m l i wg t, (m < nmodes)%nat -> (l < nlayers)%nat -> (i < streams)%nat -> top_of l < t < bot_of l ->
      is_cutoff (albedo_s l) (wphase_s l) ncoeffs m wg ->
      is_derive (U m i) t (rte mu w wg m l i t (fun j => U m j t) / nth i mu 0).
  (** Continuity on a closed interval. *)
  Definition cont_on (a b : R) (f : R -> R) : Prop :=
    forall x, a <= x <= b -> forall eps, 0 < eps ->
      exists d, 0 < d /\ forall y, a <= y <= b -> Rabs (y - x) < d -> Rabs (f y - f x) < eps.
  (** Prescribed downward intensity at the top. *)
  Definition top_condition (U : nat -> nat -> R -> R) : Prop :=
    forall v, bc_values (p_bneg p) half v -> forall m i, (m < nmodes)%nat -> (i < half)%nat ->
      U m (half + i)%nat 0 = if Nat.eqb m 0 then v i else 0.
  (** Upward intensity at the bottom: prescribed part, reflected diffuse light, reflected direct
      beam. [rho m] is mode [m] of the surface reflection. *)
  Definition bottom_condition (mu : list R) (w : nat -> R) (U : nat -> nat -> R -> R) : Prop :=
    forall v rho, bc_values (p_bpos p) half v ->
    (forall m, (m < length (p_BDRF p))%nat -> mode_is (nth m (p_BDRF p) (MScal 0)) (rho m)) ->
    forall m i, (m < nmodes)%nat -> (i < half)%nat ->
    U m i bottom = (if Nat.eqb m 0 then v i else 0) +
      (if Nat.ltb m (length (p_BDRF p)) then
         (if Nat.eqb m 0 then 2 else 1)
           * rsum half (fun j => rho m (nth i mu 0) (nth j mu 0) * nth j mu 0 * w j * U m (half + j)%nat bottom)
         + p_mu0 p * p_I0 p / PI * rho m (nth i mu 0) (p_mu0 p) * exp (- depth_s (nlayers - 1) bottom / p_mu0 p)
       else 0).

  (** Layer of an optical depth in the range, as the number of boundaries above it; scaled
      optical depth; direct beam flux. *)
  Definition lay (t : R) : nat := length (filter (fun b => Rltb b t) (p_tau p)).
  Definition sdepth (t : R) : R := depth_s (lay t) t.
  Definition direct (t : R) : R := p_mu0 p * p_I0 p * exp (- t / p_mu0 p).
  (** Flux functions that report [f] (upward), [fd] and [fb] (downward diffuse and direct). *)
  Definition reports (g : list R -> bool -> bool -> res pret) (f : R -> R) : Prop :=
    forall tau, depths_ok tau -> exists A, g tau false false = Ok (PVal (PT A)) /\
      squeezed A [length tau] (fun idx => f (nth (nth 0 idx 0%nat) tau 0)).
  Definition reports_down (g : list R -> bool -> bool -> res pret) (fd fb : R -> R) : Prop :=
    forall tau, depths_ok tau -> exists A B, g tau false false = Ok (PTup [PT A; PT B]) /\
      squeezed A [length tau] (fun idx => fd (nth (nth 0 idx 0%nat) tau 0)) /\
      (0 < p_I0 p -> squeezed B [length tau] (fun idx => fb (nth (nth 0 idx 0%nat) tau 0))) /\
      (p_I0 p = 0 -> squeezed B [] (fun _ => 0)).
End Problem.
