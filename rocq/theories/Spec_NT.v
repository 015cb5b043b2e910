(** Vocabulary for the Nakajima-Tanaka corrections of the intensity (docs: section 3.7.2 of the
    notebook): the part of the single-scattered direct beam lost by the truncation of the phase
    function (TMS), and the second-order correction near the direct beam (IMS). *)
From Coq Require Import String Reals Lra Lia List Bool Arith ZArith.
From Coquelicot Require Import Coquelicot.
From Verif Require Import Base Tensor Spec M_LinAlg Spec_RTE M_Subroutines M_Assemble M_Pydisort Spec_Sol.
Import ListNotations.
Local Open Scope R_scope.

Section NT.
  Variable p : py_in.

  (** Cosine of the angle between the direct beam and the direction with polar cosine [x] and
      azimuth [phi]. *)
  Definition scat_cos (x phi : R) : R := dot3 (unit_vec x phi) (unit_vec (- p_mu0 p) (p_phi0 p)).
  (** Phase function with all given coefficients, and the truncated one after delta-M scaling. *)
  Definition p_exact (l : nat) (c : R) : R :=
    rsum (ncol (p_Leg p)) (fun k => (2 * INR k + 1) * phase p l k * legendre k c).
  Definition p_trunc (l : nat) (c : R) : R := rsum (ncoeffs p) (fun k => wphase_s p l k * legendre k c).
  (** Single-scattering source that the truncation loses in layer [l]. *)
  Definition missing (l : nat) (x phi : R) : R :=
    albedo_s p l * p_I0 p / (4 * PI) * (p_exact l (scat_cos x phi) / (1 - fwd p l) - p_trunc l (scat_cos x phi)).

  (** [T i t phi] is the intensity in direction [i] that the source [q] of single-scattered direct
      light produces: inside the layers it solves the transfer equation without multiple
      scattering, it is continuous, and no light enters at the top or at the bottom. *)
  Definition scattered_once (mu : list R) (q : nat -> R -> R -> R) (T : nat -> R -> R -> R) : Prop :=
    (forall l i t phi, (l < nlayers p)%nat -> (i < streams p)%nat -> top_of p l < t < bot_of p l ->
       is_derive (fun s => T i s phi) t
         (scl p l * (T i t phi - q l (nth i mu 0) phi * exp (- depth_s p l t / p_mu0 p)) / nth i mu 0)) /\
    (forall i phi, (i < streams p)%nat -> cont_on 0 (bottom p) (fun s => T i s phi)) /\
    (forall i phi, (i < half p)%nat -> T (half p + i)%nat 0 phi = 0 /\ T i (bottom p) phi = 0).

  (** Averages over the layers; the weights are the optical depths of the lower boundaries. *)
  Definition wavg : R := rsum (nlayers p) (fun l => albedo p l * bot_of p l) / rsum (nlayers p) (fun l => bot_of p l).
  Definition favg : R := rsum (nlayers p) (fun l => fwd p l * albedo p l * bot_of p l) / rsum (nlayers p) (fun l => albedo p l * bot_of p l).
  Definition gavg (k : nat) : R :=
    rsum (nlayers p) (fun l => (if Nat.ltb k (ncoeffs p) then fwd p l else phase p l k) * albedo p l * bot_of p l)
    / rsum (nlayers p) (fun l => fwd p l * albedo p l * bot_of p l).
  Definition mu0_s : R := p_mu0 p / (1 - wavg * favg).
  (** The documented double integral chi(tau, -mu, -mu', -mu''). *)
  Definition chi_doc (mu mu' mu'' t : R) : R :=
    exp (- t / mu) / (mu * mu') *
    RInt (fun s => exp (s / mu - s / mu') * RInt (fun s' => exp (s' / mu' - s' / mu'')) 0 s) 0 t.
  (** Angular factor of the second-order correction. *)
  Definition ims_factor (x phi : R) : R :=
    p_I0 p / (4 * PI) * ((wavg * favg) ^ 2 / (1 - wavg * favg)) *
    rsum (ncol (p_Leg p)) (fun k => (2 * INR k + 1) * (2 * gavg k - gavg k ^ 2) * legendre k (scat_cos x phi)).
  (** The second-order correction: only downward directions. *)
  Definition second_order (mu : list R) (V : nat -> R -> R -> R) : Prop :=
    forall i t phi, (i < half p)%nat -> 0 <= t <= bottom p ->
      V i t phi = 0 /\
      V (half p + i)%nat t phi = ims_factor (nth (half p + i) mu 0) phi * chi_doc (nth i mu 0) mu0_s mu0_s t.

  (** Arguments for which the corrected intensity is finite: some depth, every depth in range and
      in a layer whose phase function is not entirely forward, and one azimuth if there is only
      one stream per hemisphere. *)
  Definition nt_args (tau phi : list R) : Prop :=
    tau <> [] /\ depths_ok p tau /\ (forall t, In t tau -> fwd p (lay p t) <> 1) /\ ((2 <= half p)%nat \/ length phi = 1%nat).
  Definition nt_is (u : list R -> list R -> bool -> bool -> bool -> res pret) (anti : bool) (f : nat -> R -> R -> R) : Prop :=
    forall tau phi, nt_args tau phi -> exists A, u tau phi anti false false = Ok (PVal (PT A)) /\
      squeezed A [streams p; length tau; length phi] (fun idx => f (nth 0 idx 0%nat) (nth (nth 1 idx 0%nat) tau 0) (nth (nth 2 idx 0%nat) phi 0)).
  (** The corrections take part and their averages are finite. *)
  Definition nt_finite (mu : list R) : Prop :=
    nt_applies p /\ (exists l, (l < nlayers p)%nat /\ 0 < fwd p l * albedo p l) /\ forall i, (i < half p)%nat -> nth i mu 0 <> mu0_s.
End NT.
