(** Model of src/PythonicDISORT/_assemble_intensity_and_fluxes.py and of
    subroutines.generate_diff_act_flux_funcs. *)
From Coq Require Import String Reals Lra Lia List Bool Arith ZArith.
From Verif Require Import Base Tensor Spec M_LinAlg M_Subroutines M_GenPart M_MathscrV M_Coeffs.
Import ListNotations.
Local Open Scope R_scope.

(** Arguments (lines 8-32); NQuad = 2 N, NBDRF is the length of [a_BDRF]. *)
Record as_in : Type := mkAS {
  a_omega : vec; a_tau : list R; a_stau0 : vec; a_mu : vec; a_M_inv : vec; a_W : vec;
  a_N : nat; a_NLeg : nat; a_NFourier : nat; a_NLayers : nat; a_multi : bool;
  a_wLeg : nat -> vec; a_BDRF : list bmode;
  a_mu0 : R; a_I0 : R; a_I0_div_4pi : R; a_rescale : R; a_phi0 : R; a_beam : bool;
  a_bpos : tensor; a_bneg : tensor;
  a_bpos_scalar : bool; a_bneg_scalar : bool; a_bpos_vector : bool; a_bneg_vector : bool;
  a_Ns : nat; a_s : nat -> vec; a_iso : bool; a_scale : vec;
  a_only_flux : bool; a_banded : nat; a_autograd : bool
}.

(** Contents of every np.empty buffer of the two solver stages, and what the banded solver
    leaves in an overwritten right-hand side. *)
Record junk : Type := mkJ {
  j_G : nat -> mat; j_K : nat -> vec; j_A : nat -> mat; j_X : nat -> vec; j_Gi : nat -> mat;
  j_clob : nat -> vec; j_C : nat -> vec; j_R : vec
}.

(** The arrays the returned functions close over. [sv_B] is meaningful with a beam source,
    [sv_gmi] (G_inv_mu_inv) with an isotropic source. *)
Record solved : Type := mkSV {
  sv_G : nat -> nat -> mat; sv_K : nat -> nat -> vec; sv_B : nat -> nat -> vec;
  sv_gmi : nat -> vec; sv_GC : nat -> nat -> mat
}.

Definition gp_of (a : as_in) : gp_in :=
  mkGP (a_NFourier a) (a_omega a) (a_mu a) (a_M_inv a) (a_W a) (a_N a) (a_NLeg a) (a_NLayers a) (a_wLeg a)
       (a_mu0 a) (a_I0_div_4pi a) (a_beam a) (a_iso a).

(** Lines 124, 132: G_inv_collect_0 @ np.concatenate([M_inv, -M_inv]). *)
Definition inv_mu_inv (a : as_in) (Gi : nat -> mat) (l i : nat) : R :=
  rsum (2 * a_N a) (fun j => Gi l i j * (if Nat.ltb j (a_N a) then a_M_inv a j else - a_M_inv a (j - a_N a)%nat)).

Definition sc_of (a : as_in) (o : gp_out) : sc_in :=
  mkSC (a_NFourier a) (o_G o) (o_K o) (o_B o) (inv_mu_inv a (o_Ginv o)) (a_stau0 a) (a_mu a)
       (fun i => a_mu a i * a_W a i) (a_N a) (a_NLayers a) (a_multi a) (a_BDRF a) (a_mu0 a) (a_I0_div_4pi a) (a_beam a)
       (a_bpos a) (a_bneg a) (a_bpos_scalar a) (a_bneg_scalar a) (a_bpos_vector a) (a_bneg_vector a)
       (a_Ns a) (a_s a) (a_iso a) (a_banded a).

(** Lines 109-163. *)
Definition solve_all {IM : IntModel} (a : as_in) (la : linalg) (jk : junk) : res solved :=
  let! o := gen_and_part_sols (gp_of a) la (j_G jk) (j_K jk) (j_A jk) (j_X jk) (j_Gi jk) in
  let! GC := solve_for_coeffs (sc_of a o) la (j_clob jk) (j_C jk) (j_R jk) in
  Ok (mkSV (o_G o) (o_K o) (o_B o) (inv_mu_inv a (o_Ginv o)) GC).

(** np.unique(l, return_inverse=True) for layer indices below [n]. *)
Definition uniq (n : nat) (l : list nat) : list nat := filter (fun i => existsb (Nat.eqb i) l) (seq 0 n).
Fixpoint index_of (i : nat) (u : list nat) : nat :=
  match u with [] => 0%nat | x :: t => if Nat.eqb x i then 0%nat else S (index_of i t) end.
Definition uniq_inv (n : nat) (l : list nat) : list nat := map (fun i => index_of i (uniq n l)) l.

(** Every index of a shape, in row-major order; every entry of an array. *)
Fixpoint all_idx (s : list nat) : list (list nat) :=
  match s with
  | [] => [[]]
  | n :: s' => flat_map (fun i => map (cons i) (all_idx s')) (seq 0 n)
  end.
Definition entries (A : tensor) : list R := map (elt A) (all_idx (shp A)).
(** np.max; a zero-size array is a ValueError. *)
Definition tmax (A : tensor) : res R :=
  match entries A with [] => Err (EValue "zero-size array to reduction operation maximum which has no identity") | x => Ok (lmax x) end.

(** Values of Python functions: a value or a tuple. *)
Inductive pv : Type := PT (t : tensor) | PR (r : R) | PA (l : list R) | PI_ (l : list nat).
Inductive pret : Type := PVal (v : pv) | PTup (vs : list pv).
(** [outputs if output_is_tuple else outputs[0]]. *)
Definition ret (is_tuple : bool) (vs : list pv) : pret :=
  if is_tuple then PTup vs else PVal (hd (PR 0) vs).

Section Closures.
  Context {IM : IntModel}.
  Variable a : as_in.
  Variable sv : solved.
  Let N := a_N a.
  Let NQ := (2 * a_N a)%nat.
  Let NL := a_NLayers a.
  Let NF := a_NFourier a.

  (** Lines 181-182, 345-346, 454-455, 536-537. The arguments [tau], [phi] are 1-d
      (np.atleast_1d of a scalar is a 1-element list). *)
  Definition in_range (tau : list R) : bool :=
    negb (existsb (fun t => Rltb t 0) tau || existsb (fun t => Rltb (last (a_tau a) 0) t) tau).
  Definition tau_check (tau : list R) : res unit :=
    check (in_range tau) (EValue "tau input outside the tau range given for the atmosphere (check `tau_arr`).").

  (** Lines 185, 349, 458, 540. *)
  Definition layer_of (t : R) : nat := argmax_bool (map (fun b => Rleb t b) (a_tau a)).
  Definition layers (tau : list R) : list nat := map layer_of tau.

  (** Lines 190-195, 354-369, 463-468, 545-550, at one depth. *)
  Definition any_scaled : bool := existsb (fun l => negb (Reqb (a_scale a l) 1)) (seq 0 (a_NLayers a)).
  Definition scaled_of (t : R) : R :=
    if any_scaled
    then a_stau0 a (S (layer_of t)) - (nth (layer_of t) (a_tau a) 0 - t) * a_scale a (layer_of t)
    else t.
  Definition scaled_taus (tau : list R) : list R := map scaled_of tau.

  (** Lines 197-203, 373-379, 485-491, 567-573: exponent of eigen-solution [k] of mode [m]. *)
  Definition exponent (m k : nat) (t : R) : R :=
    let l := layer_of t in
    if Nat.ltb k (a_N a) then sv_K sv m l k * (scaled_of t - a_stau0 a l)
    else sv_K sv m l k * (scaled_of t - a_stau0 a (S l)).
  (** np.einsum over the eigen-solutions (lines 213-218, 229-231, 389-394, 404-406, ...). *)
  Definition hom (anti : bool) (m q : nat) (t : R) : R :=
    let l := layer_of t in
    rsum (2 * a_N a) (fun k =>
      sv_GC sv m l q k * (if anti then exp (exponent m k t) / (a_scale a l * sv_K sv m l k) else exp (exponent m k t))).
  (** direct_beam_contribution (lines 205-226, 381-401, 493-511, 589-591). *)
  Definition beam_part (anti : bool) (m q : nat) (t : R) : R :=
    if a_beam a then
      let l := layer_of t in
      (if anti then sv_B sv m l q / (- a_scale a l / a_mu0 a) else sv_B sv m l q) * exp (- scaled_of t / a_mu0 a)
    else 0.

  (** Isotropic-source contribution, rows [r0, r0 + nr) (lines 236-247, 411-422, 470-481, 552-563). *)
  Definition iso_part (anti : bool) (r0 nr : nat) (tau : list R) : res tensor :=
    let u := uniq (a_NLayers a) (layers tau) in
    let at_ {V} (x : nat -> V) (i : nat) : V := x (nth i u 0%nat) in
    mathscr_v nr NQ (length u) (scaled_taus tau) (t1 (vlist NL (a_scale a))) (uniq_inv (a_NLayers a) (layers tau))
      (a_Ns a) (at_ (a_s a)) (fun i q => at_ (sv_G sv 0%nat) i (r0 + q)%nat) (at_ (sv_K sv 0%nat)) (at_ (sv_gmi sv)) anti.

  Definition at_tau (tau : list R) (f : R -> R) (t : nat) : R := f (nth t tau 0).

  (** Lines 206-233: Fourier modes without the isotropic source. *)
  Definition um_core (anti : bool) (tau : list R) : tensor :=
    mkT [NF; NQ; length tau] (fun idx =>
      let m := nth 0 idx 0%nat in let q := nth 1 idx 0%nat in
      at_tau tau (fun t => hom anti m q t + beam_part anti m q t) (nth 2 idx 0%nat)).
  (** Lines 249-254. *)
  Definition um_add (um v : tensor) : res tensor :=
    if Nat.eqb NF 1 then tadd um v
    else if a_autograd a then
      let! s := tadd (tslice 0 0 1 um) v in
      tconcat 0 s (tslice 0 1 (NF - 1) um)
    else
      let! r := iop Rplus (mkT (tl (shp um)) (fun idx => elt um (0%nat :: idx))) v in
      Ok (mkT (shp um) (fun idx => match idx with 0%nat :: idx' => elt r idx' | _ => elt um idx end)).
  Definition um_all (anti : bool) (tau : list R) : res tensor :=
    if a_iso a then let! v := iso_part anti 0 NQ tau in um_add (um_core anti tau) v
    else Ok (um_core anti tau).
  (** Lines 256-260. *)
  Definition azimuth (m : nat) (phi : R) : R := cos (INR m * (a_phi0 a - phi)).
  Definition u_full (um : tensor) (phi : list R) : tensor :=
    mkT [nth 1 (shp um) 0%nat; nth 2 (shp um) 0%nat; length phi] (fun idx =>
      rsum NF (fun m => elt um [m; nth 0 idx 0%nat; nth 1 idx 0%nat] * azimuth m (nth (nth 2 idx 0%nat) phi 0))).

  (** Lines 266-313. *)
  Definition err_beam (anti : bool) (tau : list R) : res tensor :=
    let ex := tnew 0 (t1 (map (fun t => exp (- scaled_of t / a_mu0 a)) tau)) in
    if anti then
      (* B_collect.T[-1, :, :] has shape (NLayers, NFourier) *)
      let! d := tdiv (mkT [NL; NF] (fun idx => sv_B sv (nth 1 idx 0%nat) (nth 0 idx 0%nat) (NQ - 1)%nat))
                     (tnew 0 (t1 (vlist NL (fun l => - a_scale a l / a_mu0 a)))) in
      let! d := ttake 1 (layers tau) d in
      tmul d ex
    else
      (* B_collect.T[-1, :, l] has shape (len(tau), NLayers): the fancy axis comes first *)
      if forallb (fun i => Nat.ltb i NF) (layers tau)
      then tmul (mkT [length tau; NL] (fun idx => sv_B sv (nth (nth 0 idx 0%nat) (layers tau) 0%nat) (nth 1 idx 0%nat) (NQ - 1)%nat)) ex
      else Err EIndex.
  Definition ulast (anti : bool) (tau : list R) : res tensor :=
    let h := mkT [NQ; length tau] (fun idx => at_tau tau (hom anti (NF - 1) (nth 0 idx 0%nat)) (nth 1 idx 0%nat)) in
    if a_beam a then let! b := err_beam anti tau in tadd h b else Ok h.
  Definition Fourier_error (anti : bool) (tau phi : list R) (u : tensor) : res R :=
    let! ul := ulast anti tau in
    let u_abs := tmap Rabs u in
    let! num := tmul (tnew 2 ul) (tnew 0 (tnew 0 (t1 (map (azimuth (NF - 1)) phi)))) in
    let! d := bcast2 (fun x y => if Rltb (1 / 100000000) y then x / y else 0) (tmap Rabs num) u_abs in
    if list_eqb (shp d) (shp u_abs) then tmax d else Err EShape.

  (** Lines 170-329. *)
  Definition cl_u (tau phi : list R) (anti ret_err ret_tau ret_l : bool) : res pret :=
    let! _ := tau_check tau in
    let! um := um_all anti tau in
    let u := u_full um phi in
    let out := PT (tscal (a_rescale a) (tsqueeze u)) in
    let! e := if ret_err then let! r := Fourier_error anti tau phi u in Ok [PR r] else Ok [] in
    let ts := if ret_tau then [PA (a_tau a)] else [] in
    let ls := if ret_l then PI_ (layers tau) ::
                (if a_iso a then [PI_ (uniq NL (layers tau)); PI_ (uniq_inv NL (layers tau))] else [])
              else [] in
    Ok (ret (ret_err || ret_tau || ret_l) (out :: e ++ ts ++ ls)).

  (** Lines 381-423. The antiderivative is taken only with a beam source (line 382). *)
  Definition u0_core (anti : bool) (tau : list R) : tensor :=
    let an := (anti && a_beam a)%bool in
    mkT [NQ; length tau] (fun idx =>
      at_tau tau (fun t => hom an 0 (nth 0 idx 0%nat) t + beam_part an 0 (nth 0 idx 0%nat) t) (nth 1 idx 0%nat)).
  Definition u0_all (anti : bool) (tau : list R) : res tensor :=
    if a_iso a then let! v := iso_part anti 0 NQ tau in tadd (u0_core anti tau) v
    else Ok (u0_core anti tau).
  (** Lines 360-371: [None] is the scalar 0. Division by mu0 = 0 (possible without a beam) is
      reported as non-finite. *)
  Definition act_reclass (anti : bool) (tau : list R) : res pv :=
    if any_scaled then
      if Reqb (a_mu0 a) 0 then Err ENonFinite
      else Ok (PT (t1 (map (fun t =>
             if anti
             then a_I0 a * exp (- scaled_of t / a_mu0 a) / (- a_scale a (layer_of t) / a_mu0 a)
                  - a_I0 a * exp (- t / a_mu0 a) * - a_mu0 a
             else a_I0 a * exp (- scaled_of t / a_mu0 a) - a_I0 a * exp (- t / a_mu0 a)) tau)))
    else Ok (PT (t0 0)).
  (** Lines 334-433. *)
  Definition cl_u0 (tau : list R) (anti ret_tau ret_act : bool) : res pret :=
    let! _ := tau_check tau in
    let! act := if ret_act then let! r := act_reclass anti tau in Ok [r] else Ok [] in
    let! u0 := u0_all anti tau in
    let out := PT (tscal (a_rescale a) (tsqueeze u0)) in
    Ok (ret (ret_tau || ret_act) (out :: (if ret_tau then [PA (a_tau a)] else []) ++ act)).

  (** Lines 500-517, 584-599: homogeneous part, rows [r0, r0 + N). *)
  Definition half_hom (r0 : nat) (anti : bool) (tau : list R) : tensor :=
    mkT [N; length tau] (fun idx => at_tau tau (hom anti 0 (r0 + nth 0 idx 0%nat)%nat) (nth 1 idx 0%nat)).
  Definition half_beam (r0 : nat) (anti : bool) (tau : list R) : tensor :=
    mkT [N; length tau] (fun idx => at_tau tau (beam_part anti 0 (r0 + nth 0 idx 0%nat)%nat) (nth 1 idx 0%nat)).
  Definition muW (i : nat) : R := a_mu a i * a_W a i.

  (** Lines 446-524. *)
  Definition flux_up_arr (anti : bool) (tau : list R) : res tensor :=
    let! v := if a_iso a then iso_part anti 0 N tau else Ok (t0 0) in
    let! s := tadd (half_hom 0 anti tau) (if a_beam a then half_beam 0 anti tau else t0 0) in
    let! u0_pos := tadd s v in
    tvm N (fun i => 2 * PI * muW i) u0_pos.
  Definition cl_flux_up (tau : list R) (anti ret_tau : bool) : res pret :=
    let! _ := tau_check tau in
    let! flux := flux_up_arr anti tau in
    Ok (ret ret_tau (PT (tscal (a_rescale a) (tsqueeze flux)) :: if ret_tau then [PA (a_tau a)] else [])).

  (** Line 580: [(B_neg / (-scale_tau / mu0)[None, l])[:, l] * np.exp(-scaled_tau / mu0)[None, :]]. *)
  Definition down_beam_anti (tau : list R) : res tensor :=
    let l := layers tau in
    let! d := tdiv (mkT [N; NL] (fun idx => sv_B sv 0%nat (nth 1 idx 0%nat) (N + nth 0 idx 0%nat)%nat))
                   (tnew 0 (t1 (map (fun i => - a_scale a i / a_mu0 a) l))) in
    let! d := ttake 1 l d in
    tmul d (tnew 0 (t1 (map (fun t => exp (- scaled_of t / a_mu0 a)) tau))).
  (** Lines 575-593: direct_beam and direct_beam_scaled. *)
  Definition direct_beam (anti : bool) (tau : list R) : tensor :=
    if a_beam a then
      t1 (map (fun t => if anti then a_I0 a * a_mu0 a * exp (- t / a_mu0 a) * - a_mu0 a
                        else a_I0 a * a_mu0 a * exp (- t / a_mu0 a)) tau)
    else t0 0.
  Definition direct_beam_scaled (anti : bool) (tau : list R) : tensor :=
    if a_beam a then
      if anti then tnew 0 (t1 (map (fun t => a_I0 a * a_mu0 a * exp (- scaled_of t / a_mu0 a)
                                             / (- a_scale a (layer_of t) / a_mu0 a)) tau))
      else t1 (map (fun t => a_I0 a * a_mu0 a * exp (- scaled_of t / a_mu0 a)) tau)
    else t0 0.
  (** Lines 527-613. *)
  Definition flux_down_arr (anti : bool) (tau : list R) : res tensor :=
    let! v := if a_iso a then iso_part anti N N tau else Ok (t0 0) in
    let! b := if a_beam a then (if anti then down_beam_anti tau else Ok (half_beam N anti tau)) else Ok (t0 0) in
    let! s := tadd (half_hom N anti tau) b in
    let! u0_neg := tadd s v in
    let! f := tvm N (fun i => 2 * PI * muW i) u0_neg in
    let! f := tadd f (direct_beam_scaled anti tau) in
    tsub f (direct_beam anti tau).
  Definition cl_flux_down (tau : list R) (anti ret_tau : bool) : res pret :=
    let! _ := tau_check tau in
    let! f := flux_down_arr anti tau in
    Ok (PTup (PT (tscal (a_rescale a) (tsqueeze f)) :: PT (tscal (a_rescale a) (tsqueeze (direct_beam anti tau)))
              :: if ret_tau then [PA (a_tau a)] else [])).
End Closures.

(** subroutines.py 258-318. [u0 tau anti ret_tau ret_act] is the given function; tuple unpacking
    of a value that is not a pair (triple) is an error. The weights come from
    [Gauss_Legendre_quad leggauss N]. *)
Section Actinic.
  Variable leggauss : leggauss_t.
  Variable u0 : list R -> bool -> bool -> bool -> res pret.

  (** [len(u0(0)) // 2]. *)
  Definition act_N : res nat :=
    let! r := u0 [0] false false false in
    match r with
    | PVal (PT t) => match shp t with n :: _ => Ok (n / 2)%nat | [] => Err EType end
    | _ => Err EType
    end.
  (** [2 * pi * GL_weights @ x] for a 1-d or 2-d [x]. *)
  Definition act_dot (N : nat) (x : tensor) : res tensor :=
    let w := of_list (snd (Gauss_Legendre_quad leggauss N 0 1)) in
    match shp x with
    | [n] => if Nat.eqb n N then Ok (t0 (rsum N (fun i => 2 * PI * w i * elt x [i]))) else Err EShape
    | _ => tvm N (fun i => 2 * PI * w i) x
    end.
  (** Basic slices [x[:N]], [x[N:]] of an array with 2N rows. *)
  Definition act_up (N : nat) (tau : list R) (anti ret_tau : bool) : res pret :=
    let! r := u0 tau anti ret_tau false in
    match ret_tau, r with
    | true, PTup [PT u; PA ta] => let! f := act_dot N (tslice 0 0 N u) in Ok (PTup [PT (tsqueeze f); PA ta])
    | false, PVal (PT u) => let! f := act_dot N (tslice 0 0 N u) in Ok (PVal (PT (tsqueeze f)))
    | _, _ => Err EType
    end.
  Definition act_down (N : nat) (tau : list R) (anti ret_tau : bool) : res pret :=
    let! r := u0 tau anti ret_tau true in
    match ret_tau, r with
    | true, PTup [PT u; PA ta; PT d] =>
        let! f := act_dot N (tslice 0 N N u) in let! f := tadd f d in Ok (PTup [PT (tsqueeze f); PA ta])
    | false, PTup [PT u; PT d] =>
        let! f := act_dot N (tslice 0 N N u) in let! f := tadd f d in Ok (PVal (PT (tsqueeze f)))
    | _, _ => Err EType
    end.
End Actinic.
