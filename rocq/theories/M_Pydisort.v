(** Model of src/PythonicDISORT/pydisort.py. *)
From Coq Require Import String Reals Lra Lia List Bool Arith ZArith.
From Verif Require Import Base Tensor Spec M_LinAlg M_Subroutines M_GenPart M_MathscrV M_Coeffs M_Assemble.
Import ListNotations.
Local Open Scope R_scope.

(** A 2-d array. *)
Record arr2 : Type := mkA2 { nrow : nat; ncol : nat; at2 : mat }.
Definition forall2b (n m : nat) (f : nat -> nat -> bool) : bool :=
  forallb (fun i => forallb (f i) (seq 0 m)) (seq 0 n).

(** Arguments (lines 13-29) after lines 184-188 (np.atleast_1d, np.atleast_2d). *)
Record py_in : Type := mkPI {
  p_tau : list R; p_omega : list R; p_NQuad : Z; p_Leg : arr2;
  p_mu0 : R; p_I0 : R; p_phi0 : R;
  p_NLeg : option Z; p_NFourier : option Z; p_bpos : tensor; p_bneg : tensor;
  p_only_flux : bool; p_f : list R; p_NT : bool; p_BDRF : list bmode; p_s : arr2;
  p_banded : Z; p_autograd : bool
}.

(** np.all(b == 0) (lines 199-202): then the boundary source becomes the scalar 0. *)
Definition all0 (b : tensor) : bool := forallb (fun x => Reqb x 0) (entries b).
Definition norm_b (b : tensor) : tensor := if all0 b then t0 0 else b.
(** [len(np.atleast_1d(b))] and [len(b)]. *)
Definition len1 (b : tensor) : nat := match shp b with [] => 1%nat | n :: _ => n end.
Definition is_scalar_b (b : tensor) : bool := Nat.eqb (len1 b) 1.

Section Pydisort.
  Context {IM : IntModel}.
  Variable p : py_in.

  (** Lines 193-217. *)
  Definition e_NLeg : Z := match p_NLeg p with None => p_NQuad p | Some n => n end.
  Definition e_NFourier : Z :=
    if p_only_flux p then 1%Z else match p_NFourier p with None => p_NQuad p | Some n => n end.
  Definition e_bpos : tensor := norm_b (p_bpos p).
  Definition e_bneg : tensor := norm_b (p_bneg p).
  Definition e_Ns : nat :=
    if forall2b (nrow (p_s p)) (ncol (p_s p)) (fun i j => Reqb (at2 (p_s p) i j) 0) then 0%nat else ncol (p_s p).
  Definition pNL : nat := length (p_tau p).
  Definition tau_at (l : nat) : R := nth l (p_tau p) 0.
  (** tau_{l-1}: [prepend(tau_arr[:-1], NLayers - 1, 0)]. *)
  Definition tau_top (l : nat) : R := match l with O => 0 | S k => tau_at k end.
  Definition thickness (l : nat) : R := tau_at l - tau_top l.
  Definition e_N : Z := (p_NQuad p / 2)%Z.
  Definition has_beam : bool := Rltb 0 (p_I0 p).
  Definition has_iso : bool := Nat.ltb 0 e_Ns.
  Definition omega_at (l : nat) : R := nth l (p_omega p) 0.
  Definition f_at (l : nat) : R := nth l (p_f p) 0.

  (** Shape checks of a boundary source (lines 274-285); [N] and NFourier as integers. *)
  Definition b_shape_ok (b : tensor) : bool :=
    (is_scalar_b b || Z.eqb (Z.of_nat (len1 b)) e_N
     || match shp b with [x; y] => (Z.eqb (Z.of_nat x) e_N && Z.eqb (Z.of_nat y) e_NFourier)%bool | _ => false end)%bool.
  Definition b_is_vector (b : tensor) : bool :=
    (negb (is_scalar_b b) && Z.eqb (Z.of_nat (len1 b)) e_N)%bool.

  (** Lines 246-248: the zeroth Legendre coefficients are overwritten by 1 in the caller's
      array when some layer with scattering has another value. *)
  Definition leg0_bad : bool :=
    negb (forallb (fun l => Reqb (omega_at l * at2 (p_Leg p) l 0%nat) (omega_at l)) (seq 0 pNL)).
  Definition Leg_all : mat :=
    if leg0_bad then fun l k => if Nat.eqb k 0 then 1 else at2 (p_Leg p) l k else at2 (p_Leg p).

  (** Lines 223-291, in order. [thickness_arr] (line 212) needs a non-empty tau_arr. *)
  Definition checks : list (bool * string) := [
    (forallb (fun t => Rltb 0 t) (p_tau p), "tau values cannot be non-positive.");
    (forallb (fun l => Rltb 0 (thickness l)) (seq 0 pNL), "Layer thicknesses cannot be non-positive.");
    ((forallb (fun w => Rleb 0 w) (p_omega p) && forallb (fun w => Rltb w 1) (p_omega p))%bool,
     "Single-scattering albedo must be between 0 and 1, excluding 1.");
    ((0 <? e_NLeg)%Z, "The number of phase function Legendre coefficients must be positive.");
    ((e_NLeg <=? Z.of_nat (ncol (p_Leg p)))%Z, "`NLeg` cannot be larger than the number of phase function Legendre coefficients provided.");
    (Nat.eqb (nrow (p_Leg p)) pNL, "The zeroth dimension of the shape of `Leg_coeffs_all` does not match the number of layers which is deduced from the length of `tau_arr`.");
    (Nat.eqb (length (p_omega p)) pNL, "The zeroth dimension of the shape of `omega_arr` does not match the number of layers which is deduced from the length of `tau_arr`.");
    (negb (existsb (fun f => negb (Reqb f 0)) (p_f p) && negb (Nat.eqb (length (p_f p)) pNL)), "The length of `f_arr` does not match the number of layers which is deduced from the length of `tau_arr`.");
    (negb (has_iso && negb (Nat.eqb (nrow (p_s p)) pNL)), "The zeroth dimension of the shape of `s_poly_coeffs` does not match the number of layers which is deduced from the length of `tau_arr`.");
    (forall2b pNL (ncol (p_Leg p) - 1) (fun l k => (Rltb (-1) (Leg_all l (S k)) && Rltb (Leg_all l (S k)) 1)%bool),
     "The phase function Legendre coefficients must all be between -1 and 1 exclusive (only the zeroth coefficient can equal 1).");
    ((2 <=? p_NQuad p)%Z, "There must be at least two streams.");
    ((p_NQuad p mod 2 =? 0)%Z, "The number of streams must be even.");
    ((0 <? e_NFourier)%Z, "The number of Fourier modes to use in the solution must be positive.");
    ((e_NFourier <=? e_NLeg)%Z, "The number of Fourier modes to use in the solution must be less than or equal to the number of phase function Legendre coefficients used.");
    ((e_NLeg <=? p_NQuad p)%Z, "There should be more streams than the number of phase function Legendre coefficients used.");
    (negb (Rltb (p_I0 p) 0), "The intensity of the incident beam cannot be negative.");
    ((negb has_beam || (Rltb 0 (p_mu0 p) && Rleb (p_mu0 p) 1))%bool, "The cosine of the polar angle of the incident beam must be between 0 and 1, excluding 0.");
    ((negb has_beam || (Rleb 0 (p_phi0 p) && Rltb (p_phi0 p) (2 * PI)))%bool, "Provide the principal azimuthal angle for the incident beam (must be between 0 and 2pi, excluding 2pi).");
    (b_shape_ok e_bpos, "The shape of the bottom boundary condition is incorrect.");
    (b_shape_ok e_bneg, "The shape of the top boundary condition is incorrect.");
    ((forallb (fun f => Rleb 0 f) (p_f p) && forallb (fun f => Rleb f 1) (p_f p))%bool, "The fractional scattering must be between 0 and 1.");
    ((3 <=? p_banded p)%Z, "The minimum threshold `use_banded_solver_NLayers` is 3, else the matrix will not be banded.")
  ]%string.
  Fixpoint run_checks (cs : list (bool * string)) : res unit :=
    match cs with [] => Ok tt | (b, s) :: t => if b then run_checks t else Err (EValue s) end.
  Definition validate : res unit :=
    match p_tau p with [] => Err EIndex | _ => run_checks checks end.

  Definition pN : nat := Z.to_nat e_N.
  Definition pNLeg : nat := Z.to_nat e_NLeg.
  Definition pNF : nat := Z.to_nat e_NFourier.
  Definition NLeg_all : nat := ncol (p_Leg p).

  (** Lines 304-306. *)
  Variable leggauss : leggauss_t.
  Definition quad_mu (i : nat) : R := of_list (fst (Gauss_Legendre_quad leggauss pN 0 1)) i.
  Definition quad_W (i : nat) : R := of_list (snd (Gauss_Legendre_quad leggauss pN 0 1)) i.
  Definition mu_arr : list R := map quad_mu (seq 0 pN) ++ map (fun i => - quad_mu i) (seq 0 pN).
  (** Lines 309-310. *)
  Definition NT_angle_ok : bool :=
    negb (p_NT p && existsb (fun i => Rltb (Rabs (quad_mu i - p_mu0 p)) (1 / 100000000)) (seq 0 pN)).

  (** Lines 316-338. [weighted_scaled_Leg_coeffs] of a layer with f = 1 is nan in the code; the
      value is never used there, because the scaled albedo is then 0 and the comparison with
      1e-8 in the eigen-solver is false for nan as it is for 0. *)
  Definition delta_M : bool := existsb (fun f => Rltb 0 f) (p_f p).
  Definition scale_tau (l : nat) : R := if delta_M then 1 - omega_at l * f_at l else 1.
  Definition scaled_thickness (l : nat) : R := (1 - omega_at l * f_at l) * thickness l.
  Definition scaled_tau0 (l : nat) : R := if delta_M then rsum l scaled_thickness else tau_top l.
  Definition scaled_Leg (l k : nat) : R := if delta_M then (Leg_all l k - f_at l) / (1 - f_at l) else Leg_all l k.
  Definition weighted_scaled_Leg (l k : nat) : R := scaled_Leg l k * (2 * INR k + 1).
  Definition scaled_omega (l : nat) : R :=
    if delta_M then (1 - f_at l) / scale_tau l * omega_at l else omega_at l.
  Definition s_row (l : nat) : list R := map (at2 (p_s p) l) (seq 0 (ncol (p_s p))).
  Definition translation (l : nat) : R := scaled_tau0 l - scale_tau l * tau_top l.
  (** Without an isotropic source the coefficients are never used, but the array operation must
      broadcast (lines 327, 338). *)
  Definition scaled_s : res (nat -> vec) :=
    if has_iso then
      if delta_M then
        let! rows := affine_transform_poly_coeffs (ncol (p_s p)) (map s_row (seq 0 pNL))
                       (map scale_tau (seq 0 pNL)) (map translation (seq 0 pNL)) in
        Ok (fun l j => nth j (nth l rows []) 0 / scale_tau l * (1 - omega_at l))
      else Ok (fun l j => at2 (p_s p) l j * (1 - omega_at l))
    else match bdim (nrow (p_s p)) pNL with Some _ => Ok (fun _ _ => 0) | None => Err EShape end.

  (** Lines 351-372. *)
  Definition rescale (ss : nat -> vec) : res R :=
    let! mp := tmax e_bpos in
    let! mn := tmax e_bneg in
    if has_iso then
      let r := lmax [p_I0 p; mp; mn; ss 0%nat 0%nat;
                     rsum e_Ns (fun j => ss (pNL - 1)%nat j * scaled_tau0 pNL ^ j)] in
      if Reqb r 0 then Err ENonFinite else Ok r
    else Ok (lmax [p_I0 p; mp; mn]).
  (** The divisor applied to the sources: rescale_factor, or 1 when that is 0 (line 367). *)
  Definition divisor (r : R) : R := if Reqb r 0 then 1 else r.

  Variable la : linalg.
  Variable jk : junk.

  Definition assemble_args (r : R) (ss : nat -> vec) : as_in := {|
    a_omega := scaled_omega; a_tau := p_tau p; a_stau0 := scaled_tau0; a_mu := quad_mu;
    a_M_inv := fun i => 1 / quad_mu i; a_W := quad_W; a_N := pN; a_NLeg := pNLeg; a_NFourier := pNF;
    a_NLayers := pNL; a_multi := Nat.ltb 1 pNL; a_wLeg := weighted_scaled_Leg; a_BDRF := p_BDRF p;
    a_mu0 := p_mu0 p; a_I0 := p_I0 p / divisor r; a_I0_div_4pi := p_I0 p / divisor r / (4 * PI);
    a_rescale := r; a_phi0 := p_phi0 p; a_beam := has_beam;
    a_bpos := tmap (fun x => x / divisor r) e_bpos; a_bneg := tmap (fun x => x / divisor r) e_bneg;
    a_bpos_scalar := is_scalar_b e_bpos; a_bneg_scalar := is_scalar_b e_bneg;
    a_bpos_vector := b_is_vector e_bpos; a_bneg_vector := b_is_vector e_bneg;
    a_Ns := e_Ns; a_s := fun l j => ss l j / divisor r; a_iso := has_iso; a_scale := scale_tau;
    a_only_flux := p_only_flux p; a_banded := Z.to_nat (p_banded p); a_autograd := p_autograd p |}.

  (** Line 375. *)
  Definition NT_active : bool :=
    (p_NT p && negb (p_only_flux p) && has_beam && delta_M && Nat.ltb pNLeg NLeg_all
     && existsb (fun w => Rltb 0 w) (p_omega p))%bool.

  Section Corrections.
    Variable a : as_in.
    Let I0_div_4pi := a_I0_div_4pi a.
    Let mu0 := p_mu0 p.
    Let NQ := (2 * pN)%nat.

    (** Line 297. *)
    Definition weighted_Leg_all (l k : nat) : R := (2 * INR k + 1) * Leg_all l k.
    Definition all_mu (q : nat) : R := nth q mu_arr 0.

    (** Lines 425-449 for layer [ll]; [nu] is 2-d with NQuad rows. *)
    Definition mathscr_B (nu : tensor) (ll q ph : nat) : R :=
      scaled_omega ll * I0_div_4pi * (mu0 / (mu0 + all_mu q))
      * (legendre_series (weighted_Leg_all ll) NLeg_all (elt nu [q; ph]) / (1 - f_at ll)
         - legendre_series (weighted_scaled_Leg ll) pNLeg (elt nu [q; ph])).

    (** Lines 419-421 (scaled depth) and 452-479: own-layer factor. *)
    Definition tms_stau (t : R) (l : nat) : R := scaled_tau0 (S l) - (tau_at l - t) * scale_tau l.
    Definition tms_own (anti : bool) (q : nat) (t : R) (l : nat) : R :=
      let st := tms_stau t l in
      if Nat.ltb q pN then
        let e := exp ((st - scaled_tau0 (S l)) / quad_mu q - scaled_tau0 (S l) / mu0) in
        if anti then exp (- st / mu0) / (- scale_tau l / mu0) - e / (scale_tau l / quad_mu q)
        else exp (- st / mu0) - e
      else
        let mu := quad_mu (q - pN)%nat in
        let e := exp ((scaled_tau0 l - st) / mu - scaled_tau0 l / mu0) in
        if anti then exp (- st / mu0) / (- scale_tau l / mu0) + e / (scale_tau l / mu)
        else exp (- st / mu0) - e.

    (** Lines 498-500, 507-515. *)
    Definition exp_taufront (l : nat) : R := match l with O => 1 | _ => exp (- scaled_tau0 l * (1 / mu0)) end.
    Definition log_decay (n r : nat) : R := - scaled_thickness r * (1 / quad_mu n).
    Definition decay_prod (n k : nat) : R := match k with O => 1 | _ => exp (rsum k (log_decay n)) end.
    Definition integration_factor (n r : nat) : R := quad_mu n / scale_tau r.
    (** Lines 520-535. *)
    Definition layer_term_pos (anti : bool) (n r : nat) : R :=
      let em1 := - (exp (- (scaled_thickness r * (1 / quad_mu n + 1 / mu0))) - 1) in
      (if anti then integration_factor n r * em1 else em1) * exp_taufront r.
    Definition R_pos (anti : bool) (n l : nat) : R :=
      if Nat.ltb l (pNL - 1) then
        rsum (pNL - S l) (fun i => layer_term_pos anti n (S l + i)%nat * decay_prod n (S l + i)%nat) / decay_prod n (S l)
      else 0.
    (** Lines 551-579. *)
    Definition layer_term_neg (anti : bool) (n r : nat) : R :=
      let th := scaled_thickness r * (1 / quad_mu n - 1 / mu0) in
      let em1 := exp (- Rabs th) - 1 in
      let x := if Rleb 0 th then - em1 * exp (- scaled_tau0 (S r) * (1 / mu0))
               else em1 * (exp (log_decay n r) * exp_taufront r) in
      if anti then - integration_factor n r * x else x.
    Definition R_neg (anti : bool) (n l : nat) : R :=
      match l with
      | O => 0
      | _ => decay_prod n l * rsum l (fun r => layer_term_neg anti n r / decay_prod n (S r))
      end.
    (** Lines 484-591: contribution of the other layers, of the factor multiplying mathscr_B. *)
    Definition tms_other (anti : bool) (ls : list nat) (q : nat) (t : R) (l : nat) : R :=
      let st := tms_stau t l in
      if Nat.ltb 1 pNL then
        if Nat.ltb q pN then
          if existsb (fun i => Nat.ltb i (pNL - 1)) ls
          then R_pos anti q l * exp (1 / quad_mu q * (st - scaled_tau0 (S l))) else 0
        else
          if existsb (fun i => Nat.ltb 0 i) ls
          then R_neg anti (q - pN) l * exp (1 / quad_mu (q - pN)%nat * (scaled_tau0 l - st)) else 0
      else 0.

    (** Lines 409-596. np.concatenate of an empty list (no depth) is a ValueError. *)
    Definition TMS_correction (tau phi : list R) (anti : bool) (ls : list nat) : res tensor :=
      let nu := atleast_2d_append (calculate_nu mu_arr phi [- mu0] [p_phi0 p]) in
      match ls with
      | [] => Err (EValue "need at least one array to concatenate")
      | _ =>
        if existsb (fun l => Reqb (1 - f_at l) 0) ls then Err ENonFinite
        else match shp nu with
             | [n; nphi] =>
                 if Nat.eqb n NQ then
                   Ok (mkT [NQ; length tau; nphi] (fun idx =>
                     let q := nth 0 idx 0%nat in let t := nth (nth 1 idx 0%nat) tau 0 in
                     let l := nth (nth 1 idx 0%nat) ls 0%nat in let ph := nth 2 idx 0%nat in
                     mathscr_B nu l q ph * (tms_own anti q t l + tms_other anti ls q t l)))
                 else Err EShape
             | _ => Err EIndex
             end
      end.

    (** Lines 601-611. *)
    Definition sum1 : R := rsum pNL (fun l => omega_at l * tau_at l).
    Definition omega_avg : R := sum1 / rsum pNL tau_at.
    Definition sum2 : R := rsum pNL (fun l => f_at l * omega_at l * tau_at l).
    Definition f_avg : R := sum2 / sum1.
    Definition Leg_residue (l k : nat) : R := if Nat.ltb k pNLeg then f_at l else Leg_all l k.
    Definition Leg_residue_avg (k : nat) : R := rsum pNL (fun l => Leg_residue l k * omega_at l * tau_at l) / sum2.
    Definition scaled_mu0 : R := mu0 / (1 - omega_avg * f_avg).

    (** Lines 613-628. *)
    Definition chi (anti : bool) (n : nat) (t : R) : R :=
      let mu := quad_mu n in
      let x := 1 / mu - 1 / scaled_mu0 in
      if anti then
        ((scaled_mu0 - x * scaled_mu0 * (scaled_mu0 + t)) * exp (- t / scaled_mu0) - mu * exp (- t / mu))
        / (mu * scaled_mu0 * x ^ 2)
      else
        ((t - 1 / x) * exp (- t / scaled_mu0) + exp (- t / mu) / x) / (mu * scaled_mu0 * x).
    (** Lines 613-638; a zero average forward scattering (sum2 = 0) or a quadrature angle equal to
        scaled_mu0 gives nan or inf. *)
    Definition IMS_correction (tau phi : list R) (anti : bool) : res tensor :=
      let nu := atleast_2d_append (calculate_nu (map (fun i => - quad_mu i) (seq 0 pN)) phi [- mu0] [p_phi0 p]) in
      if (Reqb sum2 0 || existsb (fun i => Reqb (1 / quad_mu i - 1 / scaled_mu0) 0) (seq 0 pN))%bool then Err ENonFinite
      else match shp nu with
           | [n; k] =>
               let L := mkT [n; 1%nat; k] (fun idx =>
                 I0_div_4pi * (omega_avg * f_avg) ^ 2 / (1 - omega_avg * f_avg)
                 * legendre_series (fun k => (2 * INR k + 1) * (2 * Leg_residue_avg k - Leg_residue_avg k ^ 2)) NLeg_all
                     (elt nu [nth 0 idx 0%nat; nth 2 idx 0%nat])) in
               let C := mkT [pN; length tau; 1%nat] (fun idx => chi anti (nth 0 idx 0%nat) (nth (nth 1 idx 0%nat) tau 0)) in
               tmul L C
           | _ => Err EIndex
           end.

    (** Lines 677-687. *)
    Definition NT_corrections (tau phi : list R) (anti : bool) (ls : list nat) : res tensor :=
      let! T := TMS_correction tau phi anti ls in
      let! V := IMS_correction tau phi anti in
      if p_autograd p then
        let! s := tadd (tslice 0 pN pN T) V in
        tconcat 0 (tslice 0 0 pN T) s
      else
        let! s := iop Rplus (tslice 0 pN pN T) V in
        Ok (mkT (shp T) (fun idx => match idx with
              | q :: idx' => if Nat.ltb q pN then elt T idx else elt s ((q - pN)%nat :: idx')
              | [] => elt T idx
              end)).

    (** Lines 643-694. The flagged outputs of u_star are passed on after the intensity. *)
    Variable u_star : list R -> list R -> bool -> bool -> bool -> bool -> res pret.
    Definition u_corrected (tau phi : list R) (anti ret_err ret_tau : bool) : res pret :=
      let! r := u_star tau phi anti ret_err ret_tau true in
      match r with
      | PTup (PT u :: rest) =>
          let k := (length rest - (if has_iso then 3 else 1))%nat in
          match nth k rest (PR 0) with
          | PI_ ls =>
              let! c := NT_corrections tau phi anti ls in
              let! v := tadd u (tscal (a_rescale a) (tsqueeze c)) in
              Ok (ret (ret_err || ret_tau) (PT v :: firstn k rest))
          | _ => Err EType
          end
      | _ => Err EType
      end.
  End Corrections.

  (** Results: quadrature cosines, the returned functions (the intensity only without only_flux)
      and the caller's Leg_coeffs_all after the call. *)
  Record py_out : Type := mkPO {
    po_mu : list R;
    po_flux_up : list R -> bool -> bool -> res pret;
    po_flux_down : list R -> bool -> bool -> res pret;
    po_u0 : list R -> bool -> bool -> bool -> res pret;
    po_u : option (list R -> list R -> bool -> bool -> bool -> res pret);
    po_Leg : arr2
  }.

  Definition pydisort : res py_out :=
    let! _ := validate in
    let! _ := check NT_angle_ok (EValue "Some quadrature angles come too close to `mu0`. Perturb `NQuad` or `mu0` to rectify this error.") in
    let! ss := scaled_s in
    let! r := rescale ss in
    let a := assemble_args r ss in
    let! sv := solve_all a la jk in
    let u := fun tau phi anti e t => cl_u a sv tau phi anti e t false in
    Ok (mkPO mu_arr (cl_flux_up a sv) (cl_flux_down a sv) (cl_u0 a sv)
             (if p_only_flux p then None
              else Some (if NT_active then u_corrected a (cl_u a sv) else u))
             (mkA2 (nrow (p_Leg p)) (ncol (p_Leg p)) Leg_all)).
End Pydisort.
