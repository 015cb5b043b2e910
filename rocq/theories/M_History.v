(** What the functions returned by pydisort compute when the caller goes on using the arrays of
    the call. np.atleast_1d returns an array that is given to it, not a copy, so the functions go
    on reading the caller's tau_arr (pydisort.py 184 and 419; _assemble_intensity_and_fluxes.py 181,
    185, 191, 345, 349, 355, 454, 458, 464, 536, 540, 546) and f_arr (pydisort.py 188 and 448), and
    the array mu_arr that is returned to the caller (pydisort.py 305, 426, 447, 698); with
    return_tau_arr they hand out the array of depths itself (lines 319, 428, 522, 607 of
    _assemble_intensity_and_fluxes.py). Everything else they read was computed before. *)
From Coq Require Import String Reals List Bool Arith ZArith.
From Verif Require Import Base Tensor M_LinAlg M_Subroutines M_GenPart M_MathscrV M_Coeffs M_Assemble M_Pydisort.
Import ListNotations.
Local Open Scope R_scope.

(** The caller's arguments, the returned mu_arr, and the arrays pydisort makes when tau_arr or
    f_arr is a list or a number. *)
Inductive arr := ATau | AOmega | ALeg | AF | ABpos | ABneg | AS | AMu | PTau | PF.
Definition arr_eqb (x y : arr) : bool :=
  match x, y with
  | ATau, ATau | AOmega, AOmega | ALeg, ALeg | AF, AF | ABpos, ABpos | ABneg, ABneg | AS, AS | AMu, AMu | PTau, PTau | PF, PF => true
  | _, _ => false
  end.
(** Contents of the arrays, by index. *)
Definition store : Type := arr -> list nat -> R.
Definition write (st : store) (x : arr) (i : list nat) (v : R) : store :=
  fun y j => if (arr_eqb x y && list_eqb i j)%bool then v else st y j.
Definition read1 (st : store) (x : arr) (n : nat) : list R := map (fun i => st x [i]) (seq 0 n).

(** The arguments of [_assemble_intensity_and_fluxes] with tau_arr now holding [t]. *)
Definition with_tau (a : as_in) (t : list R) : as_in := {|
  a_omega := a_omega a; a_tau := t; a_stau0 := a_stau0 a; a_mu := a_mu a;
  a_M_inv := a_M_inv a; a_W := a_W a; a_N := a_N a; a_NLeg := a_NLeg a; a_NFourier := a_NFourier a;
  a_NLayers := a_NLayers a; a_multi := a_multi a; a_wLeg := a_wLeg a; a_BDRF := a_BDRF a;
  a_mu0 := a_mu0 a; a_I0 := a_I0 a; a_I0_div_4pi := a_I0_div_4pi a;
  a_rescale := a_rescale a; a_phi0 := a_phi0 a; a_beam := a_beam a;
  a_bpos := a_bpos a; a_bneg := a_bneg a;
  a_bpos_scalar := a_bpos_scalar a; a_bneg_scalar := a_bneg_scalar a;
  a_bpos_vector := a_bpos_vector a; a_bneg_vector := a_bneg_vector a;
  a_Ns := a_Ns a; a_s := a_s a; a_iso := a_iso a; a_scale := a_scale a;
  a_only_flux := a_only_flux a; a_banded := a_banded a; a_autograd := a_autograd a |}.

(** The Nakajima-Tanaka corrections of M_Pydisort with the present contents of tau_arr, f_arr and
    mu_arr. *)
Section Live.
  Variables (p : py_in) (leggauss : leggauss_t) (a : as_in).
  Variables (tauL fL muL : list R).
  Let mu0 := p_mu0 p.
  Let NQ := (2 * pN p)%nat.

  (** pydisort.py 425-449. *)
  Definition live_B (nu : tensor) (ll q ph : nat) : R :=
    scaled_omega p ll * a_I0_div_4pi a * (mu0 / (mu0 + nth q muL 0))
    * (legendre_series (weighted_Leg_all p ll) (NLeg_all p) (elt nu [q; ph]) / (1 - nth ll fL 0)
       - legendre_series (weighted_scaled_Leg p ll) (pNLeg p) (elt nu [q; ph])).
  (** Lines 419-421 and 452-479. *)
  Definition live_stau (t : R) (l : nat) : R := scaled_tau0 p (S l) - (nth l tauL 0 - t) * scale_tau p l.
  Definition live_own (anti : bool) (q : nat) (t : R) (l : nat) : R :=
    let st := live_stau t l in
    if Nat.ltb q (pN p) then
      let e := exp ((st - scaled_tau0 p (S l)) / quad_mu p leggauss q - scaled_tau0 p (S l) / mu0) in
      if anti then exp (- st / mu0) / (- scale_tau p l / mu0) - e / (scale_tau p l / quad_mu p leggauss q)
      else exp (- st / mu0) - e
    else
      let mu := quad_mu p leggauss (q - pN p)%nat in
      let e := exp ((scaled_tau0 p l - st) / mu - scaled_tau0 p l / mu0) in
      if anti then exp (- st / mu0) / (- scale_tau p l / mu0) + e / (scale_tau p l / mu)
      else exp (- st / mu0) - e.
  (** Lines 484-591. *)
  Definition live_other (anti : bool) (ls : list nat) (q : nat) (t : R) (l : nat) : R :=
    let st := live_stau t l in
    if Nat.ltb 1 (pNL p) then
      if Nat.ltb q (pN p) then
        if existsb (fun i => Nat.ltb i (pNL p - 1)) ls
        then R_pos p leggauss anti q l * exp (1 / quad_mu p leggauss q * (st - scaled_tau0 p (S l))) else 0
      else
        if existsb (fun i => Nat.ltb 0 i) ls
        then R_neg p leggauss anti (q - pN p) l * exp (1 / quad_mu p leggauss (q - pN p)%nat * (scaled_tau0 p l - st)) else 0
    else 0.
  (** Lines 409-596. A direction outside [-1, 1] or equal to -mu0 gives nan or inf. *)
  Definition live_TMS (tau phi : list R) (anti : bool) (ls : list nat) : res tensor :=
    let nu := atleast_2d_append (calculate_nu muL phi [- mu0] [p_phi0 p]) in
    match ls with
    | [] => Err (EValue "need at least one array to concatenate")
    | _ =>
      if (existsb (fun l => Reqb (1 - nth l fL 0) 0) ls || existsb (fun x => Rltb 1 (Rabs x) || Reqb (mu0 + x) 0) muL)%bool then Err ENonFinite
      else match shp nu with
           | [n; nphi] =>
               if Nat.eqb n NQ then
                 Ok (mkT [NQ; length tau; nphi] (fun idx =>
                   let q := nth 0 idx 0%nat in let t := nth (nth 1 idx 0%nat) tau 0 in
                   let l := nth (nth 1 idx 0%nat) ls 0%nat in let ph := nth 2 idx 0%nat in
                   live_B nu l q ph * (live_own anti q t l + live_other anti ls q t l)))
               else Err EShape
           | _ => Err EIndex
           end
    end.
  (** Lines 677-687. IMS_correction (613-638) reads nothing that the caller holds. *)
  Definition live_NT (tau phi : list R) (anti : bool) (ls : list nat) : res tensor :=
    let! T := live_TMS tau phi anti ls in
    let! V := IMS_correction p leggauss a tau phi anti in
    if p_autograd p then
      let! s := tadd (tslice 0 (pN p) (pN p) T) V in
      tconcat 0 (tslice 0 0 (pN p) T) s
    else
      let! s := iop Rplus (tslice 0 (pN p) (pN p) T) V in
      Ok (mkT (shp T) (fun idx => match idx with
            | q :: idx' => if Nat.ltb q (pN p) then elt T idx else elt s ((q - pN p)%nat :: idx')
            | [] => elt T idx
            end)).
  (** Lines 643-694. *)
  Definition live_corrected (u_star : list R -> list R -> bool -> bool -> bool -> bool -> res pret)
      (tau phi : list R) (anti ret_err ret_tau : bool) : res pret :=
    let! r := u_star tau phi anti ret_err ret_tau true in
    match r with
    | PTup (PT u :: rest) =>
        let k := (length rest - (if has_iso p then 3 else 1))%nat in
        match nth k rest (PR 0) with
        | PI_ ls =>
            let! c := live_NT tau phi anti ls in
            let! v := tadd u (tscal (a_rescale a) (tsqueeze c)) in
            Ok (ret (ret_err || ret_tau) (PT v :: firstn k rest))
        | _ => Err EType
        end
    | _ => Err EType
    end.
End Live.

(** A call of one of the returned functions. *)
Inductive call :=
  | CUp (tau : list R) (anti ret_tau : bool) | CDown (tau : list R) (anti ret_tau : bool)
  | CU0 (tau : list R) (anti ret_tau ret_act : bool) | CU (tau phi : list R) (anti ret_err ret_tau : bool).
(** What the caller does after [pydisort] has returned: write into an array or make a call. *)
Inductive event := Write (x : arr) (i : list nat) (v : R) | Call (c : call).

Section Session.
  Variables (p : py_in) (leggauss : leggauss_t) (la : linalg) (jk : junk).
  (** [given x]: the argument [x] is an array, not a list or a number. *)
  Variable given : arr -> bool.
  (** The arrays the returned functions refer to (lines 184, 188). *)
  Definition ref_tau : arr := if given ATau then ATau else PTau.
  Definition ref_f : arr := if given AF then AF else PF.

  (** Contents when [pydisort] returns. *)
  Definition start : store := fun x i =>
    match x with
    | ATau | PTau => tau_at p (nth 0 i 0%nat)
    | AF | PF => f_at p (nth 0 i 0%nat)
    | AOmega => omega_at p (nth 0 i 0%nat)
    | ALeg => Leg_all p (nth 0 i 0%nat) (nth 1 i 0%nat)
    | ABpos => elt (p_bpos p) i
    | ABneg => elt (p_bneg p) i
    | AS => at2 (p_s p) (nth 0 i 0%nat) (nth 1 i 0%nat)
    | AMu => nth (nth 0 i 0%nat) (mu_arr p leggauss) 0
    end.

  (** A call with the contents [st]; with only_flux there is no intensity function. *)
  Definition do_call (a : as_in) (sv : solved) (st : store) (c : call) : res pret :=
    let tauL := read1 st ref_tau (length (p_tau p)) in
    let fL := read1 st ref_f (length (p_f p)) in
    let muL := read1 st AMu (length (mu_arr p leggauss)) in
    let a' := with_tau a tauL in
    match c with
    | CUp tau anti rt => cl_flux_up a' sv tau anti rt
    | CDown tau anti rt => cl_flux_down a' sv tau anti rt
    | CU0 tau anti rt ra => cl_u0 a' sv tau anti rt ra
    | CU tau phi anti re rt =>
        if p_only_flux p then Err EType
        else if NT_active p then live_corrected p leggauss a tauL fL muL (cl_u a' sv) tau phi anti re rt
        else cl_u a' sv tau phi anti re rt false
    end.
  (** Results of the calls of a history, in order. *)
  Fixpoint run (a : as_in) (sv : solved) (st : store) (h : list event) : list (res pret) :=
    match h with
    | [] => []
    | Write x i v :: h' => run a sv (write st x i v) h'
    | Call c :: h' => do_call a sv st c :: run a sv st h'
    end.
  (** [pydisort], then a history. *)
  Definition session (h : list event) : res (list (res pret)) :=
    let! _ := validate p in
    let! _ := check (NT_angle_ok p leggauss) (EValue "Some quadrature angles come too close to `mu0`. Perturb `NQuad` or `mu0` to rectify this error.") in
    let! ss := scaled_s p in
    let! r := rescale p ss in
    let a := assemble_args p leggauss r ss in
    let! sv := solve_all a la jk in
    Ok (run a sv start h).
End Session.
