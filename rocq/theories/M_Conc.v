(** Calls of pydisort that run at the same time and share the array Leg_coeffs_all. A call reads the
    first column of that array three times (pydisort.py 246, 297, 321 or 336) and may set it to 1
    (line 248); NumPy does so element by element. The interleaving of these accesses is arbitrary.
    The other columns are never written (line 605 copies the first column as well, but replaces it
    in line 606). *)
From Coq Require Import String Reals List Bool Arith ZArith.
From Verif Require Import Base Tensor M_LinAlg M_Subroutines M_GenPart M_MathscrV M_Coeffs M_Assemble M_Pydisort Spec_Shared.
Import ListNotations.
Local Open Scope R_scope.

(** The arguments of [_assemble_intensity_and_fluxes] with another weighted_scaled_Leg_coeffs. *)
Definition as_with (a : as_in) (w : nat -> vec) : as_in := {|
  a_omega := a_omega a; a_tau := a_tau a; a_stau0 := a_stau0 a; a_mu := a_mu a;
  a_M_inv := a_M_inv a; a_W := a_W a; a_N := a_N a; a_NLeg := a_NLeg a; a_NFourier := a_NFourier a;
  a_NLayers := a_NLayers a; a_multi := a_multi a; a_wLeg := w; a_BDRF := a_BDRF a;
  a_mu0 := a_mu0 a; a_I0 := a_I0 a; a_I0_div_4pi := a_I0_div_4pi a;
  a_rescale := a_rescale a; a_phi0 := a_phi0 a; a_beam := a_beam a;
  a_bpos := a_bpos a; a_bneg := a_bneg a;
  a_bpos_scalar := a_bpos_scalar a; a_bneg_scalar := a_bneg_scalar a;
  a_bpos_vector := a_bpos_vector a; a_bneg_vector := a_bneg_vector a;
  a_Ns := a_Ns a; a_s := a_s a; a_iso := a_iso a; a_scale := a_scale a;
  a_only_flux := a_only_flux a; a_banded := a_banded a; a_autograd := a_autograd a |}.

(** The array with the first column [c]. *)
Definition with_column (L : arr2) (c : list R) : arr2 :=
  mkA2 (nrow L) (ncol L) (fun l k => if Nat.eqb k 0 then nth l c 0 else at2 L l k).

(** What a call computes after the checks when line 297 has read [A3] and line 321 or 336 [A4]. Of
    [p_Leg p] only the shape and the columns from the second on are used. *)
Section Finish.
  Variables (p : py_in) (A3 A4 : arr2) (leggauss : leggauss_t).
  (** Lines 297, 321, 322, 335, 336. *)
  Definition raw_all (l k : nat) : R := (2 * INR k + 1) * at2 A3 l k.
  Definition raw_scaled (l k : nat) : R := if delta_M p then (at2 A4 l k - f_at p l) / (1 - f_at p l) else at2 A4 l k.
  Definition raw_weighted (l k : nat) : R := raw_scaled l k * (2 * INR k + 1).

  Section Corrections.
    Variable a : as_in.
    Let mu0 := p_mu0 p.
    Let NQ := (2 * pN p)%nat.
    (** Lines 425-449. *)
    Definition conc_B (nu : tensor) (ll q ph : nat) : R :=
      scaled_omega p ll * a_I0_div_4pi a * (mu0 / (mu0 + all_mu p leggauss q))
      * (legendre_series (raw_all ll) (NLeg_all p) (elt nu [q; ph]) / (1 - f_at p ll)
         - legendre_series (raw_weighted ll) (pNLeg p) (elt nu [q; ph])).
    (** Lines 409-596. *)
    Definition conc_TMS (tau phi : list R) (anti : bool) (ls : list nat) : res tensor :=
      let nu := atleast_2d_append (calculate_nu (mu_arr p leggauss) phi [- mu0] [p_phi0 p]) in
      match ls with
      | [] => Err (EValue "need at least one array to concatenate")
      | _ =>
        if existsb (fun l => Reqb (1 - f_at p l) 0) ls then Err ENonFinite
        else match shp nu with
             | [n; nphi] =>
                 if Nat.eqb n NQ then
                   Ok (mkT [NQ; length tau; nphi] (fun idx =>
                     let q := nth 0 idx 0%nat in let t := nth (nth 1 idx 0%nat) tau 0 in
                     let l := nth (nth 1 idx 0%nat) ls 0%nat in let ph := nth 2 idx 0%nat in
                     conc_B nu l q ph * (tms_own p leggauss anti q t l + tms_other p leggauss anti ls q t l)))
                 else Err EShape
             | _ => Err EIndex
             end
      end.
    (** Lines 677-687. *)
    Definition conc_NT (tau phi : list R) (anti : bool) (ls : list nat) : res tensor :=
      let! T := conc_TMS tau phi anti ls in
      let! V := IMS_correction p leggauss a tau phi anti in
      if p_autograd p then
        let! s := tadd (tslice 0 (pN p) (pN p) T) V in
        tconcat 0 (tslice 0 0 (pN p) T) s
      else
        let! s := iop Rplus (tslice 0 (pN p) (pN p) T) V in
        Ok (mkT (shp T) (fun idx => match idx with
              | q :: idx' => if Nat.ltb q (pN p) then elt T idx else elt s ((q - pN p)%nat :: idx')
              | [] => elt T idx
              end)).
    (** Lines 643-694. *)
    Definition conc_corrected (u_star : list R -> list R -> bool -> bool -> bool -> bool -> res pret)
        (tau phi : list R) (anti ret_err ret_tau : bool) : res pret :=
      let! r := u_star tau phi anti ret_err ret_tau true in
      match r with
      | PTup (PT u :: rest) =>
          let k := (length rest - (if has_iso p then 3 else 1))%nat in
          match nth k rest (PR 0) with
          | PI_ ls =>
              let! c := conc_NT tau phi anti ls in
              let! v := tadd u (tscal (a_rescale a) (tsqueeze c)) in
              Ok (ret (ret_err || ret_tau) (PT v :: firstn k rest))
          | _ => Err EType
          end
      | _ => Err EType
      end.
  End Corrections.

  (** Lines 304-714. [po_Leg] is what line 321 or 336 has read. *)
  Definition finish (la : linalg) (jk : junk) : res py_out :=
    let! _ := check (NT_angle_ok p leggauss) (EValue "Some quadrature angles come too close to `mu0`. Perturb `NQuad` or `mu0` to rectify this error.") in
    let! ss := scaled_s p in
    let! r := rescale p ss in
    let a := as_with (assemble_args p leggauss r ss) raw_weighted in
    let! sv := solve_all a la jk in
    let u := fun tau phi anti e t => cl_u a sv tau phi anti e t false in
    Ok (mkPO (mu_arr p leggauss) (cl_flux_up a sv) (cl_flux_down a sv) (cl_u0 a sv)
             (if p_only_flux p then None
              else Some (if NT_active p then conc_corrected a (cl_u a sv) else u))
             A4).
End Finish.

(** A call in progress: not started; reading the column in line 246; writing it in line 248; reading
    it in line 297; reading it in line 321 or 336; finished. A list holds the elements read. *)
Inductive stage :=
  | SStart | SCheck (acc : list R) | SWrite (i : nat) | SRead3 (acc : list R) | SRead4 (c3 acc : list R)
  | SDone (r : res py_out).
(** [ct_warned]: the warning of line 247 has been issued. The field [p_Leg] of [ct_in] is not used. *)
Record cthread := mkCT { ct_in : py_in; ct_junk : junk; ct_stage : stage; ct_warned : bool }.
Definition at_stage (t : cthread) (s : stage) : cthread := mkCT (ct_in t) (ct_junk t) s (ct_warned t).

(** Line 246. *)
Definition seen_bad (p : py_in) (c : list R) : bool :=
  negb (forallb (fun l => Reqb (omega_at p l * nth l c 0) (omega_at p l)) (seq 0 (pNL p))).

Section World.
  Variables (lg : leggauss_t) (la : linalg) (L : arr2).
  (** The present contents of the first column. *)
  Definition column : Type := nat -> R.
  (** Lines 249-291. *)
  Definition after_check (p : py_in) : stage :=
    match run_checks (skipn 9 (checks p)) with Ok _ => SRead3 [] | Err e => SDone (Err e) end.
  (** One access to the column, or the passage from one phase to the next. *)
  Definition cstep (c : column) (t : cthread) : column * cthread :=
    let p := with_phase (ct_in t) L in
    match ct_stage t with
    | SStart =>
        (c, at_stage t (match p_tau p with
                        | [] => SDone (Err EIndex)
                        | _ => match run_checks (firstn 9 (checks p)) with Ok _ => SCheck [] | Err e => SDone (Err e) end
                        end))
    | SCheck acc =>
        if Nat.eqb (length acc) (nrow L) then
          if seen_bad p acc then (c, mkCT (ct_in t) (ct_junk t) (SWrite 0) true) else (c, at_stage t (after_check p))
        else (c, at_stage t (SCheck (acc ++ [c (length acc)])))
    | SWrite i =>
        if Nat.eqb i (nrow L) then (c, at_stage t (after_check p))
        else (fun l => if Nat.eqb l i then 1 else c l, at_stage t (SWrite (S i)))
    | SRead3 acc =>
        if Nat.eqb (length acc) (nrow L) then (c, at_stage t (SRead4 acc []))
        else (c, at_stage t (SRead3 (acc ++ [c (length acc)])))
    | SRead4 c3 acc =>
        if Nat.eqb (length acc) (nrow L) then (c, at_stage t (SDone (finish p (with_column L c3) (with_column L acc) lg la (ct_junk t))))
        else (c, at_stage t (SRead4 c3 (acc ++ [c (length acc)])))
    | SDone _ => (c, t)
    end.

  Fixpoint put {A} (i : nat) (x : A) (l : list A) : list A :=
    match l, i with [], _ => [] | _ :: t, O => x :: t | y :: t, S j => y :: put j x t end.
  Definition cworld : Type := column * list cthread.
  (** Thread [i] takes a step. *)
  Definition cwstep (w : cworld) (i : nat) : cworld :=
    match nth_error (snd w) i with
    | Some t => (fst (cstep (fst w) t), put i (snd (cstep (fst w) t)) (snd w))
    | None => w
    end.
  Definition begin (calls : list (py_in * junk)) : cworld :=
    (fun l => at2 L l 0%nat, map (fun x => mkCT (fst x) (snd x) SStart false) calls).
  (** A schedule names the thread that takes the next step. *)
  Definition cwrun (calls : list (py_in * junk)) (sched : list nat) : cworld := fold_left cwstep sched (begin calls).
End World.

(** What call [i] has returned or raised, if it has finished, whether it has warned of the zeroth
    coefficient, and the first column. *)
Definition outcome (w : cworld) (i : nat) : option (res py_out) :=
  match nth_error (snd w) i with Some t => match ct_stage t with SDone r => Some r | _ => None end | None => None end.
Definition has_warned (w : cworld) (i : nat) : bool := match nth_error (snd w) i with Some t => ct_warned t | None => false end.
