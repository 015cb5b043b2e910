(** The returned functions at depths given as integers (Python ints or integer arrays; np.atleast_1d,
    _assemble_intensity_and_fluxes.py lines 179, 343, 452, 534, keeps the integer type). Comparisons with tau_arr,
    differences with the (float) layer boundaries and quotients convert to floats. If there is delta-M
    scaling then the scaled depths are floats (lines 190-193, 354-357, 463-466, 545-548). Otherwise (lines
    194-195, 368-369, 467-468, 549-550) the integers reach subroutines._mathscr_v, whose powers and squares of
    them are taken in the integers of the machine. *)
From Coq Require Import String Reals Lra Lia List Bool Arith ZArith.
From Verif Require Import Base Tensor Spec M_LinAlg M_Subroutines M_MathscrV M_Assemble M_Pydisort M_Ints.
Import ListNotations.
Local Open Scope R_scope.

(** tau ** k for an integer array and an array of exponents of the default type (subroutines.py lines 855-860):
    products in [b] bits that wrap around. *)
Definition ipow (b z : Z) (k : nat) : R := IZR (wrap_int b (z ^ Z.of_nat k)).
(** tau * tau (line 813). *)
Definition isq (b z : Z) : R := IZR (wrap_int b (z * z)).

Section MathscrVZ.
  Context {IM : IntModel}.
  Variable b : Z.
  Variables (nr nq NL : nat) (tau : list Z) (scale_tau : tensor) (l : list nat) (Ns : nat).
  Variables (s : nat -> vec) (G : nat -> mat) (K : nat -> vec) (gm : nat -> vec).
  Variable anti : bool.

  (** subroutines.py lines 799-819; as [v_branch2] but for tau * tau. *)
  Definition vz_branch2 : res tensor :=
    let c0w : nat -> vec := fun ll k => s ll 1%nat * K_inv K ll k * gm ll k in
    let c1w : nat -> vec := fun ll k => (s ll 0%nat * K_inv K ll k + s ll 1%nat * (K_inv K ll k * K_inv K ll k)) * gm ll k in
    let d0 := ein_il nr nq NL G c0w in
    let d1 := ein_il nr nq NL G c1w in
    let p0 := if anti then t1 (map (fun z => isq b z / 2) tau) else t1 (map IZR tau) in
    let p1 := if anti then t1 (map IZR tau) else tmap (fun _ => 1) (t1 (map IZR tau)) in
    let! d0l := ttake 1 l d0 in
    let! d1l := ttake 1 l d1 in
    let! x := tmul d0l (tnew 0 p0) in
    let! y := tmul d1l (tnew 0 p1) in
    let! xy := tadd x y in
    if anti then tdiv xy scale_tau else Ok xy.

  (** Lines 822-862; as [v_branchN] but for the powers of the depths. *)
  Definition vz_branchN : res tensor :=
    let pw := fun j => (Ns - 1 - j)%nat in
    let! tau_poly :=
      if anti then
        let p := mkT [1%nat; Ns] (fun idx => INR (S (pw (nth 1 idx 0%nat)))) in
        let! d := tmul p scale_tau in
        tdiv (mkT [length tau; Ns] (fun idx => ipow b (nth (nth 0 idx 0%nat) tau 0%Z) (S (pw (nth 1 idx 0%nat))))) d
      else Ok (mkT [length tau; Ns] (fun idx => ipow b (nth (nth 0 idx 0%nat) tau 0%Z) (pw (nth 1 idx 0%nat)))) in
    let! bl := ttake 0 l (mathscr_b nr nq NL Ns s G K gm) in
    if list_eqb (shp tau_poly) [length l; Ns]
    then Ok (mkT [nr; length l] (fun idx => let q := nth 0 idx 0%nat in let t := nth 1 idx 0%nat in
               rsum Ns (fun p => elt bl [t; q; p] * elt tau_poly [t; p])))
    else Err EShape.

  (** Lines 785-796 (one coefficient: only the quotient tau / scale_tau) are those of [v_branch1]. *)
  Definition mathscr_vz : res tensor :=
    if Nat.eqb Ns 1 then v_branch1 nr nq NL (map IZR tau) scale_tau l s G K gm anti
    else if Nat.eqb Ns 2 then vz_branch2 else vz_branchN.
End MathscrVZ.

Section ClosuresZ.
  Context {IM : IntModel}.
  Variable b : Z.
  Variable a : as_in.
  Variable sv : solved.
  Let N := a_N a.
  Let NQ := (2 * a_N a)%nat.
  Let NL := a_NLayers a.

  (** _assemble_intensity_and_fluxes.py lines 236-247, 411-422, 470-481, 552-563. *)
  Definition iso_partz (anti : bool) (r0 nr : nat) (tau : list Z) : res tensor :=
    if any_scaled a then iso_part a sv anti r0 nr (map IZR tau)
    else
      let ls := layers a (map IZR tau) in
      let u := uniq (a_NLayers a) ls in
      let at_ {V} (x : nat -> V) (i : nat) : V := x (nth i u 0%nat) in
      mathscr_vz b nr NQ (length u) tau (t1 (vlist NL (a_scale a))) (uniq_inv (a_NLayers a) ls)
        (a_Ns a) (at_ (a_s a)) (fun i q => at_ (sv_G sv 0%nat) i (r0 + q)%nat) (at_ (sv_K sv 0%nat)) (at_ (sv_gmi sv)) anti.

  (** Lines 170-329; as [um_all], [cl_u] but for the isotropic source. *)
  Definition um_allz (anti : bool) (tau : list Z) : res tensor :=
    if a_iso a then let! v := iso_partz anti 0 NQ tau in um_add a (um_core a sv anti (map IZR tau)) v
    else Ok (um_core a sv anti (map IZR tau)).
  Definition cl_uz (tau : list Z) (phi : list R) (anti ret_err ret_tau ret_l : bool) : res pret :=
    let! _ := tau_check a (map IZR tau) in
    let! um := um_allz anti tau in
    let u := u_full a um phi in
    let out := PT (tscal (a_rescale a) (tsqueeze u)) in
    let! e := if ret_err then let! r := Fourier_error a sv anti (map IZR tau) phi u in Ok [PR r] else Ok [] in
    let ts := if ret_tau then [PA (a_tau a)] else [] in
    let ls := if ret_l then PI_ (layers a (map IZR tau)) ::
                (if a_iso a then [PI_ (uniq NL (layers a (map IZR tau))); PI_ (uniq_inv NL (layers a (map IZR tau)))] else [])
              else [] in
    Ok (ret (ret_err || ret_tau || ret_l) (out :: e ++ ts ++ ls)).

  (** Lines 334-433; as [u0_all], [cl_u0]. *)
  Definition u0_allz (anti : bool) (tau : list Z) : res tensor :=
    if a_iso a then let! v := iso_partz anti 0 NQ tau in tadd (u0_core a sv anti (map IZR tau)) v
    else Ok (u0_core a sv anti (map IZR tau)).
  Definition cl_u0z (tau : list Z) (anti ret_tau ret_act : bool) : res pret :=
    let! _ := tau_check a (map IZR tau) in
    let! act := if ret_act then let! r := act_reclass a anti (map IZR tau) in Ok [r] else Ok [] in
    let! u0 := u0_allz anti tau in
    let out := PT (tscal (a_rescale a) (tsqueeze u0)) in
    Ok (ret (ret_tau || ret_act) (out :: (if ret_tau then [PA (a_tau a)] else []) ++ act)).

  (** Lines 446-524; as [flux_up_arr], [cl_flux_up]. *)
  Definition flux_up_arrz (anti : bool) (tau : list Z) : res tensor :=
    let! v := if a_iso a then iso_partz anti 0 N tau else Ok (t0 0) in
    let! s := tadd (half_hom a sv 0 anti (map IZR tau)) (if a_beam a then half_beam a sv 0 anti (map IZR tau) else t0 0) in
    let! u0_pos := tadd s v in
    tvm N (fun i => 2 * PI * muW a i) u0_pos.
  Definition cl_flux_upz (tau : list Z) (anti ret_tau : bool) : res pret :=
    let! _ := tau_check a (map IZR tau) in
    let! flux := flux_up_arrz anti tau in
    Ok (ret ret_tau (PT (tscal (a_rescale a) (tsqueeze flux)) :: if ret_tau then [PA (a_tau a)] else [])).

  (** Lines 527-613; as [flux_down_arr], [cl_flux_down]. *)
  Definition flux_down_arrz (anti : bool) (tau : list Z) : res tensor :=
    let! v := if a_iso a then iso_partz anti N N tau else Ok (t0 0) in
    let! d := if a_beam a then (if anti then down_beam_anti a sv (map IZR tau) else Ok (half_beam a sv N anti (map IZR tau))) else Ok (t0 0) in
    let! s := tadd (half_hom a sv N anti (map IZR tau)) d in
    let! u0_neg := tadd s v in
    let! f := tvm N (fun i => 2 * PI * muW a i) u0_neg in
    let! f := tadd f (direct_beam_scaled a anti (map IZR tau)) in
    tsub f (direct_beam a anti (map IZR tau)).
  Definition cl_flux_downz (tau : list Z) (anti ret_tau : bool) : res pret :=
    let! _ := tau_check a (map IZR tau) in
    let! f := flux_down_arrz anti tau in
    Ok (PTup (PT (tscal (a_rescale a) (tsqueeze f)) :: PT (tscal (a_rescale a) (tsqueeze (direct_beam a anti (map IZR tau))))
              :: if ret_tau then [PA (a_tau a)] else [])).
End ClosuresZ.

(** The functions pydisort returns, at integer depths. *)
Record zpy_out : Type := mkZO {
  zo_flux_up : list Z -> bool -> bool -> res pret;
  zo_flux_down : list Z -> bool -> bool -> res pret;
  zo_u0 : list Z -> bool -> bool -> bool -> res pret;
  zo_u : option (list Z -> list R -> bool -> bool -> bool -> res pret)
}.
(** pydisort.py lines 200-700 as in [pydisort], with these functions ([u_corrected] passes its depths to the
    uncorrected intensity, lines 653-660; its own arithmetic on them, lines 408-641, only combines them with floats). *)
Definition pydisortz {IM : IntModel} (b : Z) (p : py_in) (lg : leggauss_t) (la : linalg) (jk : junk) : res zpy_out :=
  let! _ := validate p in
  let! _ := check (NT_angle_ok p lg) (EValue "Some quadrature angles come too close to `mu0`. Perturb `NQuad` or `mu0` to rectify this error.") in
  let! ss := scaled_s p in
  let! r := rescale p ss in
  let a := assemble_args p lg r ss in
  let! sv := solve_all a la jk in
  Ok (mkZO (cl_flux_upz b a sv) (cl_flux_downz b a sv) (cl_u0z b a sv)
           (if p_only_flux p then None
            else Some (if NT_active p
                       then fun tau phi => u_corrected p lg a (fun _ => cl_uz b a sv tau) (map IZR tau) phi
                       else fun tau phi anti e t => cl_uz b a sv tau phi anti e t false))).
