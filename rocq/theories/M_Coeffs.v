(** Model of src/PythonicDISORT/_solve_for_coeffs.py. *)
From Coq Require Import String Reals Lra Lia List Bool Arith ZArith.
From Verif Require Import Base Tensor Spec M_LinAlg M_Subroutines M_GenPart M_MathscrV.
Import ListNotations.
Local Open Scope R_scope.

(** Arguments (lines 8-29). [sc_gmi] is G_inv_mu_inv (NLayers x NQuad), meaningful only with an
    isotropic source, [sc_B] only with a beam source; boundary sources are arrays of any shape. *)
Record sc_in : Type := mkSC {
  sc_NFourier : nat; sc_G : nat -> nat -> mat; sc_K : nat -> nat -> vec; sc_B : nat -> nat -> vec;
  sc_gmi : nat -> vec; sc_tau0 : vec; sc_mu : vec; sc_muW : vec; sc_N : nat; sc_NLayers : nat;
  sc_multi : bool; sc_BDRF : list bmode; sc_mu0 : R; sc_I0_div_4pi : R; sc_beam : bool;
  sc_bpos : tensor; sc_bneg : tensor;
  sc_bpos_scalar : bool; sc_bneg_scalar : bool; sc_bpos_vector : bool; sc_bneg_vector : bool;
  sc_Ns : nat; sc_s : nat -> vec; sc_iso : bool; sc_banded : nat
}.

(** [v[i0:i0+n] op= w]. *)
Definition opseg (f : R -> R -> R) (v : vec) (i0 n : nat) (w : vec) : vec :=
  setseg v i0 n (fun i => f (v (i0 + i)%nat) (w i)).
(** Rectangular slice assignment [M[r0:r1, c0:c1] = V]. *)
Definition setrect (M : mat) (r0 r1 c0 c1 : nat) (V : mat) : mat := setblk M r0 c0 (r1 - r0) (c1 - c0) V.

(** A value used where an array of shape (n) is expected: assignment or in-place operation
    with broadcasting (leading axes of length 1 are dropped). *)
Definition as_vec (n : nat) (b : tensor) : res vec :=
  match shp b with
  | [] => Ok (fun _ => elt b [])
  | [k] => if (Nat.eqb k n || Nat.eqb k 1)%bool then Ok (fun i => elt b [bi k i]) else Err EShape
  | [a; k] => if (Nat.eqb a 1 && (Nat.eqb k n || Nat.eqb k 1))%bool then Ok (fun i => elt b [0%nat; bi k i]) else Err EShape
  | _ => Err EShape
  end.

Section Coeffs.
  Context {IM : IntModel}.
  Variable g : sc_in.
  Let N := sc_N g.
  Let NQuad := (2 * sc_N g)%nat.
  Let NLayers := sc_NLayers g.
  Let dim := (sc_NLayers g * (2 * sc_N g))%nat.

  (** Lines 121-134: [R] and [mathscr_X_pos] of mode [m]; [None] without a BDRF mode.
      [R] has one row for a scalar mode and N otherwise; one row is broadcast in every later use,
      so [R] is returned with its row index broadcast. A callable whose value makes R anything
      other than 1 x N or N x N ends in a shape error in the code. *)
  Definition bd_D (md : bmode) : tensor :=
    match md with
    | MScal r => t0 r
    | MFun f => match f (vlist N (sc_mu g)) (vlist N (sc_mu g)) with VScal r => t0 r | VArr A => A end
    end.
  Definition bd_R (m : nat) (md : bmode) : res mat :=
    let! D := tmul (tscal (if Nat.eqb m 0 then 2 else 1) (bd_D md)) (tnew 0 (tvec N (sc_muW g))) in
    match shp D with
    | [p; q] => if (Nat.eqb q N && (Nat.eqb p N || Nat.eqb p 1))%bool
                then Ok (fun i j => elt D [bi p i; j]) else Err EShape
    | _ => Err EShape
    end.
  Definition bd_X (md : bmode) : res vec :=
    let c := sc_mu0 g * sc_I0_div_4pi g * 4 in
    match md with
    | MScal r => Ok (fun _ => c * r)
    | MFun f => match f (vlist N (sc_mu g)) [sc_mu0 g] with
                | VScal _ => Err EType
                | VArr A => match shp A with
                            | [p; q] => if Nat.eqb q 0 then Err EIndex
                                        else as_vec N (mkT [p] (fun idx => c * elt A [hd 0%nat idx; 0%nat]))
                            | _ => Err EIndex
                            end
                end
    end.
  Definition bd_terms (m : nat) : res (option (mat * vec)) :=
    if Nat.ltb m (length (sc_BDRF g)) then
      let md := nth m (sc_BDRF g) (MScal 0) in
      let! R := bd_R m md in
      let! X := if sc_beam g then bd_X md else Ok (fun _ => 0) in
      Ok (Some (R, X))
    else Ok None.

  (** Lines 142-158. *)
  Definition b_mode (is_scalar is_vector : bool) (b : tensor) (m : nat) : res vec :=
    let m0 := Nat.eqb m 0 in
    if (is_scalar && m0)%bool then as_vec N b
    else if (is_vector && m0)%bool then as_vec N b
    else if ((is_scalar || is_vector) && negb m0)%bool then Ok (fun _ => 0)
    else match shp b with
         | [p; q] => if Nat.ltb m q then as_vec N (mkT [p] (fun idx => elt b [hd 0%nat idx; m])) else Err EIndex
         | _ => Err EIndex
         end.

  (** _mathscr_v restricted to the layers [ids] (row [lo..lo+nr) of G), at depths [tau]
      belonging to positions [pos] of [ids]; not an antiderivative, so scale_tau is unused. *)
  Definition v_at (ids : list nat) (lo nr : nat) (tau : list R) (pos : list nat) : res tensor :=
    let at_ {V} (a : nat -> V) (i : nat) : V := a (nth i ids 0%nat) in
    mathscr_v nr NQuad (length ids) tau (t0 0) pos (sc_Ns g) (at_ (sc_s g))
              (fun i q => at_ (sc_G g 0%nat) i (lo + q)%nat) (at_ (sc_K g 0%nat)) (at_ (sc_gmi g)) false.
  (** ravel of an array with one column; ravel(order='F') of an array with [n] rows. *)
  Definition ravel1 (T : tensor) : vec := fun i => elt T [i; 0%nat].
  Definition ravelF (n : nat) (T : tensor) : vec := fun i => elt T [(i mod n)%nat; (i / n)%nat].

  (** Lines 161-254: right-hand side of mode [m]; [junk] is the previous content of RHS. *)
  Definition rhs_bc (m : nat) (junk : vec) : res vec :=
    let! bneg := b_mode (sc_bneg_scalar g) (sc_bneg_vector g) (sc_bneg g) m in
    let! bpos := b_mode (sc_bpos_scalar g) (sc_bpos_vector g) (sc_bpos g) m in
    let r := setseg junk 0 N bneg in
    let r := setseg r (dim - N) N bpos in
    Ok (setseg r N (dim - N - N) (fun _ => 0)).

  Definition rhs_iso (m : nat) (bd : option (mat * vec)) (r : vec) : res vec :=
    if (Nat.eqb m 0 && sc_iso g)%bool then
      let L := (NLayers - 1)%nat in
      let! vt := v_at [0%nat] N N [0] [0%nat] in
      let r := opseg Rminus r 0 N (ravel1 vt) in
      let! r := if sc_multi g then
                  let idx := seq 0 (NLayers - 1) in
                  let taus := map (fun l => sc_tau0 g (S l)) idx in
                  let! vp := v_at (map S idx) 0 NQuad taus idx in
                  let! vm := v_at idx 0 NQuad taus idx in
                  let! d := tsub vp vm in
                  Ok (opseg Rplus r N (dim - N - N) (ravelF NQuad d))
                else Ok r in
      let! vb := v_at [L] 0 N [sc_tau0 g NLayers] [0%nat] in
      let r := opseg Rminus r (dim - N) N (ravel1 vb) in
      match bd with
      | Some (R, _) =>
          let! vn := v_at [L] N N [sc_tau0 g NLayers] [0%nat] in
          Ok (opseg Rplus r (dim - N) N (mvec N R (ravel1 vn)))
      | None => Ok r
      end
    else Ok r.

  Definition rhs_beam (m : nat) (bd : option (mat * vec)) (r : vec) : vec :=
    if sc_beam g then
      let B := sc_B g m in
      let L := (NLayers - 1)%nat in
      let ex := fun l => exp (- sc_tau0 g l / sc_mu0 g) in
      let r := opseg Rminus r 0 N (fun i => B 0%nat (N + i)%nat) in
      let r := if sc_multi g
               then opseg Rplus r N (dim - N - N)
                      (fun p => let l := S (p / NQuad) in let q := (p mod NQuad)%nat in
                                (B l q - B (l - 1)%nat q) * ex l)
               else r in
      match bd with
      | Some (R, X) => opseg Rplus r (dim - N) N
                         (fun i => (X i + mvec N R (fun p => B L (N + p)%nat) i - B L i) * ex NLayers)
      | None => opseg Rminus r (dim - N) N (fun i => B L i * ex NLayers)
      end
    else r.

  (** Lines 261-273. *)
  Definition E_01 (m j : nat) : R := exp (sc_K g m 0 j * sc_tau0 g 1%nat).
  Definition E_L (m j : nat) : R :=
    exp (sc_K g m (NLayers - 1) j * (sc_tau0 g NLayers - sc_tau0 g (NLayers - 1)%nat)).
  (** Lines 306-307, 362-363. *)
  Definition E_lm1l (m l j : nat) : R := exp (sc_K g m l (N + j)%nat * (sc_tau0 g l - sc_tau0 g (l + 1)%nat)).
  Definition E_llp1 (m l j : nat) : R := exp (sc_K g m (l + 1) (N + j)%nat * (sc_tau0 g (l + 1)%nat - sc_tau0 g (l + 2)%nat)).

  (** Block values: the sub-matrices of the eigenvectors times the exponentials of a row vector. *)
  Definition sub (G : mat) (i0 j0 : nat) : mat := fun i j => G (i0 + i)%nat (j0 + j)%nat.
  Definition scale_cols (A : mat) (e : vec) : mat := fun i j => A i j * e j.
  Definition oppm (A : mat) : mat := fun i j => - A i j.
  Definition minus_R (bd : option (mat * vec)) (A B : mat) : mat :=
    match bd with Some (R, _) => fun i j => A i j - mmul N R B i j | None => A end.
  Definition bot_left (m : nat) (bd : option (mat * vec)) : mat :=
    let G := sc_G g m (NLayers - 1)%nat in
    scale_cols (minus_R bd (sub G 0 0) (sub G N 0)) (E_L m).
  Definition bot_right (m : nat) (bd : option (mat * vec)) : mat :=
    let G := sc_G g m (NLayers - 1)%nat in minus_R bd (sub G 0 N) (sub G N N).

  (** Lines 339-378: the dense left-hand side, written over the previous content [M]. *)
  Definition dense_if (m : nat) (M : mat) (l : nat) : mat :=
    let G := sc_G g m l in
    let G1 := sc_G g m (l + 1)%nat in
    let sr := (N + l * NQuad)%nat in
    let sc := (l * NQuad)%nat in
    let M := setrect M sr (N + sr) sc (N + sc) (scale_cols (sub G 0 0) (E_lm1l m l)) in
    let M := setrect M (N + sr) (NQuad + sr) sc (N + sc) (scale_cols (sub G N 0) (E_lm1l m l)) in
    let M := setrect M sr (NQuad + sr) (N + sc) (NQuad + sc) (sub G 0 N) in
    let M := setrect M sr (NQuad + sr) (NQuad + sc) (3 * N + sc) (oppm (sub G1 0 0)) in
    let M := setrect M sr (N + sr) (3 * N + sc) (4 * N + sc) (scale_cols (oppm (sub G1 0 N)) (E_llp1 m l)) in
    setrect M (N + sr) (NQuad + sr) (3 * N + sc) (4 * N + sc) (scale_cols (oppm (sub G1 N N)) (E_llp1 m l)).
  Definition dense_lhs (m : nat) (bd : option (mat * vec)) (M : mat) : mat :=
    let G0 := sc_G g m 0%nat in
    let M := setrect M 0 N 0 N (sub G0 N 0) in
    let M := setrect M 0 N N NQuad (scale_cols (sub G0 N N) (E_01 m)) in
    let M := setrect M (dim - N) dim (dim - NQuad) (dim - N) (bot_left m bd) in
    let M := setrect M (dim - N) dim (dim - N) dim (bot_right m bd) in
    fold_left (dense_if m) (seq 0 (NLayers - 1)) M.

  (** Lines 87-105: the diagonal-ordered buffer is a flat column-major array of (6N-1) x dim
      cells; [view_addr] is the cell reached by element (a, b) of a slanted view. *)
  Definition dof_rows : nat := (6 * sc_N g - 1)%nat.
  Definition view_addr (i0 j0 a b : nat) : Z :=
    ((3 * Z.of_nat N - 1 + Z.of_nat i0 - Z.of_nat j0) + Z.of_nat j0 * Z.of_nat dof_rows
     + Z.of_nat a + Z.of_nat b * (Z.of_nat dof_rows - 1))%Z.
  (** Assignment through a view; a cell outside the buffer would corrupt memory, reported as
      an index error. *)
  Definition view_cells (nrows : nat) : list (nat * nat) := list_prod (seq 0 nrows) (seq 0 N).
  Definition view_set (i0 j0 nrows : nat) (V : mat) (F : vec) : res vec :=
    let cells := view_cells nrows in
    if forallb (fun ab => let p := view_addr i0 j0 (fst ab) (snd ab) in
                          (Z.leb 0 p && Z.ltb p (Z.of_nat (dof_rows * dim)))%bool) cells
    then Ok (fold_left (fun F ab => upd F (Z.to_nat (view_addr i0 j0 (fst ab) (snd ab))) (V (fst ab) (snd ab))) cells F)
    else Err EIndex.

  (** Lines 276-323. *)
  Definition band_if (m : nat) (F : vec) (l : nat) : res vec :=
    let G := sc_G g m l in
    let G1 := sc_G g m (l + 1)%nat in
    let sr := (N + l * NQuad)%nat in
    let sc := (l * NQuad)%nat in
    let! F := view_set sr sc N (scale_cols (sub G 0 0) (E_lm1l m l)) F in
    let! F := view_set (sr + N) sc N (scale_cols (sub G N 0) (E_lm1l m l)) F in
    let! F := view_set sr (sc + N) NQuad (sub G 0 N) F in
    let! F := view_set sr (sc + NQuad) NQuad (oppm (sub G1 0 0)) F in
    let! F := view_set sr (sc + 3 * N) N (scale_cols (oppm (sub G1 0 N)) (E_llp1 m l)) F in
    view_set (sr + N) (sc + 3 * N) N (scale_cols (oppm (sub G1 N N)) (E_llp1 m l)) F.
  Definition band_lhs (m : nat) (bd : option (mat * vec)) (F : vec) : res vec :=
    let G0 := sc_G g m 0%nat in
    let! F := view_set 0 0 N (sub G0 N 0) F in
    let! F := view_set 0 N N (scale_cols (sub G0 N N) (E_01 m)) F in
    let! F := view_set (dim - N) (dim - NQuad) N (bot_left m bd) F in
    let! F := view_set (dim - N) (dim - N) N (bot_right m bd) F in
    fold_left (fun rF l => let! F := rF in band_if m F l) (seq 0 (NLayers - 1)) (Ok F).
  Definition dof_mat (F : vec) : mat := fun r c => F (r + c * dof_rows)%nat.

  Variable la : linalg.

  (** State of the loop over Fourier modes (lines 111-388): the reused buffers and the
      coefficients found so far. The banded solver may overwrite RHS (overwrite_b = True);
      [clob m] is what it leaves there. *)
  Record sc_st : Type := mkSS { ss_lhs : mat; ss_dof : vec; ss_rhs : vec; ss_C : nat -> vec }.

  Definition sc_step (clob : nat -> vec) (s : sc_st) (m : nat) : res sc_st :=
    let! bd := bd_terms m in
    let! r := rhs_bc m (ss_rhs s) in
    let! r := rhs_iso m bd r in
    let r := rhs_beam m bd r in
    if Nat.leb (sc_banded g) NLayers then
      let! F := band_lhs m bd (ss_dof s) in
      let nd := (3 * N - 1)%nat in
      let! C := ofopt (la_solve_banded la nd nd (rows dof_rows dim (dof_mat F)) (vlist dim r)) in
      Ok (mkSS (ss_lhs s) F (clob m) (upd (ss_C s) m (of_list C)))
    else
      let M := dense_lhs m bd (ss_lhs s) in
      let! C := ofopt (la_solve la (rows dim dim M) (vlist dim r)) in
      Ok (mkSS M (ss_dof s) r (upd (ss_C s) m (of_list C))).

  (** Line 390: GC_collect; [jC], [jR] are the np.empty contents (lines 81, 83). *)
  Definition solve_for_coeffs (clob : nat -> vec) (jC : nat -> vec) (jR : vec) : res (nat -> nat -> mat) :=
    let! s := fold_left (fun rs m => let! s := rs in sc_step clob s m) (seq 0 (sc_NFourier g))
                        (Ok (mkSS (fun _ _ => 0) (fun _ => 0) jR jC)) in
    Ok (fun m l i j => sc_G g m l i j * ss_C s m (l * NQuad + j)%nat).
End Coeffs.
