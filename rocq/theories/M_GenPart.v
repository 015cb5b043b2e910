(** Model of src/PythonicDISORT/_solve_for_gen_and_part_sols.py. *)
From Coq Require Import String Reals Lra Lia List Bool Arith ZArith.
From Verif Require Import Base Tensor Spec M_LinAlg.
Import ListNotations.
Local Open Scope R_scope.

(** Assignment to a rectangular block [M[i0:i0+nr, j0:j0+nc] = V]. *)
Definition setblk (M : mat) (i0 j0 nr nc : nat) (V : mat) : mat :=
  fun i j => if (Nat.leb i0 i && Nat.ltb i (i0 + nr) && Nat.leb j0 j && Nat.ltb j (j0 + nc))%bool
             then V (i - i0)%nat (j - j0)%nat else M i j.
Definition setseg (v : vec) (i0 n : nat) (w : vec) : vec :=
  fun i => if (Nat.leb i0 i && Nat.ltb i (i0 + n))%bool then w (i - i0)%nat else v i.
Definition upd {V} (a : nat -> V) (k : nat) (v : V) : nat -> V :=
  fun i => if Nat.eqb i k then v else a i.

(** Fancy-index assignment [arr[ids, ...] = vals]: entry [ids[p]] is modified by [f]
    with [vals[p]], in order. *)
Fixpoint scatter {V U} (f : V -> U -> V) (ids : list nat) (vals : list U) (arr : nat -> V) : nat -> V :=
  match ids, vals with
  | i :: ids', v :: vals' => scatter f ids' vals' (upd arr i (f (arr i) v))
  | _, _ => arr
  end.

(** Arguments (lines 5-16). *)
Record gp_in : Type := mkGP {
  gp_NFourier : nat; gp_omega : vec; gp_mu : vec; gp_M_inv : vec; gp_W : vec;
  gp_N : nat; gp_NLeg : nat; gp_NLayers : nat; gp_wLeg : nat -> vec;
  gp_mu0 : R; gp_I0_div_4pi : R; gp_beam : bool; gp_iso : bool
}.

Section GenPart.
  Variable g : gp_in.
  Let N := gp_N g.
  Let NQuad := (2 * N)%nat.
  Let NLeg := gp_NLeg g.

  (** Lines 67-70: writes through the flattened matrix; flat index [q] is entry
      (q / NQuad, q mod NQuad). *)
  Definition G_trivial : mat := fun i j =>
    let q := (i * (2 * gp_N g) + j)%nat in
    let hit := fun start => existsb (fun t => Nat.eqb q (start + t * (2 * gp_N g + 1))) (seq 0 (gp_N g)) in
    if (hit (gp_N g) || hit (2 * gp_N g * gp_N g)%nat)%bool then 1 else 0.

  (** Lines 63-65, 97: alternating signs. *)
  Definition signs (k : nat) : R := if Nat.odd k then -1 else 1.

  (** Lines 95-109, Fourier mode [m]; [k] counts the degrees ell = m + k. *)
  Definition gp_poch (m k : nat) : R := poch_term m (m + k).
  Definition leg_pos (m k i : nat) : R := lpmv m (m + k) (gp_mu g i).
  Definition leg_neg (m k i : nat) : R := leg_pos m k i * signs k.
  Definition fac_mu0 (m k : nat) : R :=
    gp_I0_div_4pi g * (if Nat.eqb m 0 then 1 else 2) * gp_poch m k * lpmv m (m + k) (- gp_mu0 g).

  (** Line 117. *)
  Definition om_leg (m l k : nat) : R := gp_omega g l / 2 * gp_wLeg g l (m + k)%nat.

  (** Line 119. *)
  Definition scatters (m l : nat) : bool :=
    existsb (fun k => Rltb (1 / 100000000) (Rabs (om_leg m l k))) (seq 0 (gp_NLeg g - m)).

  (** Lines 123-125. *)
  Definition D_temp (m l : nat) : mat := fun i k => om_leg m l k * (gp_poch m k * leg_pos m k i).
  Definition D_pos (m l : nat) : mat := fun i j => rsum (gp_NLeg g - m) (fun k => D_temp m l i k * leg_pos m k j).
  Definition D_neg (m l : nat) : mat := fun i j => rsum (gp_NLeg g - m) (fun k => D_temp m l i k * leg_neg m k j).

  (** Lines 132-135. *)
  Definition alpha (m l : nat) : mat := fun i j =>
    gp_M_inv g i * (D_pos m l i j * gp_W g j - delta i j).
  Definition beta (m l : nat) : mat := fun i j => gp_M_inv g i * D_neg m l i j * gp_W g j.

  (** Lines 143-152. *)
  Definition X_temp (m l k : nat) : R := fac_mu0 m k * gp_omega g l * gp_wLeg g l (m + k)%nat.
  Definition X_pos (m l i : nat) : R := rsum (gp_NLeg g - m) (fun k => X_temp m l k * leg_pos m k i).
  Definition X_neg (m l i : nat) : R := rsum (gp_NLeg g - m) (fun k => X_temp m l k * leg_neg m k i).

  (** Loop state: the preallocated arrays, the index lists and the counter. *)
  Record gp_st : Type := mkST {
    sG : nat -> mat; sK : nat -> vec; sA : nat -> mat; sX : nat -> vec; sB : nat -> vec; sGi : nat -> mat;
    s_nsi : list nat; s_nsi0 : list nat; s_ind : nat
  }.

  (** Lines 114-170: one iteration of the inner loop. *)
  Definition gp_step (m : nat) (s : gp_st) (l : nat) : gp_st :=
    let ind := s_ind s in
    if scatters m l then
      let X' := if gp_beam g
                then upd (sX s) ind
                       (setseg (setseg (sX s ind) 0 N (fun i => gp_M_inv g i * X_pos m l i))
                               N N (fun i => - gp_M_inv g i * X_neg m l i))
                else sX s in
      let A' := upd (sA s) ind
                  (setblk (setblk (sA s ind) N 0 N N (beta m l)) N N N N (alpha m l)) in
      mkST (sG s) (sK s) A' X' (sB s) (sGi s) (s_nsi s ++ [ind])
           (if (Nat.eqb m 0 && gp_iso g)%bool then s_nsi0 s ++ [l] else s_nsi0 s) (S ind)
    else
      mkST (upd (sG s) ind G_trivial)
           (upd (sK s) ind (setseg (setseg (sK s ind) 0 N (fun i => - gp_M_inv g i)) N N (gp_M_inv g)))
           (sA s) (sX s) (sB s)
           (if (Nat.eqb m 0 && gp_iso g)%bool then upd (sGi s) l G_trivial else sGi s)
           (s_nsi s) (s_nsi0 s) (S ind).

  (** Lines 91-170. *)
  Definition gp_loop (s : gp_st) : gp_st :=
    fold_left (fun s m => fold_left (gp_step m) (seq 0 (gp_NLayers g)) s) (seq 0 (gp_NFourier g)) s.

  Variable la : linalg.

  (** Lines 179-186: eigen-decomposition for one matrix; a non-positive squared
      eigenvalue gives nan or a division by zero. *)
  Definition gp_eig (A : mat) : res (vec * mat) :=
    let al : mat := fun i j => A (N + i)%nat (N + j)%nat in
    let be : mat := fun i j => A (N + i)%nat j in
    let apb : mat := fun i j => al i j + be i j in
    let amb : mat := fun i j => al i j - be i j in
    let! (k2, E) := ofopt (la_eig la (rows N N (mmul N amb apb))) in
    if forallb (fun j => Rltb 0 (of_list k2 j)) (seq 0 N)
    then Ok ((fun j => sqrt (of_list k2 j)), of_rows E)
    else Err ENonFinite.

  (** Lines 190-193, one matrix: (GpG + GmG)/2 and (GpG - GmG)/2. *)
  Definition gp_P (A : mat) (kE : vec * mat) : mat :=
    let al : mat := fun i j => A (N + i)%nat (N + j)%nat in
    let be : mat := fun i j => A (N + i)%nat j in
    let apb : mat := fun i j => al i j + be i j in
    let E2 : mat := fun i j => snd kE i j / 2 in
    fun i j => E2 i j + mmul N apb (fun p q => E2 p q / fst kE q) i j.
  Definition gp_Q (A : mat) (kE : vec * mat) : mat :=
    let al : mat := fun i j => A (N + i)%nat (N + j)%nat in
    let be : mat := fun i j => A (N + i)%nat j in
    let apb : mat := fun i j => al i j + be i j in
    let E2 : mat := fun i j => snd kE i j / 2 in
    fun i j => E2 i j - mmul N apb (fun p q => E2 p q / fst kE q) i j.

  (** Lines 195-198: the four blocks written into one eigenvector matrix. *)
  Definition put_G (G : mat) (PQ : mat * mat) : mat :=
    setblk (setblk (setblk (setblk G 0 0 N N (fst PQ)) N N N N (fst PQ)) 0 N N N (snd PQ)) N 0 N N (snd PQ).
  (** Lines 187, 200. *)
  Definition put_K (K : vec) (k : vec) : vec :=
    setseg (setseg K 0 N (fun j => - k j)) N N k.

  (** Lines 214-222, one matrix. *)
  Definition B_from_inv (G : mat) (K : vec) (Gi : mat) (X : vec) : res vec :=
    if forallb (fun k => negb (Reqb (1 / gp_mu0 g + K k) 0)) (seq 0 NQuad)
    then Ok (of_list (vlist NQuad (fun i => rsum NQuad (fun j => rsum NQuad (fun k =>
                G i j / (1 / gp_mu0 g + K j) * Gi j k * X k)))))
    else Err ENonFinite.

  (** Lines 227-231, one matrix: fill the upper half, add 1/mu0 on the diagonal, solve. *)
  Definition A_full (A : mat) : mat :=
    let A1 := setblk A 0 N N N (fun i j => - A (N + i)%nat j) in
    let A2 := setblk A1 0 0 N N (fun i j => - A1 (N + i)%nat (N + j)%nat) in
    fun i j => A2 i j + delta i j * (1 / gp_mu0 g).
  Definition B_from_solve (A : mat) (X : vec) : res vec :=
    let! x := ofopt (la_solve la (rows NQuad NQuad (A_full A)) (vlist NQuad X)) in
    Ok (of_list x).

  (** Lines 172-233. *)
  Definition gp_post (s : gp_st) : res gp_st :=
    match s_nsi s with
    | [] => Ok s
    | _ =>
      let A_arr := map (sA s) (s_nsi s) in
      let! kE := rmap gp_eig A_arr in
      let PQ := map (fun p => (gp_P (fst p) (snd p), gp_Q (fst p) (snd p))) (combine A_arr kE) in
      let G1 := scatter put_G (s_nsi s) PQ (sG s) in
      let K1 := scatter put_K (s_nsi s) (map fst kE) (sK s) in
      let! Ginvs := rmap (fun l => ofopt (la_inv la (rows NQuad NQuad (G1 l)))) (s_nsi0 s) in
      let Gi1 := scatter (fun _ L => of_rows L) (s_nsi0 s) Ginvs (sGi s) in
      if gp_beam g then
        let! B0 := rmap (fun l => B_from_inv (G1 l) (K1 l) (Gi1 l) (sX s l)) (s_nsi0 s) in
        let B1 := scatter (fun _ b => b) (s_nsi0 s) B0 (sB s) in
        let len0 := length (s_nsi0 s) in
        let nsi' := skipn len0 (s_nsi s) in
        let! B2 := rmap (fun p => B_from_solve (fst p) (sX s (snd p))) (combine (skipn len0 A_arr) nsi') in
        let B3 := scatter (fun _ b => b) nsi' B2 B1 in
        Ok (mkST G1 K1 (sA s) (sX s) B3 Gi1 (s_nsi s) (s_nsi0 s) (s_ind s))
      else Ok (mkST G1 K1 (sA s) (sX s) (sB s) Gi1 (s_nsi s) (s_nsi0 s) (s_ind s))
    end.

  (** Lines 235-243: reshaped outputs. [o_B] is meaningful only with a beam source and
      [o_Ginv] only with an isotropic source. *)
  Record gp_out : Type := mkGO {
    o_G : nat -> nat -> mat; o_K : nat -> nat -> vec; o_B : nat -> nat -> vec; o_Ginv : nat -> mat
  }.

  (** The whole function; [junk] gives the initial contents of the np.empty arrays
      (lines 72-74, 82, 85); B_collect starts at zero (line 83). *)
  Definition gp_init (jG : nat -> mat) (jK : nat -> vec) (jA : nat -> mat) (jX : nat -> vec) (jGi : nat -> mat) : gp_st :=
    mkST jG jK jA jX (fun _ _ => 0) jGi [] [] 0.
  Definition gen_and_part_sols (jG : nat -> mat) (jK : nat -> vec) (jA : nat -> mat) (jX : nat -> vec) (jGi : nat -> mat) : res gp_out :=
    let! s := gp_post (gp_loop (gp_init jG jK jA jX jGi)) in
    Ok (mkGO (fun m l => sG s (m * gp_NLayers g + l)%nat)
             (fun m l => sK s (m * gp_NLayers g + l)%nat)
             (fun m l => sB s (m * gp_NLayers g + l)%nat)
             (sGi s)).
End GenPart.
