(** Model of subroutines.interpolate (subroutines.py 614-705) and of the function it returns,
    as a sequence of atomic steps on the two interpolator objects all calls share. *)
From Coq Require Import String Reals List Bool Arith.
From Verif Require Import Base Tensor M_Subroutines M_Assemble M_Pydisort.
Import ListNotations.
Local Open Scope R_scope.

(** Python's [len] of a returned value: a 0-d array or a number has none. *)
Definition py_len (r : pret) : res nat :=
  match r with
  | PTup vs => Ok (length vs)
  | PVal (PT A) => match shp A with [] => Err EType | n :: _ => Ok n end
  | PVal (PA l) => Ok (length l)
  | PVal (PI_ l) => Ok (length l)
  | PVal (PR _) => Err EType
  end.

(** The functions pydisort returns, told apart by co_argcount (line 644): 5 for [u], 4 for [u0],
    3 for the fluxes. *)
Inductive pyfun : Type :=
| FU (u : list R -> list R -> bool -> bool -> bool -> res pret)
| FU0 (g : list R -> bool -> bool -> bool -> res pret)
| FFlux (g : list R -> bool -> bool -> res pret).

(** Line 638: [u(0, 0)]; the second 0 is the azimuth of [u] and the antiderivative flag of the others. *)
Definition call00 (f : pyfun) : res pret :=
  match f with
  | FU u => u [0] [0] false false false
  | FU0 g => g [0] false false false
  | FFlux g => g [0] false false
  end.

(** What the returned function closes over: [N], [mu_arr_pos], [u]. *)
Record interp : Type := mkIN { in_N : nat; in_nodes : list R; in_fun : pyfun }.

(** Lines 638-645, 702-703. *)
Definition interpolate (leggauss : leggauss_t) (f : pyfun) : res interp :=
  let! r := call00 f in
  let! n := py_len r in
  let N := Nat.div2 n in
  match f with
  | FFlux _ => Err (EValue "This subroutine can only interpolate u or u0.")
  | _ => Ok (mkIN N (fst (Gauss_Legendre_quad leggauss N 0 1)) f)
  end.

(** Arguments of one call (lines 646, 676); [ia_phi] is not used for [u0]. The cosines are 1-d. *)
Record iargs : Type := mkIA {
  ia_mu : list R; ia_tau : list R; ia_phi : list R; ia_anti : bool; ia_err : bool; ia_ret : bool }.
Definition flagged (c : iargs) : bool := (ia_err c || ia_ret c)%bool.

(** Lines 652-656, 682-686: the intensity and the other outputs [u_outputs[1:]]. For [u0] the flags
    are passed by position: return_Fourier_error as return_tau_arr and return_tau_arr as
    _return_act_dscale_for_reclass. *)
Definition fetch (f : pyfun) (c : iargs) : res (tensor * list pv) :=
  let! r := match f with
            | FU u => if flagged c then u (ia_tau c) (ia_phi c) (ia_anti c) (ia_err c) (ia_ret c)
                      else u (ia_tau c) (ia_phi c) (ia_anti c) false false
            | FU0 g => if flagged c then g (ia_tau c) (ia_anti c) (ia_err c) (ia_ret c)
                       else g (ia_tau c) (ia_anti c) false false
            | FFlux _ => Err EType
            end in
  match r with
  | PTup (PT A :: rest) => if flagged c then Ok (A, rest) else Err EType
  | PVal (PT A) => if flagged c then Err EType else Ok (A, [])
  | _ => Err EType
  end.

(** The two interpolator objects (lines 641-642): the values last given to set_yi. *)
Record objs : Type := mkOB { ob_pos : option tensor; ob_neg : option tensor }.

(** BarycentricInterpolator.set_yi: the first axis must have as many entries as there are nodes. *)
Definition set_yi (nodes : list R) (Y : tensor) : res (option tensor) :=
  match shp Y with
  | [] => Err (EValue "x and y arrays must be equal in length along interpolation axis.")
  | n :: _ => if Nat.eqb n (length nodes) then Ok (Some Y)
              else Err (EValue "x and y arrays must be equal in length along interpolation axis.")
  end.
(** Calling the interpolator at the points [x]. *)
Definition eval_yi (nodes : list R) (yi : option tensor) (x : list R) : res tensor :=
  match yi with
  | None => Err EType
  | Some Y => Ok (mkT (length x :: tl (shp Y)) (fun idx =>
                barycentric nodes (fun i => elt Y (i :: tl idx)) (nth (hd 0%nat idx) x 0)))
  end.

(** Rows [u_cache[:N]] and [u_cache[N:]] of an array with at least one axis. *)
Definition rows_to (N : nat) (A : tensor) : tensor :=
  match shp A with n :: _ => tslice 0 0 (Nat.min N n) A | [] => A end.
Definition rows_from (N : nat) (A : tensor) : tensor :=
  match shp A with n :: _ => tslice 0 N (n - N) A | [] => A end.

(** [results[mask] = E]: the rows of [E] go to the rows of [res] for which the mask is true. *)
Definition count_true (mask : list bool) : nat := length (filter (fun b => b) mask).
Definition assign_rows (mask : list bool) (A E : tensor) : res tensor :=
  let! B := iop (fun _ y => y) (mkT (count_true mask :: tl (shp A)) (elt A)) E in
  Ok (mkT (shp A) (fun idx =>
        let k := hd 0%nat idx in
        if nth k mask false then elt B (count_true (firstn k mask) :: tl idx) else elt A idx)).

Definition is_pos (x : R) : bool := Rltb 0 x.
Definition not_pos (x : R) : bool := negb (is_pos x).

(** A call in progress: not yet started (with what np.empty will contain), or at one of the four
    accesses to the shared objects with its local variables, or finished. *)
Record locals : Type := mkLO { lo_mu : list R; lo_cache : tensor; lo_res : tensor; lo_rest : list pv; lo_flag : bool }.
Inductive thread : Type :=
| TStart (c : iargs) (junk : list nat -> R)
| TSetPos (l : locals) | TEvalPos (l : locals) | TSetNeg (l : locals) | TEvalNeg (l : locals)
| TDone (r : res pret).

(** Lines 669-672: the value returned. *)
Definition i_ret (l : locals) : pret := ret (lo_flag l) (PT (tsqueeze (lo_res l)) :: lo_rest l).
Definition with_res (l : locals) (A : tensor) : locals := mkLO (lo_mu l) (lo_cache l) A (lo_rest l) (lo_flag l).

Section Step.
  Variable it : interp.
  Let N := in_N it.
  Let pos := in_nodes it.
  Let neg := map Ropp (in_nodes it).

  (** Lines 647-658 (677-688): checks, the call of [u], the empty array. *)
  Definition i_start (c : iargs) (junk : list nat -> R) : thread :=
    if negb (forallb (fun x => Rleb (Rabs x) 1) (ia_mu c))
    then TDone (Err (EValue "mu values must be between -1 and 1."))
    else match fetch (in_fun it) c with
         | Err e => TDone (Err e)
         | Ok (A, rest) =>
             TSetPos (mkLO (ia_mu c) A (mkT (length (ia_mu c) :: tl (shp A)) junk) rest (flagged c))
         end.

  (** Lines 662-668: one access to a shared object. *)
  Definition step (o : objs) (t : thread) : objs * thread :=
    match t with
    | TStart c junk => (o, i_start c junk)
    | TSetPos l =>
        if existsb is_pos (lo_mu l) then
          match set_yi pos (rows_to N (lo_cache l)) with
          | Ok y => (mkOB y (ob_neg o), TEvalPos l)
          | Err e => (o, TDone (Err e))
          end
        else (o, TSetNeg l)
    | TEvalPos l =>
        match (let! E := eval_yi pos (ob_pos o) (filter is_pos (lo_mu l)) in
               assign_rows (map is_pos (lo_mu l)) (lo_res l) E) with
        | Ok A => (o, TSetNeg (with_res l A))
        | Err e => (o, TDone (Err e))
        end
    | TSetNeg l =>
        if existsb not_pos (lo_mu l) then
          match set_yi neg (rows_from N (lo_cache l)) with
          | Ok y => (mkOB (ob_pos o) y, TEvalNeg l)
          | Err e => (o, TDone (Err e))
          end
        else (o, TDone (Ok (i_ret l)))
    | TEvalNeg l =>
        match (let! E := eval_yi neg (ob_neg o) (filter not_pos (lo_mu l)) in
               assign_rows (map not_pos (lo_mu l)) (lo_res l) E) with
        | Ok A => (o, TDone (Ok (i_ret (with_res l A))))
        | Err e => (o, TDone (Err e))
        end
    | TDone r => (o, t)
    end.

  (** Several calls in progress; a schedule names the call that takes the next step. *)
  Definition world : Type := objs * list thread.
  Fixpoint upd (i : nat) (t : thread) (ts : list thread) : list thread :=
    match ts, i with
    | [], _ => []
    | _ :: r, O => t :: r
    | x :: r, S j => x :: upd j t r
    end.
  Definition wstep (w : world) (i : nat) : world :=
    match nth_error (snd w) i with
    | Some t => let '(o, t') := step (fst w) t in (o, upd i t' (snd w))
    | None => w
    end.
  Definition wrun (sched : list nat) (w : world) : world := fold_left wstep sched w.

  (** One call from beginning to end (five steps suffice) and a sequence of calls. *)
  Definition run1 (o : objs) (t : thread) : objs * thread :=
    let s w := step (fst w) (snd w) in s (s (s (s (s (o, t))))).
  Definition i_call (o : objs) (c : iargs) (junk : list nat -> R) : objs * res pret :=
    match run1 o (TStart c junk) with
    | (o', TDone r) => (o', r)
    | (o', _) => (o', Err EType)
    end.
  Fixpoint i_calls (o : objs) (cs : list (iargs * (list nat -> R))) : objs * list (res pret) :=
    match cs with
    | [] => (o, [])
    | (c, junk) :: r => let '(o', x) := i_call o c junk in let '(o'', xs) := i_calls o' r in (o'', x :: xs)
    end.
End Step.
