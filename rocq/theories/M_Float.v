(** * The same code in IEEE-754 double precision.

    The other files of the model compute with real numbers.  This one models, operation by
    operation and with the rounding of binary64 (Flocq's [BinarySingleNaN], round to nearest,
    ties to even, which is what NumPy uses), the checks of the optical properties, the delta-M
    scaling and the part of the Nakajima-Tanaka correction of the intensity that accumulates the
    contributions of the other layers.  One entry of the arrays is computed at a time: one
    direction [mu], one depth, one azimuth.

    Simplifications: arrays are functions from indices (or lists, for the caller's arguments);
    [np.exp] and [np.expm1] are the arguments [l_exp] and [l_expm1]; the values which the
    correction only multiplies or adds (the uncorrected intensity [ustar], the source factor
    [B] of pydisort.py 445-449, the other correction [ims] of pydisort.py 613-638 and the rescaling factor) are
    arguments. *)
From Coq Require Import ZArith Reals List Bool.
From Flocq Require Import Core IEEE754.BinarySingleNaN.
Import ListNotations.
Open Scope nat_scope.

(** numpy.float64. *)
Definition prec64 : Prec_gt_0 53 := eq_refl.
Definition emax64 : Prec_lt_emax 53 1024 := eq_refl.
Definition f64 := binary_float 53 1024.

Definition fval (x : f64) : R := B2R x.
Definition ffin (x : f64) : bool := is_finite x.
Definition fnan : f64 := B754_nan.
Definition fzero : f64 := B754_zero false.
Definition fone : f64 := @Bone 53 1024 prec64 emax64.
Definition fadd (x y : f64) : f64 := @Bplus 53 1024 prec64 emax64 mode_NE x y.
Definition fsub (x y : f64) : f64 := @Bminus 53 1024 prec64 emax64 mode_NE x y.
Definition fmul (x y : f64) : f64 := @Bmult 53 1024 prec64 emax64 mode_NE x y.
Definition fdiv (x y : f64) : f64 := @Bdiv 53 1024 prec64 emax64 mode_NE x y.
Definition fopp (x : f64) : f64 := Bopp x.
Definition fabs (x : f64) : f64 := Babs x.
(** Comparisons; false when an argument is NaN. *)
Definition fle (x y : f64) : bool := Bleb x y.
Definition flt (x y : f64) : bool := Bltb x y.

(** [np.exp] and [np.expm1] of the installed NumPy. *)
Record libm := { l_exp : f64 -> f64; l_expm1 : f64 -> f64 }.

(** [np.cumsum(a)[k]]: a sequential sum from the left (NumPy does not sum pairwise here). *)
Fixpoint csum (a : nat -> f64) (k : nat) : f64 :=
  match k with O => a 0 | S k' => fadd (csum a k') (a k) end.

(** [np.cumsum(a[::-1])[::-1][k]] for an array of length [n]. *)
Definition rcsum (a : nat -> f64) (n k : nat) : f64 :=
  csum (fun i => a (n - 1 - i)) (n - 1 - k).

(** The optical properties as the caller passes them ([tau_arr], [omega_arr], [f_arr]). *)
Record fatm := { fa_tau : list f64; fa_omega : list f64; fa_f : list f64 }.

Definition fa_n (a : fatm) : nat := length (fa_tau a).
Definition t_ (a : fatm) (r : nat) : f64 := nth r (fa_tau a) fnan.
Definition w_ (a : fatm) (r : nat) : f64 := nth r (fa_omega a) fnan.
Definition f_ (a : fatm) (r : nat) : f64 := nth r (fa_f a) fnan.

(** pydisort.py 212: [prepend(np.diff(tau_arr), NLayers - 1, tau_arr[0])]. *)
Definition fa_thick (a : fatm) (r : nat) : f64 :=
  match r with O => t_ a 0 | S r' => fsub (t_ a r) (t_ a r') end.

(** pydisort.py 223-229, 239-242 and 286-287: the checks of these three arrays; the lengths are
    compared too ([f_arr] of another length is accepted by the code only if it is all zero, and
    then no scaling takes place). *)
Definition fa_checks (a : fatm) : bool :=
  Nat.eqb (length (fa_omega a)) (fa_n a)
  && Nat.eqb (length (fa_f a)) (fa_n a)
  && forallb (fun x => flt fzero x) (fa_tau a)
  && forallb (fun r => flt fzero (fa_thick a r)) (seq 0 (fa_n a))
  && forallb (fun x => fle fzero x) (fa_omega a)
  && forallb (fun x => flt x fone) (fa_omega a)
  && forallb (fun x => fle fzero x) (fa_f a)
  && forallb (fun x => fle x fone) (fa_f a).

(** pydisort.py 318-324: delta-M scaling. *)
Definition fa_scale (a : fatm) (r : nat) : f64 := fsub fone (fmul (w_ a r) (f_ a r)).
Definition fa_sthick (a : fatm) (r : nat) : f64 := fmul (fa_scale a r) (fa_thick a r).
Definition fa_stau0 (a : fatm) (k : nat) : f64 :=
  match k with O => fzero | S k' => csum (fa_sthick a) k' end.
Definition fa_somega (a : fatm) (r : nat) : f64 :=
  fmul (fdiv (fsub fone (f_ a r)) (fa_scale a r)) (w_ a r).

(** _assemble_intensity_and_fluxes.py 185: [np.argmax(tau <= tau_arr)], the first layer whose
    lower boundary is not above [tau]; 0 when there is none. *)
Fixpoint first_le (x : f64) (l : list f64) : option nat :=
  match l with
  | [] => None
  | y :: l' => if fle x y then Some 0 else option_map S (first_le x l')
  end.
Definition fa_layer (a : fatm) (tau : f64) : nat :=
  match first_le tau (fa_tau a) with Some i => i | None => 0 end.

Section Direction.
(** One direction: [mu] is [mu_arr_pos[n]]. *)
Variables (lm : libm) (a : fatm) (mu mu0 : f64) (anti : bool).
Let n := fa_n a.

(** pydisort.py 306 and 493. *)
Definition d_minv : f64 := fdiv fone mu.
Definition d_mu0inv : f64 := fdiv fone mu0.

(** pydisort.py 498-500. *)
Definition d_exp_front (r : nat) : f64 :=
  match r with
  | O => fone
  | S _ => l_exp lm (fmul (fopp (fa_stau0 a r)) d_mu0inv)
  end.

(** pydisort.py 507, 510, 511. *)
Definition d_log_decay (r : nat) : f64 := fmul (fopp (fa_sthick a r)) d_minv.
Definition d_decay_prod (k : nat) : f64 :=
  match k with O => fone | S k' => l_exp lm (csum d_log_decay k') end.

(** pydisort.py 515. *)
Definition d_ifac (r : nat) : f64 := fdiv mu (fa_scale a r).

(** pydisort.py 521-536: [Rpos[n, l]]. *)
Definition d_em1_pos (r : nat) : f64 :=
  let th := fmul (fa_sthick a r) (fadd d_minv d_mu0inv) in
  let e := fopp (l_expm1 lm (fopp th)) in
  if anti then fmul (d_ifac r) e else e.
Definition d_layer_pos (r : nat) : f64 := fmul (d_em1_pos r) (d_exp_front r).
Definition d_weighted_pos (r : nat) : f64 := fmul (d_layer_pos r) (d_decay_prod r).
Definition d_rpos (l : nat) : f64 :=
  if Nat.ltb (S l) n then fdiv (rcsum d_weighted_pos n (S l)) (d_decay_prod (S l))
  else fzero.

(** pydisort.py 552-580: [Rneg[n, l]]. *)
Definition d_decay (r : nat) : f64 := l_exp lm (d_log_decay r).
Definition d_thick_neg (r : nat) : f64 := fmul (fa_sthick a r) (fsub d_minv d_mu0inv).
Definition d_mask (r : nat) : bool := fle fzero (d_thick_neg r).
Definition f_of_bool (b : bool) : f64 := if b then fone else fzero.
Definition d_exp_x1 (r : nat) : f64 := l_exp lm (fmul (fopp (fa_stau0 a (S r))) d_mu0inv).
Definition d_exp_x0 (r : nat) : f64 := fmul (d_decay r) (d_exp_front r).
Definition d_em1_neg (r : nat) : f64 := l_expm1 lm (fopp (fabs (d_thick_neg r))).
Definition d_layer_neg (r : nat) : f64 :=
  let negthick := fmul (d_em1_neg r) (d_exp_x0 r) in
  let posthick := fmul (fopp (d_em1_neg r)) (d_exp_x1 r) in
  let s := fadd (fmul posthick (f_of_bool (d_mask r)))
                (fmul negthick (f_of_bool (negb (d_mask r)))) in
  if anti then fmul (fopp (d_ifac r)) s else s.
Definition d_weighted_neg (r : nat) : f64 := fdiv (d_layer_neg r) (d_decay_prod (S r)).
Definition d_rneg (l : nat) : f64 :=
  match l with
  | O => fzero
  | S l' => fmul (d_decay_prod l) (csum d_weighted_neg l')
  end.

(** pydisort.py 419-421: depth measured in the scaled atmosphere. *)
Definition d_stau (tau : f64) : f64 :=
  let l := fa_layer a tau in
  fsub (fa_stau0 a (S l)) (fmul (fsub (t_ a l) tau) (fa_scale a l)).

(** pydisort.py 452-478: the contribution of the layer that contains [tau]. *)
Definition d_own_up (tau : f64) : f64 :=
  let l := fa_layer a tau in
  let st := d_stau tau in
  let stl := fa_stau0 a (S l) in
  let e1 := l_exp lm (fdiv (fopp st) mu0) in
  let e2 := l_exp lm (fsub (fdiv (fsub st stl) mu) (fdiv stl mu0)) in
  if anti
  then fsub (fdiv e1 (fdiv (fopp (fa_scale a l)) mu0)) (fdiv e2 (fdiv (fa_scale a l) mu))
  else fsub e1 e2.
Definition d_own_down (tau : f64) : f64 :=
  let l := fa_layer a tau in
  let st := d_stau tau in
  let stm := fa_stau0 a l in
  let e1 := l_exp lm (fdiv (fopp st) mu0) in
  let e2 := l_exp lm (fsub (fdiv (fsub stm st) mu) (fdiv stm mu0)) in
  if anti
  then fadd (fdiv e1 (fdiv (fopp (fa_scale a l)) mu0)) (fdiv e2 (fdiv (fa_scale a l) mu))
  else fsub e1 e2.

(** pydisort.py 482-592: the TMS correction; [lmin] and [lmax] are the uppermost and lowermost
    layers among all the depths of the call ([any_pos], [any_neg]). *)
Definition d_tms_up (lmin : nat) (B tau : f64) : f64 :=
  let l := fa_layer a tau in
  let s := fmul B (d_own_up tau) in
  if Nat.ltb 1 n && Nat.ltb lmin (n - 1) then
    let e := l_exp lm (fmul d_minv (fsub (d_stau tau) (fa_stau0 a (S l)))) in
    fadd s (fmul (fmul (d_rpos l) e) B)
  else s.
Definition d_tms_down (lmax : nat) (B tau : f64) : f64 :=
  let l := fa_layer a tau in
  let s := fmul B (d_own_down tau) in
  if Nat.ltb 1 n && Nat.ltb 0 lmax then
    let e := l_exp lm (fmul d_minv (fsub (fa_stau0 a l) (d_stau tau))) in
    fadd s (fmul (fmul (d_rneg l) e) B)
  else s.

(** pydisort.py 643-694: the corrected intensity. *)
Definition d_u_up (lmin : nat) (ustar rescale B tau : f64) : f64 :=
  fadd ustar (fmul rescale (d_tms_up lmin B tau)).
Definition d_u_down (lmax : nat) (ustar rescale B ims tau : f64) : f64 :=
  fadd ustar (fmul rescale (fadd (d_tms_down lmax B tau) ims)).
End Direction.
