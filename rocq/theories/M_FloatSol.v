(** * The attenuation factors of the main solution in double precision.

    Continues [M_Float]: the branch on delta-M scaling, the depth in the scaled atmosphere and
    the exponentials that multiply the homogeneous and the beam solution.  [K] is one positive
    entry of [K_collect] (the attenuation rates come in pairs [-K], [K]). *)
From Coq Require Import ZArith Reals List Bool.
From Flocq Require Import Core IEEE754.BinarySingleNaN.
From Verif Require Import M_Float.
Import ListNotations.
Open Scope nat_scope.

Section Sol.
Variable (a : fatm).

(** pydisort.py 316: [np.any(f_arr > 0)]. *)
Definition s_any : bool := existsb (fun x => flt fzero x) (fa_f a).

(** pydisort.py 318 and 334: [scale_tau]. *)
Definition s_scale (r : nat) : f64 := if s_any then fa_scale a r else fone.

(** pydisort.py 319-320 and 335: [scaled_tau_arr_with_0]. *)
Definition s_tau0 (k : nat) : f64 :=
  if s_any then fa_stau0 a k else match k with O => fzero | S k' => t_ a k' end.

(** _assemble_intensity_and_fluxes.py 190: [np.any(scale_tau != np.ones(NLayers))]. *)
Definition s_scaled : bool := existsb (fun r => negb (Beqb (s_scale r) fone)) (seq 0 (fa_n a)).

(** _assemble_intensity_and_fluxes.py 185-195: [scaled_tau]. *)
Definition s_stau (tau : f64) : f64 :=
  let l := fa_layer a tau in
  if s_scaled then fsub (s_tau0 (S l)) (fmul (fsub (t_ a l) tau) (s_scale l)) else tau.

Variable (lm : libm).

(** _assemble_intensity_and_fluxes.py 197-203 and 230: [np.exp(exponent)], the entries for [-K]
    and for [K]. *)
Definition s_att_upper (K tau : f64) : f64 :=
  l_exp lm (fmul (fopp K) (fsub (s_stau tau) (s_tau0 (fa_layer a tau)))).
Definition s_att_lower (K tau : f64) : f64 :=
  l_exp lm (fmul K (fsub (s_stau tau) (s_tau0 (S (fa_layer a tau))))).

(** _assemble_intensity_and_fluxes.py 225: [np.exp(-scaled_tau / mu0)]. *)
Definition s_beam (mu0 tau : f64) : f64 := l_exp lm (fdiv (fopp (s_stau tau)) mu0).

(** _solve_for_coeffs.py 264 (where the subtracted depth is the leading 0 and the code leaves it
    out) and 271-273: [E_01], [E_Lm1L]. *)
Definition s_E_upper (K : f64) (l : nat) : f64 :=
  l_exp lm (fmul (fopp K) (fsub (s_tau0 (S l)) (s_tau0 l))).

(** _solve_for_coeffs.py 311-312 and 368-369: [E_lm1l], [E_llp1]. *)
Definition s_E_lower (K : f64) (l : nat) : f64 :=
  l_exp lm (fmul K (fsub (s_tau0 l) (s_tau0 (S l)))).

(** _solve_for_coeffs.py 244, 251, 254: [np.exp(-scaled_tau_arr_with_0 / mu0)]. *)
Definition s_beam0 (mu0 : f64) (k : nat) : f64 := l_exp lm (fdiv (fopp (s_tau0 k)) mu0).
End Sol.
