(** The warnings of [pydisort] (pydisort.py 246-247, 260-261, 340-344). NumPy's own RuntimeWarnings
    are not modelled. *)
From Coq Require Import String Reals List Bool Arith ZArith.
From Verif Require Import Base Tensor M_LinAlg M_Subroutines M_Assemble M_Pydisort.
Import ListNotations.
Local Open Scope R_scope.

Inductive warning := WLeg0 | WFourier | WAlbedo | WLeg.
(** A check that may raise, or a condition under which a warning is issued. *)
Inductive step := Check (ok : bool) (msg : string) | Warn (cond : bool) (w : warning).
Fixpoint steps_result (l : list step) : res unit :=
  match l with [] => Ok tt | Check b s :: t => if b then steps_result t else Err (EValue s) | Warn _ _ :: t => steps_result t end.
Fixpoint steps_warnings (l : list step) : list warning :=
  match l with [] => [] | Check b _ :: t => if b then steps_warnings t else [] | Warn c w :: t => (if c then [w] else []) ++ steps_warnings t end.
Definition to_step (c : bool * string) : step := Check (fst c) (snd c).

Section Warnings.
  Variables (p : py_in) (leggauss : leggauss_t).
  (** Line 260. *)
  Definition fourier_large : bool := (64 <? e_NFourier p)%Z && negb (p_only_flux p).
  (** Line 340. *)
  Definition albedo_large : bool := existsb (fun l => Rltb (1 - 1 / 1000000) (scaled_omega p l)) (seq 0 (pNL p)).
  (** Line 342. For f = 1 the code divides the negative g - 1 by 0 and compares -inf. *)
  Definition leg_large : bool :=
    existsb (fun l => existsb (fun k => ((delta_M p && Reqb (f_at p l) 1)
                                         || Rltb (scaled_Leg p l k) (- (95 / 100)) || Rltb (95 / 100) (scaled_Leg p l k))%bool)
                              (seq 1 (pNLeg p - 1))) (seq 0 (pNL p)).
  (** Lines 223-344 in order: the checks of [checks] (of which the ninth is that of line 240, the
      fourteenth that of line 258), the warnings between them, the check of line 309, the last two
      warnings. *)
  Definition steps : list step :=
    map to_step (firstn 9 (checks p)) ++ [Warn (leg0_bad p) WLeg0]
    ++ map to_step (firstn 5 (skipn 9 (checks p))) ++ [Warn fourier_large WFourier]
    ++ map to_step (skipn 14 (checks p))
    ++ [Check (NT_angle_ok p leggauss) "Some quadrature angles come too close to `mu0`. Perturb `NQuad` or `mu0` to rectify this error.";
        Warn albedo_large WAlbedo; Warn leg_large WLeg].
  (** Warnings issued before the call returns or raises, in order. An empty tau_arr raises in line
      212. [scaled_s] (line 325 and 338) may raise between line 309 and line 340. *)
  Definition py_warnings : list warning :=
    match p_tau p with
    | [] => []
    | _ => match scaled_s p with
           | Ok _ => steps_warnings steps
           | Err _ => steps_warnings (firstn (length steps - 2) steps)
           end
    end.
End Warnings.
