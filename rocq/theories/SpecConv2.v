(** Vocabulary for C33 with the default first stepper. *)
From Coq Require Import List ZArith Reals.
From Verif Require Import Base Scalar Vec MBuffer MZeros MSteps MApi MDop853 MClasses Spec SpecInst SpecRK SpecMS SpecConv.
Import ListNotations.
Open Scope R_scope.

(** the first stepper of a multistep instance at (t0, y0) by default
    (multistep/core.py:15, 46-47, 61-62): a RungeKutta45 instance with default
    options, whose constructor chose H0 as the size of its first step *)
Inductive starts_default {E : @Env Rops} (rhs : @rhs_t Rops) (t0 : R) (y0 : list R) (H0 : R) : @first_stepper Rops -> Prop :=
| starts_rk45 g1 sel s1 fuel1 : garbage_ok RungeKutta45 g1 ->
    init_var RungeKutta45 g1 rhs t0 y0 default_options sel None = Ret s1 -> hstep s1 = H0 ->
    starts_default rhs t0 y0 H0 (FSVar (fun _ _ => Ret (solver_of (E := E) RungeKutta45 fuel1 default_options rhs PInf, s1))).
