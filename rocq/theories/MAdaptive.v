(** Model of AdaptiveRungeKutta._step_builder (runge_kutta/core.py:101-128), the
    step of the adaptive classes that are not FSAL. The only class in the package
    that inherits it is the abstract Fehlberg45. *)
From Coq Require Import List ZArith Bool.
From Verif Require Import Base Scalar Vec MBuffer MZeros MSteps MApi.
Import ListNotations.
Local Open Scope sc_scope.

Section Adaptive.
Context {OT : Ops} {E : Env}.

(** what is passed to a step function; cache, h and K are the arrays of the
    instance, i.e. the corresponding fields of [st] *)
Inductive pyval : Type :=
| PyBound (b : ext) | PyRhs (r : rhs_t) | PyCache | PyH | PyK | PyOptions (o : options).

(** runge_kutta/core.py:65-67 E = B - B2 *)
Definition embedded_weights (B B2 : list T) : list T := vsub B B2.

(** runge_kutta/core.py:114-120 the loop: trial; if accepted: push; break.
    [fuel] bounds the number of trials. *)
Fixpoint adaptive_loop (fuel : nat) (A : list (list T)) (B C Ew : list T) (o : options) (expo : T) (rhs : rhs_t) : M st unit :=
  match fuel with
  | O => fun s => (Loop, s)
  | S fuel' =>
      do ty <- erk_fixed_step A B C rhs ;;
      let '(t, y) := ty in
      do x <- get ;;
      do error_norm <- lift (norm_fsal Ew o y x) ;;
      do ok <- step_update error_norm o expo ;;
      if ok
      then (do f <- lift (rhs t y) ;; push_st t y f)
      else adaptive_loop fuel' A B C Ew o expo rhs
  end.

(** runge_kutta/core.py:109-122 the function returned by _step_builder, applied to
    positional arguments: it has the six parameters
    (t_bound, rhs, cache, h, K, options); any other number is a TypeError *)
Definition adaptive_step (fuel : nat) (A : list (list T)) (B C B2 : list T) (order : Z) (args : list pyval) : M st bool :=
  match args with
  | [PyBound t_bound; PyRhs rhs; PyCache; PyH; PyK; PyOptions o] =>
      fun s =>
        if gt_ext (buf_t (cache s) + hstep s) t_bound then (Ret false, s)
        else (do _ <- adaptive_loop fuel A B C (embedded_weights B B2) o (error_exponent order) rhs ;; ret true) s
  | _ => raise TypeError
  end.

(** runge_kutta/core.py:126-128 _step_args *)
Definition adaptive_step_args (rhs : rhs_t) (o : options) : list pyval := [PyRhs rhs; PyCache; PyH; PyK; PyOptions o].

(** a concrete subclass: core.py:176-182 wraps the step function and calls it
    with (rhs, cache, h, *args), that is without t_bound *)
Definition adaptive_solver (fuel : nat) (A : list (list T)) (B C B2 : list T) (order : Z) (o : options) (rhs : rhs_t) (tb : ext) : solver :=
  mksolver (do _ <- adaptive_step fuel A B C B2 order (adaptive_step_args rhs o) ;; ret tt) interp_default tb.
End Adaptive.
