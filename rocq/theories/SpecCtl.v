(** The step size controller of the variable step classes, over the reals:
    which trials a step makes, which one it records, and the next step size. *)
From Coq Require Import List ZArith Bool Arith Reals Lra Floats.SpecFloat.
From Verif Require Import Base Scalar Vec MBuffer MZeros MSteps MApi MClasses Spec SpecInst SpecRK PVecR SpecDense.
Import ListNotations.
Open Scope R_scope.

(** root mean square over the components of err_i / (atol + rtol max(|y_i|, |yold_i|)) *)
Definition scaled_rms (o : @options Rops) (yold y : list R) (err : nat -> R) : R :=
  let n := length yold in
  sqrt (Rsum (fun i => (err i / (atol o + rtol o * Rmax (Rabs (cmp i y)) (Rabs (cmp i yold)))) ^ 2) n / INR n).
(** component i of h sum_j w_j K_j *)
Definition weighted (w : list R) (h : R) (K : list (list R)) (i : nat) : R := h * dot w (map (fun k => cmp i k) K).

(** the scaled error of a trial from [yold] to [y] with step [h] and stages [K]
    (the derivative at the new point included, last) *)
Definition errfun := list R -> list R -> R -> list (list R) -> R -> Prop.
Definition fsal_error (o : @options Rops) (Ew : list R) : errfun := fun yold y h K e =>
  e = scaled_rms o yold y (weighted Ew h K).
Definition dop_error (o : @options Rops) (E5 E3 : list R) : errfun := fun yold y h K e =>
  let e5 := scaled_rms o yold y (weighted E5 h K) in let e3 := scaled_rms o yold y (weighted E3 h K) in
  e5 <> 0 /\ e = e5 / sqrt (1 + (e3 / (10 * e5)) ^ 2).

Definition accepted (e : R) : Prop := e = 0 \/ e < 1.
(** what h is multiplied by after a trial with scaled error [e] *)
Definition factor (o : @options Rops) (order : Z) (e : R) : R :=
  if Req_EM_T e 0 then max_factor o
  else Rmin (max_factor o) (Rmax (min_factor o) (safety_factor o / Rpower e (1 / IZR (order + 1)))).

(** [attempts … h l y' f' h']: starting with step size [h], the trials [l] (step
    size, error) are made; the last one gives (y', f') and is the only one to be
    accepted; afterwards the step size is [h'] *)
Inductive attempts (rhs : @rhs_t Rops) (A : list (list R)) (B C : list R) (err : errfun) (o : @options Rops) (order : Z)
  (t : R) (y f : list R) : R -> list (R * R) -> list R -> list R -> R -> Prop :=
| att_accept h K y' f' e : @rk_step Rops rhs A B C t y f h K y' -> rhs (t + h) y' = Ret f' -> err y y' h (K ++ [f']) e ->
    accepted e -> attempts rhs A B C err o order t y f h [(h, e)] y' f' (h * factor o order e)
| att_reject h K y1 f1 e l y' f' h' : @rk_step Rops rhs A B C t y f h K y1 -> rhs (t + h) y1 = Ret f1 -> err y y1 h (K ++ [f1]) e ->
    ~ accepted e -> attempts rhs A B C err o order t y f (h * factor o order e) l y' f' h' ->
    attempts rhs A B C err o order t y f h ((h, e) :: l) y' f' h'.
(** the step size of the last trial *)
Definition last_h (l : list (R * R)) : R := fst (last l (0, 0)).

(** options that make the error norm meaningful *)
Definition tolerances (o : @options Rops) : Prop := 0 < atol o /\ 0 <= rtol o.

(** the variable step classes: tableau, order of the error estimate and scaled
    error of a trial *)
Inductive variable_step {E : @Env Rops} (o : @options Rops) :
    @meth Rops -> list (list R) -> list R -> list R -> Z -> errfun -> Prop :=
| var_fsal A B C Ew order P : variable_step o (@Fsal Rops A B C Ew order P) A B C order (fsal_error o Ew)
| var_dop A B C E5 E3 order D Af Cf : @numba_mode Rops E = true ->
    variable_step o (@Dop Rops A B C E5 E3 order D Af Cf) A B C order (dop_error o E5 E3).

(** options that agree except for min_step and max_step *)
Definition same_but_steps {OT : Ops} (o o' : options) : Prop :=
  atol o = atol o' /\ rtol o = rtol o' /\ min_factor o = min_factor o' /\ max_factor o = max_factor o' /\ safety_factor o = safety_factor o'.

(** y' = 0 *)
Definition rhs_zero {OT : Ops} : rhs_t := fun _ y => Ret (map (fun _ => zero) y).
(** binary64 right-hand sides that return zeros (of either sign) *)
Definition vanishing (pw : spec_float -> spec_float -> spec_float) (rhs : @rhs_t (SFops pw)) : Prop :=
  forall t y, exists f, rhs t y = Ret f /\ Forall (fun x => exists b, x = S754_zero b) f.
