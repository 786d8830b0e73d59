(** Vocabulary for the progress of the variable step classes (C85). *)
From Coq Require Import List ZArith Bool Arith Reals Lra.
From Verif Require Import Base Scalar Vec MBuffer MZeros MSteps MApi MClasses Spec SpecInst PVecR SpecConv.
Import ListNotations.
Open Scope R_scope.

(** at the times from t0 that t_bound allows the right-hand side at y = 0 is
    bounded by [M] *)
Definition bounded_at_zero (n : nat) (M t0 : R) (tb : @ext Rops) (rhs : @rhs_t Rops) : Prop :=
  forall t, t0 <= t -> @gt_ext Rops t tb = false -> exists f, rhs t (repeat 0 n) = Ret f /\ forall i, (i < n)%nat -> Rabs (cmp i f) <= M.
(** factors of the step size controller: rejected trials shrink the step, accepted
    ones with a small error do not *)
Definition shrinking (o : @options Rops) : Prop :=
  0 < min_factor o < 1 /\ 0 < safety_factor o < 1 /\ 1 <= max_factor o.
(** RungeKutta23 and RungeKutta45 *)
Definition pairs : list (@meth Rops) := [RungeKutta23; RungeKutta45].
