(** Vocabulary of the theorems on the order of convergence. *)
From Coq Require Import List ZArith Bool Arith Reals Lra.
From Verif Require Import Base Scalar Vec MBuffer MZeros MSteps MApi MClasses Spec SpecInst PVecR SpecRK SpecConv.
Import ListNotations.
Open Scope R_scope.

(** y solves y' = rhs(t, y) on [t0, te] and is k >= 1 times continuously
    differentiable; D j is its derivative of order j *)
Definition Ck_solution (k : nat) (rhs : @rhs_t Rops) (n : nat) (t0 te : R) (y : R -> list R) : Prop :=
  exists D : nat -> R -> list R, (forall t, D 0%nat t = y t) /\
  forall t, t0 <= t <= te -> rhs t (y t) = Ret (D 1%nat t) /\
    (forall j, (j <= k)%nat -> length (D j t) = n) /\
    forall i, (i < n)%nat ->
      (forall j, (j < k)%nat -> derivable_pt_lim (fun x => cmp i (D j x)) t (cmp i (D (S j) t))) /\
      continuity_pt (fun x => cmp i (D k x)) t.

(** along y the right-hand side is differentiable in y: the error of the linear
    approximation by the matrix J(t) is at most quadratic, and J is twice
    continuously differentiable in t (this holds if rhs is three times continuously
    differentiable with bounded second derivatives in y) *)
Definition smooth_along (rhs : @rhs_t Rops) (n : nat) (t0 te : R) (y : R -> list R) : Prop :=
  exists (J J1 J2 : nat -> nat -> R -> R) (M : R), forall t, t0 <= t <= te ->
    (forall i j, (i < n)%nat -> (j < n)%nat ->
       derivable_pt_lim (J i j) t (J1 i j t) /\ derivable_pt_lim (J1 i j) t (J2 i j t) /\ continuity_pt (J2 i j) t) /\
    (forall z f g e i, near e z (y t) -> rhs t z = Ret f -> rhs t (y t) = Ret g -> (i < n)%nat ->
       Rabs (cmp i f - cmp i g - dot (map (fun j => J i j t) (seq 0 n)) (@vsub Rops z (y t))) <= M * (e * e)).
