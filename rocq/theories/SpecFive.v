(** Vocabulary of the theorems on order five. *)
From Coq Require Import List ZArith Bool Arith Reals Lra.
From Verif Require Import Base Scalar Vec MBuffer MZeros MSteps MApi MClasses Spec SpecInst PVecR SpecRK SpecConv SpecConv3.
Import ListNotations.
Open Scope R_scope.

(** as [smooth_along], J being three times continuously differentiable in t *)
Definition smooth_along3 (rhs : @rhs_t Rops) (n : nat) (t0 te : R) (y : R -> list R) : Prop :=
  exists (J J1 J2 J3 : nat -> nat -> R -> R) (M : R), forall t, t0 <= t <= te ->
    (forall i j, (i < n)%nat -> (j < n)%nat ->
       derivable_pt_lim (J i j) t (J1 i j t) /\ derivable_pt_lim (J1 i j) t (J2 i j t) /\
       derivable_pt_lim (J2 i j) t (J3 i j t) /\ continuity_pt (J3 i j) t) /\
    (forall z f g e i, near e z (y t) -> rhs t z = Ret f -> rhs t (y t) = Ret g -> (i < n)%nat ->
       Rabs (cmp i f - cmp i g - dot (map (fun j => J i j t) (seq 0 n)) (@vsub Rops z (y t))) <= M * (e * e)).
