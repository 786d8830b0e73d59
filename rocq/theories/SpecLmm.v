(** Vocabulary of C79: the recorded history of a multistep instance against a
    solution. *)
From Coq Require Import List ZArith Bool Arith Reals Lra.
From Verif Require Import Base Scalar Vec MBuffer MZeros MSteps MApi MClasses Spec SpecInst PVecR SpecRK SpecMS SpecConv SpecVar.
Import ListNotations.
Open Scope R_scope.

(** the last [N] recorded rows are at times hstep apart, none before t0; their
    derivatives are those rhs gives and their states are within [d] of [y] *)
Definition recorded (N : nat) (rhs : @rhs_t Rops) (y : R -> list R) (t0 d : R) (s : @st Rops) : Prop :=
  let row_t j := nth j (lastn N (ts (cache s))) 0 in
  let row_y j := nth j (lastn N (ys (cache s))) [] in
  let row_f j := nth j (lastn N (fs (cache s))) [] in
  t0 <= now s - INR (N - 1) * hstep s /\
  forall j, (j < N)%nat ->
    row_t j = now s - INR (N - 1 - j) * hstep s /\ rhs (row_t j) (row_y j) = Ret (row_f j) /\ near d (row_y j) (y (row_t j)).

(** no step from s0 on that ends before te leaves more than rho, in any component, of
    the equation of the class *)
Definition leaves_at_most (rho te : R) (m : @meth Rops) (sv : @solver Rops) (s0 : @st Rops) : Prop :=
  forall x x', stepped sv s0 x -> completes sv (s_bound sv) x x' -> now x' <= te ->
  Forall (fun r => Rabs r <= rho) (lm_residual (A_of m) (B_of m) (new_weight m) x (state x') (deriv x')).
