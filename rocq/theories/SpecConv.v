(** Vocabulary of the convergence theorems: error, Lipschitz right-hand side, C2
    solution. *)
From Coq Require Import List ZArith Bool Arith Reals Lra.
From Verif Require Import Base Scalar Vec MBuffer MZeros MSteps MApi MClasses Spec SpecInst PVecR SpecRK.
Import ListNotations.
Open Scope R_scope.

(** no component of [u] differs from that of [v] by more than [e] *)
Definition near (e : R) (u v : list R) : Prop :=
  length u = length v /\ forall i, (i < length u)%nat -> Rabs (cmp i u - cmp i v) <= e.

(** the right-hand side, where it returns, is Lipschitz in y with constant [L] (for
    the maximum norm), uniformly in t, and keeps the dimension *)
Definition lipschitz (n : nat) (L : R) (rhs : @rhs_t Rops) : Prop :=
  0 <= L /\ keeps_dim (OT := Rops) n rhs /\
  forall t y z u v e, length y = n -> length z = n -> near e y z ->
    rhs t y = Ret u -> rhs t z = Ret v -> near (L * e) u v.

(** y solves y' = rhs(t, y) on [t0, te] and is twice continuously differentiable *)
Definition C2_solution (rhs : @rhs_t Rops) (n : nat) (t0 te : R) (y : R -> list R) : Prop :=
  exists dy ddy : R -> list R, forall t, t0 <= t <= te ->
    length (y t) = n /\ rhs t (y t) = Ret (dy t) /\
    forall i, (i < n)%nat ->
      derivable_pt_lim (fun x => cmp i (y x)) t (cmp i (dy t)) /\
      derivable_pt_lim (fun x => cmp i (dy x)) t (cmp i (ddy t)) /\
      continuity_pt (fun x => cmp i (ddy x)) t.

(** how a multistep instance at (t0, y0) with step h is started: without first
    stepper, or with an instance of the fixed step class [m1] *)
Inductive starts {E : @Env Rops} (rhs : @rhs_t Rops) (t0 : R) (y0 : list R) (h : R) : option (@meth Rops) -> @first_stepper Rops -> Prop :=
| starts_none : starts rhs t0 y0 h None FSNone
| starts_fixed m1 g1 s1 fuel1 o1 : garbage_ok m1 g1 -> init_rk m1 g1 rhs t0 y0 (Some h) = Ret s1 ->
    starts rhs t0 y0 h (Some m1) (FSFixed (fun _ _ _ => Ret (solver_of (E := E) m1 fuel1 o1 rhs PInf, s1))).
