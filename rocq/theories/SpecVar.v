(** Vocabulary of the theorems on the accuracy of the variable step classes. *)
From Coq Require Import List ZArith Bool Arith Reals Lra.
From Verif Require Import Base Scalar Vec MBuffer MZeros MSteps MApi MClasses Spec SpecInst.
Import ListNotations.

Section G.
Context {OT : Ops}.
(** the states of an instance on which step() is called again and again, whether
    it returns or raises *)
Inductive stepped (sv : solver) (s0 : st) : st -> Prop :=
| stepped_start : stepped sv s0 s0
| stepped_next x : stepped sv s0 x -> ~ would_pass (s_bound sv) x -> stepped sv s0 (snd (s_core sv x)).
End G.

Open Scope R_scope.
(** no step that ends before te is longer than H *)
Definition steps_at_most (H te : R) (sv : @solver Rops) (s0 : @st Rops) : Prop :=
  forall x x', stepped sv s0 x -> completes sv (s_bound sv) x x' -> now x' <= te -> now x' - now x <= H.

(** the classes and the order of the error *)
Definition var_table : list (@meth Rops * nat) := [(RungeKutta23, 3%nat); (RungeKutta45, 4%nat)].
