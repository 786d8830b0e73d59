(** The linear test equation y' = lam y and the factor by which a class multiplies
    the state in a step. *)
From Coq Require Import List ZArith Bool Arith Reals Lra.
From Verif Require Import Base Scalar Vec MBuffer MZeros MSteps MApi MDop853 MClasses Spec SpecInst.
Import ListNotations.
Open Scope R_scope.

Definition test_equation (lam : R) : @rhs_t Rops := fun _ y => Ret (map (fun x : R => lam * x) y).
Definition times (c : R) (y : list R) : list R := map (fun x => c * x) y.

(** the explicit classes: factor as a function of z = h lam *)
Definition factors : list (@meth Rops * (R -> R)) :=
  [(ForwardEuler, fun z => 1 + z); (AB1, fun z => 1 + z);
   (Runge2, fun z => 1 + z + z ^ 2 / 2);
   (Runge3, fun z => 1 + z + z ^ 2 / 2 + z ^ 3 / 6 + z ^ 4 / 12);
   (Heun3, fun z => 1 + z + z ^ 2 / 2 + z ^ 3 / 6);
   (RungeKutta4, fun z => 1 + z + z ^ 2 / 2 + z ^ 3 / 6 + z ^ 4 / 24);
   (RungeKutta3_8, fun z => 1 + z + z ^ 2 / 2 + z ^ 3 / 6 + z ^ 4 / 24);
   (RungeKutta23, fun z => 1 + z + z ^ 2 / 2 + z ^ 3 / 6);
   (RungeKutta45, fun z => 1 + z + z ^ 2 / 2 + z ^ 3 / 6 + z ^ 4 / 24 + z ^ 5 / 120 + z ^ 6 / 600)].
(** the one step implicit classes: weight of the new derivative and factor *)
Definition implicit_factors : list (@meth Rops * R * (R -> R)) :=
  [(BackwardEuler, 1, fun z => 1 / (1 - z)); (AM1, 1, fun z => 1 / (1 - z)); (BDF1, 1, fun z => 1 / (1 - z));
   (AM2, 1 / 2, fun z => (1 + z / 2) / (1 - z / 2))].

(** step sizes for which the explicit classes do not amplify: h lam in [-a, 0] *)
Definition stable_for : list (@meth Rops * R) :=
  [(ForwardEuler, 2); (AB1, 2); (Runge2, 2); (Runge3, 2); (Heun3, 251 / 100); (RungeKutta4, 278 / 100); (RungeKutta3_8, 278 / 100)].
