(** Vocabulary of C73: the Adams classes whose coefficients do not have the order
    the class is named after. *)
From Coq Require Import List Reals.
From Verif Require Import Base Scalar Vec MSteps MClasses Laws.
Import ListNotations.
Open Scope R_scope.

(** the class, and the constant D of its error -D c2 h^2 on one step of
    y' = 2 c2 t *)
Definition adams_defects : list (@meth Rops * R) :=
  [(AB2, 4); (AB3, 6); (AB4, 8); (AB5, 10); (AM4, 3); (AM5, 325/72)].
