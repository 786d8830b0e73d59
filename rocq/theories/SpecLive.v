(** Vocabulary for the completion of implicit steps (C83). *)
From Coq Require Import List ZArith Bool Arith Reals Lra.
From Verif Require Import Base Scalar Vec MBuffer MZeros PVecR SpecConv.
Import ListNotations.
Open Scope R_scope.

(** the sum of the columns weighted with [x], component i *)
Definition col_sum (cols : list (list R)) (x : list R) (i : nat) : R :=
  fold_right Rplus 0 (map (fun j => nth j x 0 * nth i (nth j cols []) 0) (seq 0 (length x))).
(** np.linalg.solve on regular n by n systems (given by columns) returns their
    solution *)
Definition solves_regular {E : @Env Rops} (n : nat) : Prop :=
  forall cols (b : list R), length cols = n -> (forall c, In c cols -> length c = n) -> length b = n ->
  (forall v, length v = n -> (forall i, (i < n)%nat -> col_sum cols v i = 0) -> forall i, (i < n)%nat -> nth i v 0 = 0) ->
  exists x, @np_solve Rops E cols b = Ret x /\ length x = n /\ forall i, (i < n)%nat -> col_sum cols x i = nth i b 0.
(** the right-hand side returns for every argument of dimension n *)
Definition defined_on (n : nat) (rhs : @rhs_t Rops) : Prop := forall t y, length y = n -> exists f, rhs t y = Ret f.
(** a map of dimension n that differs from the identity by a map with Lipschitz
    constant [th] (maximum norm) *)
Definition near_id (n : nat) (th : R) (func : list R -> outcome (list R)) : Prop :=
  (forall y, length y = n -> exists v, func y = Ret v /\ length v = n) /\
  (forall y z u v e, length y = n -> length z = n -> func y = Ret u -> func z = Ret v -> near e y z ->
     forall i, (i < n)%nat -> Rabs ((cmp i u - cmp i v) - (cmp i y - cmp i z)) <= th * e).
