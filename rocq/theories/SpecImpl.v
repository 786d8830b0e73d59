(** Vocabulary of C74 - C77: implicit stages, Rosenbrock order conditions. *)
From Coq Require Import List ZArith Bool Arith Reals Lra.
From Verif Require Import Base Scalar Vec MBuffer MZeros MSteps MClasses MImplicit Laws SpecRK PVecR SpecOrder SpecStab.
Import ListNotations.
Open Scope R_scope.

(** ** fully implicit Runge-Kutta *)
(** k_i = rhs(t + h c_i, y + h sum_j a_ij k_j) for every stage *)
Definition implicit_stages (rhs : @rhs_t Rops) (A : list (list R)) (C : list R) (t : R) (y : list R) (h : R) (K : list (list R)) : Prop :=
  length K = length A /\
  forall i, (i < length A)%nat ->
    rhs (t + h * nth i C 0) (@vadd Rops y (@lincomb Rops (length y) (map (Rmult h) (nth i A [])) K)) = Ret (nth i K []).
(** [n] rows, [m] columns *)
Definition shape (n m : nat) (K : list (list R)) : Prop := length K = n /\ Forall (fun k => length k = m) K.
(** a root finder: what it returns has the shape of the start value and is a root *)
Definition finds_roots (solver : (list (list R) -> outcome (list (list R))) -> list (list R) -> outcome (list (list R))) : Prop :=
  forall f K0 K n m, shape n m K0 -> solver f K0 = Ret K ->
    shape n m K /\ exists Z, f K = Ret Z /\ Forall (Forall (eq 0)) Z.
(** The classes: matrix, weights, nodes, order, and the stability function as
    numerator and denominator. *)
Record radau : Type := mkradau { r_A : list (list R); r_B : list R; r_C : list R; r_order : nat; r_num : R -> R; r_den : R -> R }.
Definition radau_table : list radau :=
  [ mkradau (@RadauIA3_A Rops) (@RadauIA3_B Rops) (@RadauIA3_C Rops) 3 (fun z => 1 + z / 3) (fun z => 1 - 2 * z / 3 + z ^ 2 / 6);
    mkradau (@RadauIIA3_A Rops) (@RadauIIA3_B Rops) (@RadauIIA3_C Rops) 3 (fun z => 1 + z / 3) (fun z => 1 - 2 * z / 3 + z ^ 2 / 6);
    mkradau (@RadauIIA_A Rops) (@RadauIIA_B Rops) (@RadauIIA_C Rops) 5
      (fun z => 1 + 2 * z / 5 + z ^ 2 / 20) (fun z => 1 - 3 * z / 5 + 3 * z ^ 2 / 20 - z ^ 3 / 60) ].

(** ** Rosenbrock methods (Hairer, Wanner, Solving ODEs II, IV.7) *)
(** Order conditions: a node with one child uses alpha_ij + gamma_ij, a node with
    several children alpha_ij. *)
Fixpoint ros_weights (Al Be : list (list R)) (t : tree) : list R :=
  match t with Node ts =>
    map2 (fun a b => match ts with
                     | [c] => dot b (ros_weights Al Be c)
                     | _ => fold_right (fun c x => dot a (ros_weights Al Be c) * x) 1 ts
                     end) Al Be end.
Definition ros_order (p : nat) (Al Ga : list (list R)) (B : list R) : Prop :=
  forall t, (size t <= p)%nat -> dot B (ros_weights Al (map2 (map2 Rplus) Al Ga) t) = / density t.
(** M N = 1 for square matrices given by rows *)
Definition inverse_of (n : nat) (M N : list (list R)) : Prop :=
  shape n n N /\ forall i j, (i < n)%nat -> (j < n)%nat ->
    dot (nth i M []) (map (fun r => nth j r 0) N) = if Nat.eqb i j then 1 else 0.
(** np.linalg.solve returns a solution: sum_j x_j col_j = b *)
Definition solves_systems {E : @Env Rops} : Prop :=
  forall cols b x, np_solve (Env := E) cols b = Ret x -> length x = length cols /\
    forall i, (i < length b)%nat -> dot x (map (fun c => nth i c 0) cols) = nth i b 0.
(** y' = M y *)
Definition linear_system (M : list (list R)) : @rhs_t Rops := fun _ y => Ret (map (fun row => dot row y) M).
Definition symmetric (n : nat) (M : list (list R)) : Prop := forall i j, (i < n)%nat -> (j < n)%nat -> nth j (nth i M []) 0 = nth i (nth j M []) 0.
(** the stability function of ROS3P, gamma = (3 + sqrt 3) / 6 *)
Definition ros_gamma : R := (3 + sqrt 3) / 6.
Definition ros_num (z : R) : R := 1 + (1 - 3 * ros_gamma) * z + (2 / 3 * ros_gamma - 1 / 6) * z ^ 3.
Definition ros_den (z : R) : R := (1 - ros_gamma * z) ^ 3.
