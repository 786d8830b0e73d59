(** Order conditions of a Runge-Kutta tableau: rooted trees, their density and
    elementary weights (Butcher; Hairer, Norsett, Wanner, Solving ODEs I, II.2). *)
From Coq Require Import List ZArith Bool Arith Reals Lra.
From Verif Require Import Base Scalar Vec MBuffer MZeros MSteps MApi MDop853 MClasses Spec SpecInst PVecR.
Import ListNotations.
Open Scope R_scope.

(** rooted trees, given by the subtrees at the root *)
Inductive tree : Type := Node (ts : list tree).
(** number of nodes *)
Fixpoint size (t : tree) : nat :=
  match t with Node ts => S (fold_right (fun c n => (size c + n)%nat) 0%nat ts) end.
(** gamma(t): the size times the densities of the subtrees *)
Fixpoint density (t : tree) : R :=
  match t with Node ts => INR (size t) * fold_right (fun c d => density c * d) 1 ts end.
(** for every stage i, the product over the subtrees c of sum_j a_ij Phi_j(c) *)
Fixpoint stage_weights (A : list (list R)) (t : tree) : list R :=
  match t with Node ts =>
    map (fun a => fold_right (fun c x => dot a (stage_weights A c) * x) 1 ts) A end.
(** Phi(t) = sum_i b_i Phi_i(t) *)
Definition weight (A : list (list R)) (B : list R) (t : tree) : R := dot B (stage_weights A t).

(** the order conditions for all trees with at most [p] nodes *)
Definition has_order (p : nat) (A : list (list R)) (B : list R) : Prop :=
  forall t, (size t <= p)%nat -> weight A B t = / density t.
(** ... up to an error *)
Definition has_order_within (eps : R) (p : nat) (A : list (list R)) (B : list R) : Prop :=
  forall t, (size t <= p)%nat -> Rabs (weight A B t - / density t) <= eps.

(** stage i uses the earlier stages only; node i is the sum of row i *)
Definition lower (A : list (list R)) : Prop := forall i j, (i <= j)%nat -> nth j (nth i A []) 0 = 0.
Definition row_sums (A : list (list R)) (C : list R) : Prop := C = map (fun a => fold_right Rplus 0 a) A.
Definition row_sums_within (eps : R) (A : list (list R)) (C : list R) : Prop :=
  Forall2 (fun c a => Rabs (c - fold_right Rplus 0 a) <= eps) C A.

(** the tableau of a Runge-Kutta class *)
Definition A_rk (m : @meth Rops) : list (list R) :=
  match m with Erk A _ _ | Fsal A _ _ _ _ _ | Dop A _ _ _ _ _ _ _ _ => A | _ => [] end.
Definition B_rk (m : @meth Rops) : list R :=
  match m with Erk _ B _ | Fsal _ B _ _ _ _ | Dop _ B _ _ _ _ _ _ _ => B | _ => [] end.
Definition C_rk (m : @meth Rops) : list R :=
  match m with Erk _ _ C | Fsal _ _ C _ _ _ | Dop _ _ C _ _ _ _ _ _ => C | _ => [] end.
(** the tableau with rhs(t', y') at the end of the step as one more stage *)
Definition A_last (m : @meth Rops) : list (list R) := map (fun a => a ++ [0]) (A_rk m) ++ [B_rk m ++ [0]].
(** the formula whose difference from the step has weights [E] *)
Definition embedded (m : @meth Rops) (E : list R) : list R := map2 Rminus (B_rk m ++ [0]) E.

(** the Taylor polynomial of exp *)
Fixpoint taylor (p : nat) (z : R) : R :=
  match p with O => 1 | S q => taylor q z + z ^ p / INR (fact p) end.
(** y' = lam y *)
Definition linear (rhs : @rhs_t Rops) (lam : R) : Prop := forall t y, rhs t y = Ret (@vscale Rops lam y).

(** fixed step classes and their orders *)
Definition rk_table : list (@meth Rops * nat) :=
  [(Runge2, 2%nat); (Runge3, 3%nat); (Heun3, 3%nat); (RungeKutta4, 4%nat); (RungeKutta3_8, 4%nat)].
(** ... with the coefficient of z^(p+1) of the step on y' = lam y, z = h lam *)
Definition rk_lin_table : list (@meth Rops * nat * R) :=
  [(Runge2, 2%nat, 0); (Runge3, 3%nat, 1/12); (Heun3, 3%nat, 0); (RungeKutta4, 4%nat, 0); (RungeKutta3_8, 4%nat, 0)].
(** variable step classes: order, order of the embedded formula *)
Definition pair_table : list (@meth Rops * nat * nat) := [(RungeKutta23, 3%nat, 2%nat); (RungeKutta45, 5%nat, 4%nat)].

(** the weights of the error estimates, and the order q in the exponent
    -1/(q + 1) of the step size controller *)
Definition err_weights (m : @meth Rops) : list R := match m with Fsal _ _ _ E _ _ => E | _ => [] end.
Definition err5_weights (m : @meth Rops) : list R := match m with Dop _ _ _ E5 _ _ _ _ _ => E5 | _ => [] end.
Definition err3_weights (m : @meth Rops) : list R := match m with Dop _ _ _ _ E3 _ _ _ _ => E3 | _ => [] end.
Definition exponent_order (m : @meth Rops) : Z := match m with Fsal _ _ _ _ o _ | Dop _ _ _ _ _ o _ _ _ => o | _ => 0%Z end.
(** the order conditions up to [p] hold within [eps], one of order p + 1 fails by
    more than [del] *)
Definition sharper (eps del : R) (p : nat) (A : list (list R)) (B : list R) : Prop :=
  has_order_within eps p A B /\ exists t, size t = S p /\ del < Rabs (weight A B t - / density t).
