(** Polynomial solutions and what it means for a linear multistep method to be
    exact on them. *)
From Coq Require Import List ZArith Bool Arith Reals Lra.
From Verif Require Import Base Scalar Vec MBuffer MZeros MSteps MApi MDop853 MClasses Spec SpecInst PVecR.
Import ListNotations.
Open Scope R_scope.

(** a call step() that took a step *)
Definition took_step {OT : Ops} (sv : solver) (s s' : st) : Prop :=
  exists fuel t a, step sv fuel None None s = (Ret (ROne t a), s').

(** the polynomial with coefficients [p], lowest degree first, and its
    derivative *)
Fixpoint peval (p : list R) (x : R) : R :=
  match p with [] => 0 | a :: p' => a + x * peval p' x end.
Fixpoint pder_from (k : R) (p : list R) : list R :=
  match p with [] => [] | a :: p' => k * a :: pder_from (k + 1) p' end.
Definition pder (p : list R) : list R := match p with [] => [] | _ :: p' => pder_from 1 p' end.
(** degree at most [k] *)
Definition degree_le (k : nat) (p : list R) : Prop := (length p <= k + 1)%nat.

(** a vector of polynomials, one per component *)
Definition solution (Ps : list (list R)) (t : R) : list R := map (fun p => peval p t) Ps.
Definition slope (Ps : list (list R)) (t : R) : list R := map (fun p => peval (pder p) t) Ps.

(** the last [k] recorded rows lie on the polynomials, at times h apart *)
Definition tracks (k : nat) (Ps : list (list R)) (s : @st Rops) : Prop :=
  let c := cache s in
  lastn k (ts c) = map (fun j => now s - INR (k - 1 - j) * hstep s) (seq 0 k) /\
  lastn k (ys c) = map (solution Ps) (lastn k (ts c)) /\
  lastn k (fs c) = map (slope Ps) (lastn k (ts c)).

(** y' + sum_j A_j y_j = h (sum_j B_j f_j + Bn f'), component by component, over
    the last rows of the history, oldest first *)
Definition lm_relation (A B : list R) (Bn : R) (s : @st Rops) (y' f' : list R) : Prop :=
  forall i, (i < length (state s))%nat ->
    cmp i y' + dot A (map (fun y => cmp i y) (lastn (length A) (ys (cache s)))) =
    hstep s * (dot B (map (fun f => cmp i f) (lastn (length B) (fs (cache s)))) + Bn * cmp i f').

(** the amount by which the relation above fails to hold, as a vector *)
Definition lm_residual (A B : list R) (Bn : R) (s : @st Rops) (y' f' : list R) : list R :=
  map (fun i =>
    cmp i y' + dot A (map (fun y => cmp i y) (lastn (length A) (ys (cache s)))) -
    hstep s * (dot B (map (fun f => cmp i f) (lastn (length B) (fs (cache s)))) + Bn * cmp i f'))
    (seq 0 (length (state s))).

(** the polynomials solve the differential equation *)
Definition solves (rhs : @rhs_t Rops) (Ps : list (list R)) : Prop :=
  forall t, rhs t (solution Ps t) = Ret (slope Ps t).
(** scalar affine problems y' = a(t) y + b(t) *)
Definition affine1 (rhs : @rhs_t Rops) (a b : R -> R) : Prop :=
  forall t y, rhs t [y] = Ret [a t * y + b t].

(** right-hand sides that only depend on time *)
Definition quadrature (rhs : @rhs_t Rops) (Ps : list (list R)) : Prop :=
  forall t y, rhs t y = Ret (slope Ps t).
(** y' = c *)
Definition constant (rhs : @rhs_t Rops) (c : list R) : Prop := forall t y, rhs t y = Ret c.

(** ** the classes and their documented coefficients *)

(** AdamsBashforth k: the documented formula is
    u[n+1] = u[n] + h (b1 f[n] + b2 f[n-1] + ...), coefficients b1, b2, ... *)
Definition ab_table : list (nat * @meth Rops * list R) :=
  [(1%nat, AB1, [1]); (2%nat, AB2, [3/2; -1/2]); (3%nat, AB3, [23/12; -16/12; 5/12]);
   (4%nat, AB4, [55/24; -59/24; 37/24; -9/24]);
   (5%nat, AB5, [1901/720; -2774/720; 2616/720; -1274/720; 251/720])].
(** AdamsMoulton k for k = 1, 2, 3 *)
Definition am_table : list (nat * @meth Rops) := [(1%nat, AM1); (2%nat, AM2); (3%nat, AM3)].
Definition bdf_table : list (nat * @meth Rops) :=
  [(1%nat, BDF1); (2%nat, BDF2); (3%nat, BDF3); (4%nat, BDF4); (5%nat, BDF5); (6%nat, BDF6)].
(** the coefficient of f[n+1] *)
Definition new_weight (m : @meth Rops) : R := match m with ImplMS _ _ Bn => Bn | _ => 0 end.
(** the coefficients of y and f in the relation the class uses, oldest row first *)
Definition A_of (m : @meth Rops) : list R := match m with ExplMS A _ | ImplMS A _ _ => A | _ => [] end.
Definition B_of (m : @meth Rops) : list R := match m with ExplMS _ B | ImplMS _ B _ => B | _ => [] end.
Definition is_impl (m : @meth Rops) : Prop := match m with ImplMS _ _ _ => True | _ => False end.
Definition am_all : list (@meth Rops) := [AM1; AM2; AM3; AM4; AM5].
(** the Adams-Moulton classes that miss their order, with the constant D of the
    error -D c2 h^2 on a quadratic with leading coefficient c2 *)
Definition am_defects : list (@meth Rops * R) := [(AM4, 3); (AM5, 325/72)].
(** the Runge-Kutta classes with the sum of their weights *)
Definition rk_sums : list (@meth Rops * R) :=
  [(Runge2, 1); (Runge3, 1); (Heun3, 1); (RungeKutta4, 1); (RungeKutta3_8, 1); (RungeKutta23, 1); (RungeKutta45, 1);
   (DOP853, 1 + 33 / 5000000000000000000000000000000)].

(** the right-hand side that returns the derivative of given polynomials *)
Definition rhs_poly (Ps : list (list R)) : @rhs_t Rops := fun t _ => Ret (slope Ps t).
(** the one that returns [c] *)
Definition rhs_const (c : list R) : @rhs_t Rops := fun _ _ => Ret c.
(** an instance of a multistep class whose first stepper is RungeKutta4 *)
Definition started_rk4 {E : @Env Rops} (rhs : @rhs_t Rops) (m : @meth Rops) (t0 h : R) (y0 : list R) (s : @st Rops) : Prop :=
  exists g g1 s1 fuel fuel1 o1, garbage_ok m g /\ garbage_ok (OT := Rops) RungeKutta4 g1 /\
    @init_rk Rops RungeKutta4 g1 rhs t0 y0 (Some h) = Ret s1 /\
    init_ms (E := E) m g rhs t0 y0 (Some h)
      (FSFixed (fun _ _ _ => Ret (solver_of (E := E) RungeKutta4 fuel1 o1 rhs PInf, s1))) fuel = Ret s.
