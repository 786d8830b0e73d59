(** Vocabulary for events (nbkode/event_handler.py), over the reals. *)
From Coq Require Import List ZArith Bool Arith Reals Sorted.
From Verif Require Import Base Scalar Vec MBuffer MZeros MSteps MApi MClasses Spec SpecInst SpecRK PBound PDim.
Import ListNotations.

Section G.
Context {OT : Ops}.
(** the array the interpolant of [s] returns for time [t], and its contents *)
Definition sol_arr (sv : solver) (s : st) (t : T) : outcome arr := fst (s_interp sv t s).
Definition sol (sv : solver) (s : st) (t : T) : outcome vec :=
  match s_interp sv t s with
  | (Ret a, s') => Ret (deref (cache s') a)
  | (Raise e, _) => Raise e
  | (Loop, _) => Loop
  end.
(** an event function along that interpolant *)
Definition along (sv : solver) (u : user_event) (s : st) (t : T) : outcome T :=
  match sol sv s t with Ret y => ue_fun u t y | Raise e => Raise e | Loop => Loop end.
(** the event function at the current point *)
Definition value (u : user_event) (s : st) (v : T) : Prop := ue_fun u (now s) (state s) = Ret v.
Definition terminal (u : user_event) : Prop := ue_terminal u = Some true.
(** the step from [x] to [x1] is one of the steps [l] from [s] *)
Definition step_of (s : st) (l : list st) (x x1 : st) : Prop := In (x, x1) (combine (s :: l) l).
(** ... the last one *)
Definition last_step_of (s : st) (l : list st) (x x1 : st) : Prop :=
  exists l0, l = l0 ++ [x1] /\ x = last l0 s.
End G.

Open Scope R_scope.
Notation stR := (@st Rops).
Notation eventR := (@user_event Rops).
Notation solverR := (@solver Rops).

(** the direction attribute, 0 when there is none *)
Definition ue_dir (u : eventR) : R := match ue_direction u with Some d => d | None => 0 end.
(** over one step the values go from [v] to [v'] *)
Definition crossing (d v v' : R) : Prop := (0 <= d /\ v <= 0 <= v') \/ (d <= 0 /\ v' <= 0 <= v).
Definition triggers (u : eventR) (x x1 : stR) : Prop :=
  exists v v1, value u x v /\ value u x1 v1 /\ crossing (ue_dir u) v v1.

(** what bisection of [a, b] in [n] halvings finds for a function that may raise *)
Definition bis_out (g : R -> outcome R) (tol : R) (n : nat) (a b m : R) : Prop :=
  a <= m <= b /\
  ((exists v, g m = Ret v /\ Rabs v <= tol) \/
   exists a' b' va vb, a <= a' < b' /\ b' <= b /\ a' <= m <= b' /\ b' - a' = (b - a) / 2 ^ n /\
     g a' = Ret va /\ g b' = Ret vb /\ va * vb < 0).
Definition ev_tol : R := 148 / 10000000000.

(** [t] is an event time for the step from [x] to [x1]: the end of the step when
    the event function is zero there, else what 50 bisections find *)
Definition located (sv : solverR) (u : eventR) (x x1 : stR) (t : R) : Prop :=
  (value u x1 0 /\ t = now x1) \/
  (~ value u x1 0 /\ bis_out (along sv u x1) ev_tol 50 (now x) (now x1) t).

Definition increasing (l : list R) : Prop := StronglySorted Rlt l.

(** the instances the event theorems are about: a fixed step class after any
    calls, or one of the variable step classes after calls that returned *)
Definition ready {E : @Env Rops} (m : @meth Rops) (fuelc : nat) (o : @options Rops) (rhs : @rhs_t Rops) (tb : @ext Rops) (s : stR) : Prop :=
  (is_fixed m = true /\ reachable rhs m fuelc o tb s /\ 0 <= hstep s) \/
  (In m [@RungeKutta23 Rops; @RungeKutta45 Rops; @DOP853 Rops] /\ sane o /\
   exists fuel cs s0, built rhs m s0 /\ keeps_dim (length (state s0)) rhs /\ 0 <= hstep s0 /\
     returns (solver_of m fuelc o rhs tb) fuel cs s0 s).

(** the call [r] reports the [j]-th event at time [t] with state array [a] *)
Definition reports (r : @run_ret Rops) (j : nat) (t : R) (a : @arr Rops) : Prop :=
  exists ts ys i, nth_error (rr_tev r) j = Some ts /\ nth_error (rr_yev r) j = Some ys /\
    nth_error ts i = Some t /\ nth_error ys i = Some a.
