(** Vocabulary for C93: a call of run_events finds a zero of an event function. *)
From Coq Require Import List ZArith Bool Arith Reals.
From Verif Require Import Base Scalar Vec MBuffer MZeros MSteps MApi MClasses Spec SpecInst SpecRK SpecEv SpecConv SpecEvC.
Import ListNotations.
Open Scope R_scope.

(** along the function [y] the event function [u] has a simple zero at [z], between [lo]
    and [hi], in the direction asked for; states are off by [eps], steps at most [h] *)
Definition visible_zero (n : nat) (y : R -> list R) (u : eventR) (G : R -> list R -> R) (Lg sg mu del z lo hi eps h : R) : Prop :=
  event_fun n Lg u G /\ simple_zero sg mu del (fun t => G t (y t)) z /\ 0 <= sg * ue_dir u /\
  lo <= z - del /\ z + del <= hi /\ 2 * h <= del /\ Lg * eps < mu * (del / 2).

(** times to ask for and events: sorted, after the current time, not after [b];
    the event functions never raise *)
Definition event_call (s : stR) (b : R) (t : list R) (evs : list eventR) : Prop :=
  t <> [] /\ is_sorted (OT := Rops) t = true /\ (forall x, In x t -> now s < x <= b) /\
  evs <> [] /\ forall u, In u evs -> forall t y, exists v, ue_fun u t y = Ret v.

(** run_events returns one row for each time and reports the [j]-th event within [d] of [z],
    with the state of the function [y] up to [eps] *)
Definition finds {E : @Env Rops} (sv : solverR) (s : stR) (t : list R) (evs : list eventR) (j : nat) (y : R -> list R) (z eps d : R) : Prop :=
  exists N r s', (forall fuel, (N <= fuel)%nat -> run_events (E := E) sv fuel t evs s = (Ret r, s')) /\ map fst (rr_rows r) = t /\
    exists tau a, reports r j tau a /\ Rabs (tau - z) <= d /\ forall v, a = Own v -> near eps v (y tau).

(** run_events returns and its last row has a time within [d] of [z] *)
Definition stops_at {E : @Env Rops} (sv : solverR) (s : stR) (t : list R) (u : eventR) (z d : R) : Prop :=
  exists N r s', (forall fuel, (N <= fuel)%nat -> run_events (E := E) sv fuel t [u] s = (Ret r, s')) /\
    exists rows tau v, rr_rows r = rows ++ [(tau, v)] /\ Rabs (tau - z) <= d.

(** before [z - del] the event function along [y] is bounded away from zero, and it is
    Lipschitz in t with constant [Lt] *)
Definition first_zero (y : R -> list R) (G : R -> list R -> R) (Lg Lt del z lo te eps h : R) : Prop :=
  0 <= Lt /\ (forall t1 t2, lo <= t1 <= te -> lo <= t2 <= te -> Rabs (G t1 (y t1) - G t2 (y t2)) <= Lt * Rabs (t1 - t2)) /\
  forall x, lo <= x <= z - del -> Lg * eps + ev_tol + Lt * (h / 2 ^ 50) < Rabs (G x (y x)).

(** run_events returns before the last time because one more step would pass t_bound *)
Definition cut_short {E : @Env Rops} (sv : solverR) (s : stR) (t : list R) (evs : list eventR) : Prop :=
  exists N r s', (forall fuel, (N <= fuel)%nat -> run_events (E := E) sv fuel t evs s = (Ret r, s')) /\ would_pass (s_bound sv) s' /\ now s' < last t 0.
