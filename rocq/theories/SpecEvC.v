(** Vocabulary for C84: the reported events against the solution of the equation. *)
From Coq Require Import List ZArith Bool Arith Reals.
From Verif Require Import Base Scalar Vec MBuffer MZeros MSteps MApi MClasses Spec SpecInst SpecRK SpecEv SpecConv.
Import ListNotations.
Open Scope R_scope.

(** the event function returns G(t, y) for y of dimension [n], Lipschitz in y with
    constant [Lg] (maximum norm) *)
Definition event_fun (n : nat) (Lg : R) (u : eventR) (G : R -> list R -> R) : Prop :=
  0 <= Lg /\ (forall t a, length a = n -> ue_fun u t a = Ret (G t a)) /\
  forall t a b e, length a = n -> length b = n -> near e a b -> Rabs (G t a - G t b) <= Lg * e.

(** around [z] the function [phi] goes through zero with slope at least [mu], upwards
    (sg = 1) or downwards (sg = -1) *)
Definition simple_zero (sg mu del : R) (phi : R -> R) (z : R) : Prop :=
  (sg = 1 \/ sg = -1) /\ 0 < mu /\
  forall x, 0 <= x <= del -> mu * x <= sg * phi (z + x) /\ sg * phi (z - x) <= - (mu * x).

(** every call of run_events on [s] that stays below [te] reports the events of the
    function [y], with states off by [eps] and steps of at most [h] *)
Definition event_times {E : @Env Rops} (n : nat) (te : R) (y : R -> list R) (sv : solverR) (s : stR) (eps h : R) : Prop :=
  forall fuel t t' evs r s', ordered (OT := Rops) t t' -> run_events (E := E) sv fuel t evs s = (Ret r, s') -> now s' <= te ->
  forall j u G Lg, nth_error evs j = Some u -> event_fun n Lg u G ->
  let phi := fun t => G t (y t) in
  (** where an event is reported, the event function of the solution almost vanishes *)
  (forall tau a, reports r j tau a -> now s <= tau <= now s' /\ (forall v, a = Own v -> near eps v (y tau)) /\
     forall Lt, 0 <= Lt -> (forall t1 t2, now s <= t1 <= now s' -> now s <= t2 <= now s' -> Rabs (phi t1 - phi t2) <= Lt * Rabs (t1 - t2)) ->
       Rabs (phi tau) <= Lg * eps + ev_tol + Lt * (h / 2 ^ 50)) /\
  forall sg mu del z, simple_zero sg mu del phi z -> now s <= z - del -> z + del <= now s' -> 2 * h <= del ->
  (** ... so near a simple zero only that zero is reported *)
    (forall tau a, reports r j tau a -> Rabs (tau - z) <= del - h -> Rabs (tau - z) <= (Lg * eps + ev_tol) / mu + h / 2 ^ 50) /\
  (** ... and it is reported, if its direction is asked for *)
    (0 <= sg * ue_dir u -> Lg * eps < mu * (del / 2) ->
     exists tau a, reports r j tau a /\ Rabs (tau - z) <= (Lg * eps + ev_tol) / mu + h / 2 ^ 50).

(** ... and a terminal event stops it at the first simple zero, if not earlier *)
Definition event_stops {E : @Env Rops} (n : nat) (te : R) (y : R -> list R) (sv : solverR) (s : stR) (eps h : R) : Prop :=
  forall fuel t evs r s', is_sorted (OT := Rops) t = true -> run_events (E := E) sv fuel t evs s = (Ret r, s') -> now s' <= te ->
  forall u G Lg, In u evs -> terminal u -> event_fun n Lg u G ->
  forall sg mu del z, simple_zero sg mu del (fun t => G t (y t)) z -> now s <= z - del -> 2 * h <= del ->
    0 <= sg * ue_dir u -> Lg * eps < mu * (del / 2) -> now s' < z + del.
