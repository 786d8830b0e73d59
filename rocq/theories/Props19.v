(** C84. *)
From Coq Require Import List ZArith QArith Bool Arith Lia Reals Lra.
From Verif Require Import Base Scalar Vec MBuffer MZeros MSteps MApi MClasses Laws Spec SpecInst
  PVecR SpecRK SpecDense SpecEv PTop1 Ex SpecMS SpecOrder SpecConv SpecConv3 PBound SpecVar SpecLmm SpecEvC PConv8 PEvC2 PEvC3 PExEvC.
Import ListNotations.
Open Scope R_scope.

(** * C84  The reported events are the events of the solution
    [event_times n te y sv s eps h]: every call of run_events on s that stays below te
    reports the events of the function y, up to eps in the states (SpecEvC.v).
    [event_stops]: a terminal event stops it at a simple zero, if not earlier.
    [rk_table]: Runge2 2, Runge3 3, Heun3 3, RungeKutta4 4, RungeKutta3_8 4 *)
Theorem C84 {E : @Env Rops} : forall rhs n L t0 te y, lipschitz n L rhs -> t0 <= te ->
  forall m p, Ck_solution 5 rhs n t0 te y -> smooth_along rhs n t0 te y -> In (m, p) rk_table ->
  exists K, 0 <= K /\ forall h g s0 fuelc o tb fuel cs s, 0 < h <= 1 -> garbage_ok m g ->
    init_rk m g rhs t0 (y t0) (Some h) = Ret s0 ->
    s = session (E := E) (solver_of (E := E) m fuelc o rhs tb) fuel cs s0 ->
    event_times (E := E) n te y (solver_of (E := E) m fuelc o rhs tb) s (K * h ^ p) h /\
    event_stops (E := E) n te y (solver_of (E := E) m fuelc o rhs tb) s (K * h ^ p) h.
Proof. exact C84_lemma. Qed.
Print Assumptions C84.
(** [var_table]: RungeKutta23 3, RungeKutta45 4; H bounds the steps taken *)
Theorem C84_variable {E : @Env Rops} : forall rhs n L t0 te y, lipschitz n L rhs -> t0 <= te ->
  Ck_solution 5 rhs n t0 te y -> smooth_along rhs n t0 te y -> forall m p, In (m, p) var_table ->
  exists K, 0 <= K /\ forall H g o sel first s0 fuelc tb fuel cs s, 0 < H <= 1 -> sane o -> garbage_ok m g ->
    init_var m g rhs t0 (y t0) o sel first = Ret s0 -> 0 <= hstep s0 ->
    steps_at_most H te (solver_of (E := E) m fuelc o rhs tb) s0 ->
    returns (E := E) (solver_of (E := E) m fuelc o rhs tb) fuel cs s0 s ->
    event_times (E := E) n te y (solver_of (E := E) m fuelc o rhs tb) s (K * H ^ p) H /\
    event_stops (E := E) n te y (solver_of (E := E) m fuelc o rhs tb) s (K * H ^ p) H.
Proof. exact C84_var_lemma. Qed.
Print Assumptions C84_variable.
(** AdamsMoulton1-3 and BDF1-6, started by a fixed step Runge-Kutta class;
    [leaves_at_most]: what the steps leave of their equations, see C79_residual *)
Theorem C84_implicit {E : @Env Rops} : forall rhs n L t0 te y, lipschitz n L rhs -> t0 <= te ->
  forall k m m1 p, Ck_solution (Nat.max 5 (k + 1)) rhs n t0 te y -> smooth_along rhs n t0 te y ->
  In (k, m) (am_table ++ bdf_table) -> In (m1, p) rk_table -> solve_dim (E := E) ->
  exists K h0, 0 <= K /\ 0 < h0 /\ forall h rho g fs fuel0 fuelc o tb fuel cs s0 s, 0 < h <= h0 -> 0 <= rho -> garbage_ok m g ->
    starts (E := E) rhs t0 (y t0) h (Some m1) fs -> init_ms (E := E) m g rhs t0 (y t0) (Some h) fs fuel0 = Ret s0 ->
    leaves_at_most rho te m (solver_of (E := E) m fuelc o rhs PInf) s0 ->
    s = session (E := E) (solver_of (E := E) m fuelc o rhs tb) fuel cs s0 ->
    event_times (E := E) n te y (solver_of (E := E) m fuelc o rhs tb) s (K * (h ^ Nat.min k p + rho / h)) h /\
    event_stops (E := E) n te y (solver_of (E := E) m fuelc o rhs tb) s (K * (h ^ Nat.min k p + rho / h)) h.
Proof. exact C84_implicit_lemma. Qed.
Print Assumptions C84_implicit.
(** y' = y, y(0) = 1 with RungeKutta4 and the event y = 2: for small h the call returns
    and reports ln 2 *)
Example C84_ex : event_fun 1 1 ev_two G_two /\ simple_zero 1 1 (1 / 2) (fun t => G_two t (sol_exp t)) (ln 2) /\
  exists K h0, 0 <= K /\ 0 < h0 /\ forall h, 0 < h <= h0 -> exists fuel r s' tau a,
    run_events (E := ER) (solver_of (E := ER) RungeKutta4 0 default_options rhs_exp PInf) fuel [2] [ev_two] (r_rk4 h) = (Ret r, s') /\
    reports r 0 tau a /\ Rabs (tau - ln 2) <= K * h ^ 4 + ev_tol + h / 2 ^ 50.
Proof. split; [exact two_fun|]. split; [exact two_zero|exact C84_example]. Qed.
