(** C33: convergence. *)
From Coq Require Import List ZArith QArith Bool Arith Lia Reals Lra.
From Verif Require Import Base Scalar Vec MBuffer MZeros MSteps MApi MDop853 MClasses Laws Spec SpecInst
  PVecR SpecRK PTop1 Ex SpecMS SpecOrder SpecConv SpecConv2 PConv2 PConv4 PConv7 PConv8 PConv9 PConv10.
Import ListNotations.
Open Scope R_scope.

(** * C33  the global error is O(h)
    the constant K depends on the class, the right-hand side and the solution
    only; the instance starts on the solution and is then used by any calls *)
Theorem C33_rk {E : @Env Rops} : forall m p rhs n L t0 te y,
  In (m, p) rk_table -> lipschitz n L rhs -> t0 <= te -> C2_solution rhs n t0 te y ->
  exists K, forall h g s0 fuelc o tb fuel cs s, 0 < h <= 1 -> garbage_ok m g ->
    init_rk m g rhs t0 (y t0) (Some h) = Ret s0 ->
    s = session (E := E) (solver_of (E := E) m fuelc o rhs tb) fuel cs s0 -> now s <= te ->
    near (K * h) (state s) (y (now s)).
Proof. exact C33_rk_lemma. Qed.
Print Assumptions C33_rk.
Example C33_rk_ex : In (RungeKutta4, 4%nat) rk_table /\ lipschitz 1 1 rhs_exp /\ C2_solution rhs_exp 1 0 1 sol_exp /\
  forall h, init_rk (OT := Rops) RungeKutta4 (garb RungeKutta4) rhs_exp 0 (sol_exp 0) (Some h) = Ret (r_rk4 h) /\
  exists s, session (E := ER) (solver_of (E := ER) RungeKutta4 0 default_options rhs_exp PInf) 0 [CStep None None] (r_rk4 h) = s /\ now s = h.
Proof.
  split; [cbn; auto 10|]. split; [apply exp_lipschitz|]. split; [apply exp_solution|]. intros h. split; [apply exp_rk4|apply exp_rk4_step].
Qed.
(** the values run returns, between the steps too *)
Theorem C33_rk_run {E : @Env Rops} : forall m p rhs n L t0 te y,
  In (m, p) rk_table -> lipschitz n L rhs -> t0 <= te -> C2_solution rhs n t0 te y ->
  exists K, forall h g s0 fuelc o tb fuel cs s fuel' t rows s', 0 < h <= 1 -> garbage_ok m g ->
    init_rk m g rhs t0 (y t0) (Some h) = Ret s0 ->
    s = session (E := E) (solver_of (E := E) m fuelc o rhs tb) fuel cs s0 ->
    is_sorted t = true -> run (E := E) (solver_of (E := E) m fuelc o rhs tb) fuel' t s = (Ret rows, s') -> now s' <= te ->
    Forall (fun r => near (K * h) (snd r) (y (fst r))) rows.
Proof. exact C33_rk_run_lemma. Qed.
Print Assumptions C33_rk_run.

(** Adams-Bashforth, started without first stepper or with a fixed step
    Runge-Kutta class.  The default first stepper is below. *)
Theorem C33_ab {E : @Env Rops} : forall k m bs start rhs n L t0 te y, In (k, m, bs) ab_table ->
  (forall m1, start = Some m1 -> exists p, In (m1, p) rk_table) ->
  lipschitz n L rhs -> t0 <= te -> C2_solution rhs n t0 te y ->
  exists K, forall h g fs s0 fuel0 fuelc o tb fuel cs s, 0 < h <= 1 -> garbage_ok m g ->
    starts (E := E) rhs t0 (y t0) h start fs -> init_ms (E := E) m g rhs t0 (y t0) (Some h) fs fuel0 = Ret s0 ->
    s = session (E := E) (solver_of (E := E) m fuelc o rhs tb) fuel cs s0 -> now s <= te ->
    near (K * h) (state s) (y (now s)).
Proof. exact C33_ab_lemma. Qed.
Print Assumptions C33_ab.
Theorem C33_ab_run {E : @Env Rops} : forall k m bs start rhs n L t0 te y, In (k, m, bs) ab_table ->
  (forall m1, start = Some m1 -> exists p, In (m1, p) rk_table) ->
  lipschitz n L rhs -> t0 <= te -> C2_solution rhs n t0 te y ->
  exists K, forall h g fs s0 fuel0 fuelc o tb fuel cs s fuel' t rows s', 0 < h <= 1 -> garbage_ok m g ->
    starts (E := E) rhs t0 (y t0) h start fs -> init_ms (E := E) m g rhs t0 (y t0) (Some h) fs fuel0 = Ret s0 ->
    s = session (E := E) (solver_of (E := E) m fuelc o rhs tb) fuel cs s0 ->
    is_sorted t = true -> run (E := E) (solver_of (E := E) m fuelc o rhs tb) fuel' t s = (Ret rows, s') -> now s' <= te ->
    Forall (fun r => near (K * h) (snd r) (y (fst r))) rows.
Proof. exact C33_ab_run_lemma. Qed.
Print Assumptions C33_ab_run.
Example C33_ab_ex : In (3%nat, AB3, [23/12; -16/12; 5/12]) ab_table /\ lipschitz 1 1 rhs_exp /\ C2_solution rhs_exp 1 0 1 sol_exp /\
  forall h, exists fs s, starts (E := ER) rhs_exp 0 (sol_exp 0) h (Some RungeKutta4) fs /\
    init_ms (E := ER) AB3 (garb AB3) rhs_exp 0 (sol_exp 0) (Some h) fs 0 = Ret s /\ now s = h + h.
Proof.
  split; [cbn; auto 10|]. split; [apply exp_lipschitz|]. split; [apply exp_solution|]. intros h. apply exp_ab3.
Qed.

(** Adams-Bashforth with the default first stepper (RungeKutta45, whose first
    step size H0 does not depend on h), initial time 0 *)
Theorem C33_ab_default {E : @Env Rops} : forall k m bs rhs n L te y, In (k, m, bs) ab_table ->
  lipschitz n L rhs -> 0 <= te -> C2_solution rhs n 0 te y -> forall H0, 0 < H0 ->
  exists K hmax, 0 < hmax /\ forall h g fs s0 fuel0 fuelc o tb fuel cs s, 0 < h <= hmax -> garbage_ok m g ->
    starts_default (E := E) rhs 0 (y 0) H0 fs -> init_ms (E := E) m g rhs 0 (y 0) (Some h) fs fuel0 = Ret s0 ->
    s = session (E := E) (solver_of (E := E) m fuelc o rhs tb) fuel cs s0 ->
    (now s <= te -> near (K * h) (state s) (y (now s))) /\
    forall fuel' t rows s', is_sorted t = true -> run (E := E) (solver_of (E := E) m fuelc o rhs tb) fuel' t s = (Ret rows, s') -> now s' <= te ->
      Forall (fun r => near (K * h) (snd r) (y (fst r))) rows.
Proof. exact C33_default_lemma. Qed.
Print Assumptions C33_ab_default.
Example C33_ab_default_ex : lipschitz 1 0 (osc 0 1) /\ C2_solution (osc 0 1) 1 0 1 (osc_sol 0 1) /\
  forall h, 0 < h < 1 / 8 -> exists fs s0, starts_default (E := ER) (osc 0 1) 0 (osc_sol 0 1 0) 1 fs /\
    init_ms (E := ER) AB5 (garb AB5) (osc 0 1) 0 (osc_sol 0 1 0) (Some h) fs 1 = Ret s0 /\ now s0 = INR 4 * h.
Proof.
  split; [apply osc_lip|]. split; [apply osc_solution; lra|]. intros h Hh.
  destruct (default_startup (E := ER) 0 1 5 AB5 [1901/720; -2774/720; 2616/720; -1274/720; 251/720] h) as (fs & s0 & H1 & H2 & H3 & _);
    [lra|lra|cbn; auto 10|lia|exact Hh|]. exists fs, s0. auto.
Qed.
(** initial time > 0: the constructor raises ValueError for every h < t0 *)
Theorem C33_default_positive {E : @Env Rops} : forall k m bs rhs t0 y0 f0 H0 h g fs fuel,
  In (k, m, bs) ab_table -> (2 <= k)%nat -> 0 < h < t0 -> rhs t0 y0 = Ret f0 ->
  starts_default (E := E) rhs t0 y0 H0 fs -> init_ms (E := E) m g rhs t0 y0 (Some h) fs fuel = Raise ValueError.
Proof. exact C33_default_raises. Qed.
Print Assumptions C33_default_positive.
Example C33_default_positive_ex : forall H0, exists s1,
  starts_default (E := ER) (osc 1 1) 1 [0] H0 (FSVar (fun _ _ => Ret (solver_of (E := ER) RungeKutta45 0 default_options (osc 1 1) PInf, s1))).
Proof.
  intros H0. destruct (init_fsal_45 (osc 1 1) 1 [0] _ H0 eq_refl) as (s1 & I1 & I2). exists s1.
  exact (starts_rk45 (E := ER) _ _ _ H0 (garb RungeKutta45) _ s1 0 (garb_ok _) I1 I2).
Qed.
(** initial time < 0: the rows taken from the first stepper, hence the state
    after construction, stay off by a fixed amount d however small h is.
    y' = 1 - cos(180 pi (t - t0) / H0) has exact solution y; RungeKutta45 sees
    zeros only and never leaves y(t0) *)
Theorem C33_refuted {E : @Env Rops} : forall H0, 0 < H0 ->
  exists rhs t0 te y, lipschitz 1 0 rhs /\ t0 <= te /\ C2_solution rhs 1 t0 te y /\ exists d, 0 < d /\
  forall k m bs h, In (k, m, bs) ab_table -> (2 <= k)%nat -> 0 < h < H0 / 8 ->
  exists g fs s0 fuel0, garbage_ok m g /\ starts_default (E := E) rhs t0 (y t0) H0 fs /\ init_ms (E := E) m g rhs t0 (y t0) (Some h) fs fuel0 = Ret s0 /\
    now s0 <= te /\ ~ near d (state s0) (y (now s0)).
Proof. exact C33_default_refuted. Qed.
Print Assumptions C33_refuted.
