(** C79. *)
From Coq Require Import List ZArith QArith Bool Arith Lia Reals Lra.
From Verif Require Import Base Scalar Vec MBuffer MZeros MSteps MApi MDop853 MClasses Laws Spec SpecInst
  PVecR SpecRK PBound PTop1 Ex SpecMS SpecOrder SpecConv SpecConv3 SpecLmm PConv8 PExHi PExVar PLmm7 PLmm8 PLmm9.
Import ListNotations.
Open Scope R_scope.

(** * C79  order of convergence of AdamsMoulton1-3 and BDF1-6
    [am_table], [bdf_table]: class and order k.
    [recorded N rhs y t0 d s]: the last N rows of the history are one step apart,
    not before t0, consistent with rhs and within d of the solution y.
    [leaves_at_most rho te m sv s0]: no step from s0 on leaves more than rho of the
    equation of the class.  K does not depend on rho; rho may be 4.44e-8, or 0 for
    scalar affine problems (C79_residual below). *)
Theorem C79 {E : @Env Rops} : forall rhs n L t0 te y, lipschitz n L rhs -> t0 <= te ->
  forall k m, Ck_solution (k + 1) rhs n t0 te y -> In (k, m) (am_table ++ bdf_table) -> solve_dim (E := E) ->
  exists K h0, 0 < h0 /\ forall h d rho fuelc o tb fuel cs s0 s, 0 < h <= h0 -> 0 <= d -> 0 <= rho ->
    built (E := E) rhs m s0 -> dims n s0 -> hstep s0 = h -> recorded (ms_order m) rhs y t0 d s0 ->
    leaves_at_most rho te m (solver_of (E := E) m fuelc o rhs PInf) s0 ->
    s = session (E := E) (solver_of (E := E) m fuelc o rhs tb) fuel cs s0 -> now s <= te ->
    near (K * (h ^ k + d + rho / h)) (state s) (y (now s)).
Proof. exact C79_lemma. Qed.
Print Assumptions C79.
(** not only the state: the rows of the history the next steps use *)
Theorem C79_history {E : @Env Rops} : forall rhs n L t0 te y, lipschitz n L rhs -> t0 <= te ->
  forall k m, Ck_solution (k + 1) rhs n t0 te y -> In (k, m) (am_table ++ bdf_table) -> solve_dim (E := E) ->
  exists K h0, 0 < h0 /\ forall h d rho fuelc o tb fuel cs s0 s, 0 < h <= h0 -> 0 <= d -> 0 <= rho ->
    built (E := E) rhs m s0 -> dims n s0 -> hstep s0 = h -> recorded (ms_order m) rhs y t0 d s0 ->
    leaves_at_most rho te m (solver_of (E := E) m fuelc o rhs PInf) s0 ->
    s = session (E := E) (solver_of (E := E) m fuelc o rhs tb) fuel cs s0 -> now s <= te ->
    dims n s /\ recorded (ms_order m) rhs y t0 (K * (h ^ k + d + rho / h)) s.
Proof. exact C79_history_lemma. Qed.
Print Assumptions C79_history.
(** scalar affine problems: the root finder is exact *)
Theorem C79_affine {E : @Env Rops} : forall rhs n L t0 te y, lipschitz n L rhs -> t0 <= te ->
  forall k m a b, n = 1%nat -> affine1 rhs a b -> Ck_solution (k + 1) rhs n t0 te y -> In (k, m) (am_table ++ bdf_table) ->
  exists K h0, 0 < h0 /\ forall h d fuelc o tb fuel cs s0 s, 0 < h <= h0 -> 0 <= d ->
    built (E := E) rhs m s0 -> dims n s0 -> hstep s0 = h -> recorded (ms_order m) rhs y t0 d s0 ->
    s = session (E := E) (solver_of (E := E) m fuelc o rhs tb) fuel cs s0 -> now s <= te ->
    near (K * (h ^ k + d)) (state s) (y (now s)).
Proof. exact C79_affine_lemma. Qed.
Print Assumptions C79_affine.
(** a fixed step Runge-Kutta class of order p as first stepper ([rk_table]: Runge2 2,
    Runge3 3, Heun3 3, RungeKutta4 4, RungeKutta3_8 4) *)
Theorem C79_started {E : @Env Rops} : forall rhs n L t0 te y, lipschitz n L rhs -> t0 <= te ->
  forall k m m1 p, Ck_solution (Nat.max 5 (k + 1)) rhs n t0 te y -> smooth_along rhs n t0 te y ->
  In (k, m) (am_table ++ bdf_table) -> In (m1, p) rk_table -> solve_dim (E := E) ->
  exists K h0, 0 < h0 /\ forall h rho g fs fuel0 fuelc o tb fuel cs s0 s, 0 < h <= h0 -> 0 <= rho -> garbage_ok m g ->
    starts (E := E) rhs t0 (y t0) h (Some m1) fs -> init_ms (E := E) m g rhs t0 (y t0) (Some h) fs fuel0 = Ret s0 ->
    leaves_at_most rho te m (solver_of (E := E) m fuelc o rhs PInf) s0 ->
    s = session (E := E) (solver_of (E := E) m fuelc o rhs tb) fuel cs s0 -> now s <= te ->
    near (K * (h ^ Nat.min k p + rho / h)) (state s) (y (now s)).
Proof. exact C79_started_lemma. Qed.
Print Assumptions C79_started.
(** the rows run returns *)
Theorem C79_run {E : @Env Rops} : forall rhs n L t0 te y, lipschitz n L rhs -> t0 <= te ->
  forall k m m1 p, Ck_solution (Nat.max 5 (k + 1)) rhs n t0 te y -> smooth_along rhs n t0 te y ->
  In (k, m) (am_table ++ bdf_table) -> In (m1, p) rk_table -> solve_dim (E := E) ->
  exists K h0, 0 < h0 /\ forall h rho g fs fuel0 fuelc o tb fuel cs s0 s fuel' t rows s', 0 < h <= h0 -> 0 <= rho -> garbage_ok m g ->
    starts (E := E) rhs t0 (y t0) h (Some m1) fs -> init_ms (E := E) m g rhs t0 (y t0) (Some h) fs fuel0 = Ret s0 ->
    leaves_at_most rho te m (solver_of (E := E) m fuelc o rhs PInf) s0 ->
    s = session (E := E) (solver_of (E := E) m fuelc o rhs tb) fuel cs s0 ->
    is_sorted t = true -> run (E := E) (solver_of (E := E) m fuelc o rhs tb) fuel' t s = (Ret rows, s') -> now s' <= te ->
    Forall (fun r => near (K * (h ^ Nat.min k p + rho / h)) (snd r) (y (fst r))) rows.
Proof. exact C79_run_lemma. Qed.
Print Assumptions C79_run.
Theorem C79_started_affine {E : @Env Rops} : forall rhs n L t0 te y, lipschitz n L rhs -> t0 <= te ->
  forall k m m1 p a b, n = 1%nat -> affine1 rhs a b -> Ck_solution (Nat.max 5 (k + 1)) rhs n t0 te y -> smooth_along rhs n t0 te y ->
  In (k, m) (am_table ++ bdf_table) -> In (m1, p) rk_table ->
  exists K h0, 0 < h0 /\ forall h g fs fuel0 fuelc o tb fuel cs s0 s, 0 < h <= h0 -> garbage_ok m g ->
    starts (E := E) rhs t0 (y t0) h (Some m1) fs -> init_ms (E := E) m g rhs t0 (y t0) (Some h) fs fuel0 = Ret s0 ->
    s = session (E := E) (solver_of (E := E) m fuelc o rhs tb) fuel cs s0 -> now s <= te ->
    near (K * h ^ Nat.min k p) (state s) (y (now s)).
Proof. exact C79_started_affine_lemma. Qed.
Print Assumptions C79_started_affine.
(** the root finders, scalar and vector: what a completed step leaves of the equation
    of the class, whatever the right-hand side *)
Theorem C79_equation {E : @Env Rops} : forall rhs n L k m, lipschitz n L rhs -> In (k, m) (am_table ++ bdf_table) -> solve_dim (E := E) ->
  forall fuelc o tb (s s' : @st Rops), reachable (E := E) rhs m fuelc o tb s -> dims n s ->
  0 < hstep s -> hstep s * (L * Rabs (new_weight m)) <= 1 / 2 ->
  took_step (solver_of (E := E) m fuelc o rhs tb) s s' ->
  now s' = now s + hstep s /\ length (state s') = n /\ rhs (now s') (state s') = Ret (deriv s') /\
  forall i, (i < n)%nat -> Rabs (cmp i (lm_residual (A_of m) (B_of m) (new_weight m) s (state s') (deriv s'))) <= 444 / 10000000000.
Proof. exact C79_equation_lemma. Qed.
Print Assumptions C79_equation.
(** and so what all steps of an instance leave: rho may be taken to be 4.44e-8, and 0
    for scalar affine problems *)
Theorem C79_residual {E : @Env Rops} : forall rhs n L k m, lipschitz n L rhs -> In (k, m) (am_table ++ bdf_table) -> solve_dim (E := E) ->
  forall te fuelc o (s0 : @st Rops), built (E := E) rhs m s0 -> dims n s0 -> 0 < hstep s0 -> hstep s0 * (L * Rabs (new_weight m)) <= 1 / 2 ->
  leaves_at_most (444 / 10000000000) te m (solver_of (E := E) m fuelc o rhs PInf) s0.
Proof. exact C79_residual_lemma. Qed.
Print Assumptions C79_residual.
Theorem C79_residual_affine {E : @Env Rops} : forall rhs n L k m a b, lipschitz n L rhs -> In (k, m) (am_table ++ bdf_table) -> solve_dim (E := E) -> n = 1%nat -> affine1 rhs a b ->
  forall te fuelc o (s0 : @st Rops), built (E := E) rhs m s0 -> dims n s0 -> 0 < hstep s0 -> hstep s0 * (L * Rabs (new_weight m)) <= 1 / 2 ->
  leaves_at_most 0 te m (solver_of (E := E) m fuelc o rhs PInf) s0.
Proof. exact C79_residual_affine_lemma. Qed.
Print Assumptions C79_residual_affine.
(** the term with 1/h is there: with h <= 1.48e-8 AdamsMoulton1 stands still on
    y1' = 1, y2' = 0, whose solution is (t, 0) *)
Theorem C79_floor {E : @Env Rops} : forall (h : R) (n : nat), 0 < h <= 148 / 10000000000 ->
  exists s0 sn : @st Rops, init_ms (E := E) AM1 (garb AM1) (rhs_const [1; 0]) 0 [0; 0] (Some h) FSNone 0 = Ret s0 /\
    returns (E := E) (solver_of (E := E) AM1 0 default_options (rhs_const [1; 0]) PInf) 0 (repeat (CStep None None) n) s0 sn /\
    now sn = INR n * h /\ state sn = [0; 0].
Proof. exact C79_floor_lemma. Qed.
Print Assumptions C79_floor.
(** y' = sqrt(1 + y^2), y(0) = 0, solved by sinh t: every class can be started by
    RungeKutta4; AdamsMoulton2 needs no start.  y' = y is affine. *)
Example C79_ex : lipschitz 1 1 rhs_cat /\ (forall k t0 te, Ck_solution k rhs_cat 1 t0 te sol_cat) /\
  (forall te, smooth_along rhs_cat 1 0 te sol_cat) /\ In (RungeKutta4 (OT := Rops), 4%nat) rk_table /\ solve_dim (E := ER) /\
  (forall k m h, In (k, m) (am_table ++ bdf_table) -> exists fs s0, starts (E := ER) rhs_cat 0 (sol_cat 0) h (Some RungeKutta4) fs /\
     init_ms (E := ER) m (garb m) rhs_cat 0 (sol_cat 0) (Some h) fs 0 = Ret s0) /\
  (forall h, 0 < h -> exists s0, built (E := ER) rhs_cat AM2 s0 /\ dims 1 s0 /\ hstep s0 = h /\ now s0 = 0 /\ recorded (ms_order (OT := Rops) AM2) rhs_cat sol_cat 0 0 s0) /\
  affine1 (@rhs_exp Rops) (fun _ => 1) (fun _ => 0) /\ lipschitz 1 1 (@rhs_exp Rops) /\
  (forall k te, Ck_solution k (@rhs_exp Rops) 1 0 te sol_exp) /\ (forall te, smooth_along (@rhs_exp Rops) 1 0 te sol_exp).
Proof.
  split; [apply cat_lipschitz|]. split; [intros; apply cat_solution|]. split; [intros; apply cat_smooth|]. split; [cbn; auto 10|].
  split; [intros cols b x [= <-]; reflexivity|]. split; [apply cat_started|]. split; [apply cat_recorded|].
  split; [apply exp_affine|]. split; [apply exp_lipschitz|]. split; [intros; apply exp_Ck|intros; apply exp_smooth].
Qed.
