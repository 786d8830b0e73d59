(** C86: solving an initial value problem, from the constructor to the rows. *)
From Coq Require Import List ZArith QArith Bool Arith Lia Reals Lra.
From Verif Require Import Base Scalar Vec MBuffer MZeros MSteps MApi MClasses Laws Spec SpecInst
  PVecR SpecRK PBound PTop1 Ex SpecMS SpecOrder SpecConv SpecConv3 SpecLmm SpecLive SpecCtl SpecVar SpecVL SpecSolve
  PConv8 PExHi PExR PC3 PConv9 PExVar PLmm8 PExLive PExSolve PConv10 PSolve3 PSolve4 PSolve5 PSolve7.
Import ListNotations.
Open Scope R_scope.

(** * C86  Solving an initial value problem
    y is a solution of y' = rhs(t, y) on [t0, te]; [solved sv s t eps y]: run(t) on s
    returns one row for each time of t, within eps of y; [askable s b t]: the times
    are sorted and between the oldest recorded row and b.
    [rk_table]: Runge2 2, Runge3 3, Heun3 3, RungeKutta4 4, RungeKutta3_8 4 *)
Theorem C86 {E : @Env Rops} : forall rhs n L t0 te y, lipschitz n L rhs -> defined_on n rhs -> t0 <= te ->
  forall m p, Ck_solution 5 rhs n t0 te y -> smooth_along rhs n t0 te y -> In (m, p) rk_table ->
  exists K, forall h g, 0 < h <= 1 -> garbage_ok m g -> exists s0, init_rk m g rhs t0 (y t0) (Some h) = Ret s0 /\
    forall fuelc o tb fuel cs s t, s = session (E := E) (solver_of (E := E) m fuelc o rhs tb) fuel cs s0 -> now s <= te -> @gt_ext Rops te tb = false ->
    askable s (te - h) t -> solved (E := E) (solver_of (E := E) m fuelc o rhs tb) s t (K * h ^ p) y.
Proof. exact C86_lemma. Qed.
Print Assumptions C86.
(** Adams-Bashforth: the error is of order one (C33) *)
Theorem C86_ab {E : @Env Rops} : forall rhs n L t0 te y, lipschitz n L rhs -> defined_on n rhs -> t0 <= te ->
  forall k m bs start, In (k, m, bs) ab_table -> (forall m1, start = Some m1 -> exists p, In (m1, p) rk_table) -> C2_solution rhs n t0 te y ->
  exists K, forall h g fs fuel0, 0 < h <= 1 -> garbage_ok m g -> starts (E := E) rhs t0 (y t0) h start fs -> exists s0, init_ms (E := E) m g rhs t0 (y t0) (Some h) fs fuel0 = Ret s0 /\
    now s0 <= t0 + INR k * h /\
    forall fuelc o tb fuel cs s t, s = session (E := E) (solver_of (E := E) m fuelc o rhs tb) fuel cs s0 -> now s <= te -> @gt_ext Rops te tb = false ->
    askable s (te - h) t -> solved (E := E) (solver_of (E := E) m fuelc o rhs tb) s t (K * h) y.
Proof. exact C86_ab_lemma. Qed.
Print Assumptions C86_ab.
(** AdamsMoulton1-3 and BDF1-6 started by a Runge-Kutta class;
    [leaves_at_most]: what the steps leave of their equations, see C79_residual *)
Theorem C86_implicit {E : @Env Rops} : forall rhs n L t0 te y, lipschitz n L rhs -> defined_on n rhs -> t0 <= te ->
  forall k m m1 p, Ck_solution (Nat.max 5 (k + 1)) rhs n t0 te y -> smooth_along rhs n t0 te y -> In (k, m) (am_table ++ bdf_table) -> In (m1, p) rk_table ->
  solve_dim (E := E) -> (1 <= n)%nat -> n = 1%nat \/ solves_regular (E := E) n ->
  exists K h0, 0 < h0 /\ forall h g fs fuel0, 0 < h <= h0 -> garbage_ok m g -> starts (E := E) rhs t0 (y t0) h (Some m1) fs ->
    exists s0, init_ms (E := E) m g rhs t0 (y t0) (Some h) fs fuel0 = Ret s0 /\ now s0 <= t0 + INR (ms_order m) * h /\
    (now s0 <= te -> forall rho fuelc o tb fuel cs s t, 0 <= rho -> leaves_at_most rho te m (solver_of (E := E) m fuelc o rhs PInf) s0 ->
    s = session (E := E) (solver_of (E := E) m fuelc o rhs tb) fuel cs s0 -> now s <= te -> @gt_ext Rops te tb = false ->
    askable s (te - h) t -> solved (E := E) (solver_of (E := E) m fuelc o rhs tb) s t (K * (h ^ Nat.min k p + rho / h)) y).
Proof. exact C86_implicit_lemma. Qed.
Print Assumptions C86_implicit.
(** RungeKutta23 (3) and RungeKutta45 (4) with t_bound = te: run returns the asked
    rows, fewer if the next step would pass t_bound *)
Theorem C86_variable {E : @Env Rops} : forall rhs n L t0 te y, lipschitz n L rhs -> defined_on n rhs -> t0 <= te ->
  forall m p, Ck_solution 5 rhs n t0 te y -> smooth_along rhs n t0 te y -> In (m, p) var_table -> (1 <= n)%nat ->
  exists K, forall (o : @options Rops) h0, tolerances o -> shrinking o -> (forall x : R, max_step o = @Fin Rops x -> 0 < x) -> 0 < h0 ->
  exists N, forall g sel, garbage_ok m g -> exists s0, init_var m g rhs t0 (y t0) o sel (Some h0) = Ret s0 /\ now s0 = t0 /\ buf_t0 (cache s0) = t0 /\
    forall H fuelc fuel cs s t, 0 < H <= 1 -> (N <= fuelc)%nat ->
    steps_at_most H te (solver_of (E := E) m fuelc o rhs (@Fin Rops te)) s0 ->
    returns (E := E) (solver_of (E := E) m fuelc o rhs (@Fin Rops te)) fuel cs s0 s -> now s <= te -> askable s te t ->
    exists N' rows s', (forall fuel', (N' <= fuel')%nat -> run (E := E) (solver_of (E := E) m fuelc o rhs (@Fin Rops te)) fuel' t s = (Ret rows, s')) /\
      (map fst rows = t \/ would_pass (@Fin Rops te) s' /\ now s' < last t 0) /\ Forall (fun r => near (K * H ^ p) (snd r) (y (fst r))) rows.
Proof. exact C86_variable_lemma. Qed.
Print Assumptions C86_variable.
(** Adams-Bashforth with the default first stepper and initial time 0 (for other
    initial times see C33): a RungeKutta45 instance with default options whose
    constructor chose H0 as the first step *)
Theorem C86_default {E : @Env Rops} : forall rhs n L, lipschitz n L rhs -> defined_on n rhs -> forall te y, 0 <= te -> C2_solution rhs n 0 te y ->
  forall k m bs M H0, In (k, m, bs) ab_table -> (1 <= n)%nat -> 0 < H0 -> bounded_at_zero n M 0 (@Fin Rops H0) rhs ->
  exists K hmax N, 0 < hmax /\ forall h g g1 sel s1 fuel1, 0 < h <= hmax -> garbage_ok m g -> garbage_ok RungeKutta45 g1 ->
    init_var RungeKutta45 g1 rhs 0 (y 0) default_options sel None = Ret s1 -> hstep s1 = H0 -> (N <= fuel1)%nat ->
    exists N0 s0, (forall fuel0, (N0 <= fuel0)%nat -> init_ms (E := E) m g rhs 0 (y 0) (Some h) (FSVar (fun _ _ => Ret (solver_of (E := E) RungeKutta45 fuel1 default_options rhs PInf, s1))) fuel0 = Ret s0) /\
      now s0 <= INR k * h /\
      forall fuelc o tb fuel cs s t, s = session (E := E) (solver_of (E := E) m fuelc o rhs tb) fuel cs s0 -> now s <= te -> @gt_ext Rops te tb = false ->
      askable s (te - h) t -> solved (E := E) (solver_of (E := E) m fuelc o rhs tb) s t (K * h) y.
Proof. exact C86_default_lemma. Qed.
Print Assumptions C86_default.
(** AdamsMoulton1-3 and BDF1-6 with the default first stepper: the rows it supplies
    are accurate to second order in h *)
Theorem C86_default_implicit {E : @Env Rops} : forall rhs n L te y, lipschitz n L rhs -> defined_on n rhs -> 0 <= te ->
  forall k m M H0, Ck_solution (Nat.max 5 (k + 1)) rhs n 0 te y -> In (k, m) (am_table ++ bdf_table) ->
  solve_dim (E := E) -> (1 <= n)%nat -> n = 1%nat \/ solves_regular (E := E) n -> 0 < H0 -> bounded_at_zero n M 0 (@Fin Rops H0) rhs ->
  exists K hmax N, 0 < hmax /\ forall h g g1 sel s1 fuel1, 0 < h <= hmax -> garbage_ok m g -> garbage_ok RungeKutta45 g1 ->
    init_var RungeKutta45 g1 rhs 0 (y 0) default_options sel None = Ret s1 -> hstep s1 = H0 -> (N <= fuel1)%nat ->
    exists N0 s0, (forall fuel0, (N0 <= fuel0)%nat -> init_ms (E := E) m g rhs 0 (y 0) (Some h) (FSVar (fun _ _ => Ret (solver_of (E := E) RungeKutta45 fuel1 default_options rhs PInf, s1))) fuel0 = Ret s0) /\
      now s0 <= INR (ms_order m) * h /\
      (now s0 <= te -> forall rho fuelc o tb fuel cs s t, 0 <= rho -> leaves_at_most rho te m (solver_of (E := E) m fuelc o rhs PInf) s0 ->
    s = session (E := E) (solver_of (E := E) m fuelc o rhs tb) fuel cs s0 -> now s <= te -> @gt_ext Rops te tb = false ->
      askable s (te - h) t -> solved (E := E) (solver_of (E := E) m fuelc o rhs tb) s t (K * (h ^ Nat.min k 2 + rho / h)) y).
Proof. exact C86_default_implicit_lemma. Qed.
Print Assumptions C86_default_implicit.
Example C86_default_ex : lipschitz 1 1 rhs_cat /\ defined_on 1 rhs_cat /\ (forall k, Ck_solution k rhs_cat 1 0 2 sol_cat) /\ solve_dim (E := ER) /\
  forall H0, bounded_at_zero 1 1 0 (@Fin Rops H0) rhs_cat /\
    exists s1, init_var RungeKutta45 (garb RungeKutta45) rhs_cat 0 (sol_cat 0) default_options (fun _ _ _ => Ret H0) None = Ret s1 /\ hstep s1 = H0.
Proof.
  split; [apply cat_lipschitz|]. split; [apply cat_defined|]. split; [intros; apply cat_solution|]. split; [intros cols b x [= <-]; reflexivity|].
  intros H0. split.
  - intros t _ _. eexists. split; [reflexivity|]. intros i Hi. destruct i as [|i]; [|lia]. cbn. rewrite Rmult_0_l, Rplus_0_r, sqrt_1, Rabs_R1. lra.
  - eapply init_fsal_45. reflexivity.
Qed.
(** y' = sqrt(1 + y^2), y(0) = 0 on [0, 2]; y' = y for the variable step classes *)
Example C86_ex : lipschitz 1 1 rhs_cat /\ defined_on 1 rhs_cat /\ (forall k, Ck_solution k rhs_cat 1 0 2 sol_cat) /\ smooth_along rhs_cat 1 0 2 sol_cat /\
  In (RungeKutta4 (OT := Rops), 4%nat) rk_table /\ solve_dim (E := ER) /\
  (forall h, init_rk (RungeKutta4 (OT := Rops)) (garb RungeKutta4) rhs_cat 0 (sol_cat 0) (Some h) = Ret (r_cat h)) /\
  (forall h, 0 < h <= 1 / 10 -> now (r_cat h) = 0 /\ askable (r_cat h) (2 - h) [0; 1 / 2; 3 / 2]) /\
  (forall k m h, In (k, m) (am_table ++ bdf_table) -> exists fs s0, starts (E := ER) rhs_cat 0 (sol_cat 0) h (Some RungeKutta4) fs /\
     init_ms (E := ER) m (garb m) rhs_cat 0 (sol_cat 0) (Some h) fs 0 = Ret s0) /\
  In (RungeKutta23 (OT := Rops), 3%nat) var_table /\ tolerances (@default_options Rops) /\ shrinking (@default_options Rops) /\ max_step (@default_options Rops) = PInf /\
  (forall fuelc, steps_at_most 1 1 (solver_of (E := ER) RungeKutta23 fuelc default_options rhs_exp (@Fin Rops 1)) (r_rk23 (1 / 10))).
Proof.
  split; [apply cat_lipschitz|]. split; [apply cat_defined|]. split; [intros; apply cat_solution|]. split; [apply cat_smooth|]. split; [cbn; auto 10|].
  split; [intros cols b x [= <-]; reflexivity|]. split; [apply cat_rk4|]. split; [apply cat_askable|]. split; [apply cat_started|]. split; [cbn; auto|].
  split; [unfold tolerances; cbn [atol rtol default_options]; rewrite !lit_R; cbn; lra|].
  split; [unfold shrinking; cbn [min_factor max_factor safety_factor default_options]; rewrite !lit_R; cbn; lra|]. split; [reflexivity|].
  intros fuelc. apply exp_steps_at. lra.
Qed.
