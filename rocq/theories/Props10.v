(** C66, C67. *)
From Coq Require Import List ZArith QArith Bool Arith Lia Reals Lra.
From Verif Require Import Base Scalar Vec MBuffer MZeros MSteps MApi MDop853 MClasses Laws Spec SpecInst
  PVecR SpecRK PBound PTop1 Ex SpecInv PInv3 PExInv SpecOrder SpecConv SpecConv3 PHi4 PHi6 PExHi.
Import ListNotations.
Open Scope R_scope.

(** * C66  linear first integrals are conserved
    [tangent n w c rhs]: w . f = 0 wherever w . y = c *)
Theorem C66 {E : @Env Rops} : forall n w y0 rhs, tangent n w (dot w y0) rhs -> length y0 = n ->
  forall m fuelc o tb s0 fuel cs y, explicit_class m -> explicit_instance (E := E) rhs y0 m s0 ->
  In y (ys (cache (session (E := E) (solver_of (E := E) m fuelc o rhs tb) fuel cs s0))) ->
  dot w y = dot w y0.
Proof. exact C66_lemma. Qed.
Print Assumptions C66.
(** the rows of run *)
Theorem C66_run {E : @Env Rops} : forall n w y0 rhs, tangent n w (dot w y0) rhs -> length y0 = n ->
  forall m fuelc o tb s0 fuel cs s fuel' t rows s', explicit_class m -> explicit_instance (E := E) rhs y0 m s0 ->
  (is_fixed m = true \/ (sane o /\ 0 <= hstep s0)) ->
  returns (E := E) (solver_of (E := E) m fuelc o rhs tb) fuel cs s0 s -> is_sorted t = true ->
  run (E := E) (solver_of (E := E) m fuelc o rhs tb) fuel' t s = (Ret rows, s') ->
  forall r, In r rows -> length (snd r) = n /\ dot w (snd r) = dot w y0.
Proof. exact C66_run_lemma. Qed.
Print Assumptions C66_run.
(** the classes of the package meant *)
Example C66_classes : Forall explicit_class [ForwardEuler; AB1; AB2; AB3; AB4; AB5;
  Runge2; Runge3; Heun3; RungeKutta4; RungeKutta3_8; RungeKutta23; RungeKutta45; DOP853].
Proof. repeat (apply Forall_cons; [cbn; repeat split; discriminate|]). apply Forall_nil. Qed.
(** exchange between two reservoirs, y' = (y2 - y1, y1 - y2), from (1, 0) *)
Example C66_ex {E : @Env Rops} : tangent 2 [1; 1] 1 exchange /\ dot [1; 1] [1; 0] = 1 /\
  explicit_instance (E := E) exchange [1; 0] RungeKutta4 (ex_rk4 1) /\
  exists s, s_core (solver_of (E := E) RungeKutta4 0 default_options exchange PInf) (ex_rk4 1) = (Ret tt, s) /\ state s = [2/3; 1/3].
Proof.
  split; [apply exchange_tangent|]. split; [cbn; lra|]. split; [apply ex_rk4_instance|apply ex_rk4_moves].
Qed.

(** * C67  order of convergence of the fixed step Runge-Kutta classes
    [rk_table]: Runge2 2, Runge3 3, Heun3 3, RungeKutta4 4, RungeKutta3_8 4 *)
Theorem C67 {E : @Env Rops} : forall rhs n L t0 te y, lipschitz n L rhs -> t0 <= te ->
  Ck_solution 5 rhs n t0 te y -> smooth_along rhs n t0 te y ->
  forall m p, In (m, p) rk_table ->
  exists K, forall h g s0 fuelc o tb fuel cs s, 0 < h <= 1 -> garbage_ok m g ->
    init_rk m g rhs t0 (y t0) (Some h) = Ret s0 ->
    s = session (E := E) (solver_of (E := E) m fuelc o rhs tb) fuel cs s0 -> now s <= te ->
    near (K * h ^ p) (state s) (y (now s)).
Proof. exact C67_lemma. Qed.
Print Assumptions C67.
(** the rows of run *)
Theorem C67_run {E : @Env Rops} : forall rhs n L t0 te y, lipschitz n L rhs -> t0 <= te ->
  Ck_solution 5 rhs n t0 te y -> smooth_along rhs n t0 te y ->
  forall m p, In (m, p) rk_table ->
  exists K, forall h g s0 fuelc o tb fuel cs s fuel' t rows s', 0 < h <= 1 -> garbage_ok m g ->
    init_rk m g rhs t0 (y t0) (Some h) = Ret s0 ->
    s = session (E := E) (solver_of (E := E) m fuelc o rhs tb) fuel cs s0 ->
    is_sorted t = true -> run (E := E) (solver_of (E := E) m fuelc o rhs tb) fuel' t s = (Ret rows, s') -> now s' <= te ->
    Forall (fun r => near (K * h ^ p) (snd r) (y (fst r))) rows.
Proof. exact C67_run_lemma. Qed.
Print Assumptions C67_run.
(** y' = sqrt(1 + y^2), y(0) = 0, solved by sinh t, with RungeKutta4 *)
Example C67_ex : In (RungeKutta4 (OT := Rops), 4%nat) rk_table /\ lipschitz 1 1 rhs_cat /\
  (forall te, Ck_solution 5 rhs_cat 1 0 te sol_cat /\ smooth_along rhs_cat 1 0 te sol_cat) /\
  forall h, init_rk (RungeKutta4 (OT := Rops)) (garb RungeKutta4) rhs_cat 0 (sol_cat 0) (Some h) = Ret (r_cat h) /\
    exists s, session (E := ER) (solver_of (E := ER) RungeKutta4 0 default_options rhs_cat PInf) 0 [CStep None None] (r_cat h) = s /\ now s = h.
Proof.
  split; [cbn; auto 10|]. split; [apply cat_lipschitz|]. split; [intros te; split; [apply cat_solution|apply cat_smooth]|].
  intros h. split; [apply cat_rk4|apply cat_rk4_step].
Qed.
