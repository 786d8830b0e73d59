(** C93: constructing a solver and calling run_events finds the zeros of an event
    function. *)
From Coq Require Import List ZArith QArith Bool Arith Lia Reals Lra.
From Verif Require Import Base Scalar Vec MBuffer MZeros MSteps MApi MDop853 MClasses Laws Spec SpecInst SpecInit PVecR SpecRK SpecMS SpecOrder SpecVar SpecConv SpecConv2 SpecConv3
  SpecEv SpecEvC SpecFive SpecCtl SpecVL SpecSolve SpecEvD PBound PTop1 Ex PConv8 PExVar PExEvC SpecLive PEvD2 PExEvD.
Import ListNotations.
Open Scope R_scope.

(** * C93  the fixed step Runge-Kutta classes *)
Theorem C93 {E : @Env Rops} : forall rhs n L t0 te y, lipschitz n L rhs -> defined_on n rhs -> t0 <= te ->
  forall m p, Ck_solution 5 rhs n t0 te y -> smooth_along rhs n t0 te y -> In (m, p) rk_table ->
  exists K, 0 <= K /\ forall h g, 0 < h <= 1 -> garbage_ok m g -> exists s0, init_rk m g rhs t0 (y t0) (Some h) = Ret s0 /\ now s0 = t0 /\
    forall fuelc o tb fuel cs s t evs, s = session (E := E) (solver_of (E := E) m fuelc o rhs tb) fuel cs s0 -> @gt_ext Rops te tb = false -> event_call s (te - h) t evs ->
    (forall j u G Lg sg mu del z, (forall u, In u evs -> ~ terminal u) -> nth_error evs j = Some u ->
       visible_zero n y u G Lg sg mu del z (now s) (last t 0) (K * h ^ p) h ->
       finds (E := E) (solver_of (E := E) m fuelc o rhs tb) s t evs j y z (K * h ^ p) ((Lg * (K * h ^ p) + ev_tol) / mu + h / 2 ^ 50)) /\
    (forall u G Lg Lt sg mu del z, evs = [u] -> terminal u -> visible_zero n y u G Lg sg mu del z (now s) (last t 0) (K * h ^ p) h ->
       first_zero y G Lg Lt del z (now s) te (K * h ^ p) h ->
       stops_at (E := E) (solver_of (E := E) m fuelc o rhs tb) s t u z ((Lg * (K * h ^ p) + ev_tol + Lt * (h / 2 ^ 50)) / mu)).
Proof. exact C93_fixed. Qed.
Print Assumptions C93.
(** RungeKutta23 and RungeKutta45 with steps at most H: unless one more step would
    pass t_bound before the last of the asked times is reached *)
Theorem C93_variable {E : @Env Rops} : forall rhs n L t0 te y, lipschitz n L rhs -> defined_on n rhs -> t0 <= te ->
  forall m p, Ck_solution 5 rhs n t0 te y -> smooth_along rhs n t0 te y -> In (m, p) var_table -> (1 <= n)%nat ->
  exists K, 0 <= K /\ forall (o : @options Rops) h0, tolerances o -> shrinking o -> (forall x : R, max_step o = @Fin Rops x -> 0 < x) -> 0 < h0 ->
  exists N, forall g sel, garbage_ok m g -> exists s0, init_var m g rhs t0 (y t0) o sel (Some h0) = Ret s0 /\ now s0 = t0 /\
    forall H fuelc fuel cs s t evs, let sv := solver_of (E := E) m fuelc o rhs (@Fin Rops te) in 0 < H <= 1 -> (N <= fuelc)%nat ->
    steps_at_most H te sv s0 -> returns (E := E) sv fuel cs s0 s -> event_call s te t evs ->
    (forall j u G Lg sg mu del z, (forall u, In u evs -> ~ terminal u) -> nth_error evs j = Some u ->
       visible_zero n y u G Lg sg mu del z (now s) (last t 0) (K * H ^ p) H ->
       finds (E := E) sv s t evs j y z (K * H ^ p) ((Lg * (K * H ^ p) + ev_tol) / mu + H / 2 ^ 50) \/ cut_short (E := E) sv s t evs) /\
    (forall u G Lg Lt sg mu del z, evs = [u] -> terminal u -> visible_zero n y u G Lg sg mu del z (now s) (last t 0) (K * H ^ p) H ->
       first_zero y G Lg Lt del z (now s) te (K * H ^ p) H ->
       stops_at (E := E) sv s t u z ((Lg * (K * H ^ p) + ev_tol + Lt * (H / 2 ^ 50)) / mu) \/ cut_short (E := E) sv s t evs).
Proof. exact C93_var. Qed.
Print Assumptions C93_variable.
(** RungeKutta45 with order five *)
Theorem C93_five {E : @Env Rops} : forall rhs n L t0 te y, lipschitz n L rhs -> defined_on n rhs -> t0 <= te ->
  Ck_solution 6 rhs n t0 te y -> smooth_along3 rhs n t0 te y -> (1 <= n)%nat ->
  exists K, 0 <= K /\ forall (o : @options Rops) h0, tolerances o -> shrinking o -> (forall x : R, max_step o = @Fin Rops x -> 0 < x) -> 0 < h0 ->
  exists N, forall g sel, garbage_ok RungeKutta45 g -> exists s0, init_var RungeKutta45 g rhs t0 (y t0) o sel (Some h0) = Ret s0 /\ now s0 = t0 /\
    forall H fuelc fuel cs s t evs, let sv := solver_of (E := E) RungeKutta45 fuelc o rhs (@Fin Rops te) in 0 < H <= 1 -> (N <= fuelc)%nat ->
    steps_at_most H te sv s0 -> returns (E := E) sv fuel cs s0 s -> event_call s te t evs ->
    (forall j u G Lg sg mu del z, (forall u, In u evs -> ~ terminal u) -> nth_error evs j = Some u ->
       visible_zero n y u G Lg sg mu del z (now s) (last t 0) (K * H ^ 5) H ->
       finds (E := E) sv s t evs j y z (K * H ^ 5) ((Lg * (K * H ^ 5) + ev_tol) / mu + H / 2 ^ 50) \/ cut_short (E := E) sv s t evs) /\
    (forall u G Lg Lt sg mu del z, evs = [u] -> terminal u -> visible_zero n y u G Lg sg mu del z (now s) (last t 0) (K * H ^ 5) H ->
       first_zero y G Lg Lt del z (now s) te (K * H ^ 5) H ->
       stops_at (E := E) sv s t u z ((Lg * (K * H ^ 5) + ev_tol + Lt * (H / 2 ^ 50)) / mu) \/ cut_short (E := E) sv s t evs).
Proof. exact C93_five_lemma. Qed.
Print Assumptions C93_five.
(** y' = y, y(0) = 1 with RungeKutta4 asked for the times 1 and 2 and the event y = 2,
    as an event that does not stop the run and as one that does *)
Example C93_ex : exists K h0, 0 <= K /\ 0 < h0 /\ forall h, 0 < h <= h0 -> exists s0, init_rk (@RungeKutta4 Rops) (garb RungeKutta4) rhs_exp 0 (sol_exp 0) (Some h) = Ret s0 /\
  finds (E := ER) (solver_of (E := ER) RungeKutta4 0 default_options rhs_exp PInf) s0 [1; 2] [ev_two] 0 sol_exp (ln 2) (K * h ^ 4) (K * h ^ 4 + ev_tol + h / 2 ^ 50) /\
  stops_at (E := ER) (solver_of (E := ER) RungeKutta4 0 default_options rhs_exp PInf) s0 [1; 2] ev_two_stop (ln 2) (K * h ^ 4 + ev_tol + 27 * (h / 2 ^ 50)).
Proof. exact C93_example. Qed.
