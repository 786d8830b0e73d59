(** C94: with max_factor at most 1 the first step bounds all steps, so the classes with
    step size control converge with their order in the first step. *)
From Coq Require Import List ZArith QArith Bool Arith Lia Reals Lra.
From Verif Require Import Base Scalar Vec MBuffer MZeros MSteps MApi MDop853 MClasses Laws Spec SpecInst SpecInit PVecR SpecRK SpecMS SpecOrder SpecVar SpecConv SpecConv2 SpecConv3
  SpecEv SpecEvC SpecFive SpecLive SpecCtl SpecVL SpecSolve SpecEvD PBound PTop1 Ex PConv8 PExVar PCap2 PCap3 PFive3.
Import ListNotations.
Open Scope R_scope.

(** * C94  no step is longer than the first one *)
Theorem C94 {E : @Env Rops} : forall rhs (m : @meth Rops) g t0 y0 o sel first s0 fuelc tb fuel cs s, is_fixed m = false -> sane o -> max_factor o <= 1 -> garbage_ok m g ->
  init_var m g rhs t0 y0 o sel first = Ret s0 -> 0 <= hstep s0 -> s = session (E := E) (solver_of (E := E) m fuelc o rhs tb) fuel cs s0 ->
  0 <= hstep s <= hstep s0 /\
  forall b x', completes (solver_of (E := E) m fuelc o rhs tb) b s x' -> now s <= now x' <= now s + hstep s0 /\ hstep x' <= hstep s.
Proof. exact C94_lemma. Qed.
Print Assumptions C94.
(** RungeKutta23 has order 3, RungeKutta45 order 4 (5 below), whatever the tolerances *)
Theorem C94_order {E : @Env Rops} : forall rhs n L t0 te y, lipschitz n L rhs -> t0 <= te ->
  Ck_solution 5 rhs n t0 te y -> smooth_along rhs n t0 te y -> forall m p, In (m, p) var_table ->
  exists K, forall g o sel first (s0 : @st Rops) fuelc tb fuel cs s, 0 < hstep s0 <= 1 -> sane o -> max_factor o <= 1 -> garbage_ok m g ->
    init_var m g rhs t0 (y t0) o sel first = Ret s0 -> s = session (E := E) (solver_of (E := E) m fuelc o rhs tb) fuel cs s0 -> now s <= te ->
    near (K * hstep s0 ^ p) (state s) (y (now s)).
Proof. exact C94_order_lemma. Qed.
Print Assumptions C94_order.
Theorem C94_five {E : @Env Rops} : forall rhs n L t0 te y, lipschitz n L rhs -> t0 <= te ->
  Ck_solution 6 rhs n t0 te y -> smooth_along3 rhs n t0 te y ->
  exists K, forall g o sel first (s0 : @st Rops) fuelc tb fuel cs s, 0 < hstep s0 <= 1 -> sane o -> max_factor o <= 1 -> garbage_ok (@RungeKutta45 Rops) g ->
    init_var (@RungeKutta45 Rops) g rhs t0 (y t0) o sel first = Ret s0 -> s = session (E := E) (solver_of (E := E) RungeKutta45 fuelc o rhs tb) fuel cs s0 -> now s <= te ->
    near (K * hstep s0 ^ 5) (state s) (y (now s)).
Proof. exact C94_five_lemma. Qed.
Print Assumptions C94_five.
(** run with max_factor=1, first_step=h and t_bound=te returns one row for each of the
    asked times up to te - h, within K h^p of the solution *)
Theorem C94_solves {E : @Env Rops} : forall rhs n L t0 te y, lipschitz n L rhs -> defined_on n rhs -> t0 <= te ->
  forall m p, Ck_solution 5 rhs n t0 te y -> smooth_along rhs n t0 te y -> In (m, p) var_table -> (1 <= n)%nat ->
  exists K, forall (o : @options Rops) h, tolerances o -> shrinking o -> max_factor o = 1 -> (forall x : R, max_step o = @Fin Rops x -> 0 < x) -> 0 < h <= 1 ->
  exists N, forall g sel, garbage_ok m g -> exists s0, init_var m g rhs t0 (y t0) o sel (Some h) = Ret s0 /\ now s0 = t0 /\ buf_t0 (cache s0) = t0 /\
    forall fuelc fuel cs s t, (N <= fuelc)%nat -> returns (E := E) (solver_of (E := E) m fuelc o rhs (@Fin Rops te)) fuel cs s0 s -> now s <= te -> askable s (te - h) t ->
    solved (E := E) (solver_of (E := E) m fuelc o rhs (@Fin Rops te)) s t (K * h ^ p) y.
Proof. exact C94_solves_lemma. Qed.
Print Assumptions C94_solves.
Theorem C94_solves_five {E : @Env Rops} : forall rhs n L t0 te y, lipschitz n L rhs -> defined_on n rhs -> t0 <= te ->
  Ck_solution 6 rhs n t0 te y -> smooth_along3 rhs n t0 te y -> (1 <= n)%nat ->
  exists K, forall (o : @options Rops) h, tolerances o -> shrinking o -> max_factor o = 1 -> (forall x : R, max_step o = @Fin Rops x -> 0 < x) -> 0 < h <= 1 ->
  exists N, forall g sel, garbage_ok RungeKutta45 g -> exists s0, init_var RungeKutta45 g rhs t0 (y t0) o sel (Some h) = Ret s0 /\ now s0 = t0 /\ buf_t0 (cache s0) = t0 /\
    forall fuelc fuel cs s t, (N <= fuelc)%nat -> returns (E := E) (solver_of (E := E) RungeKutta45 fuelc o rhs (@Fin Rops te)) fuel cs s0 s -> now s <= te -> askable s (te - h) t ->
    solved (E := E) (solver_of (E := E) RungeKutta45 fuelc o rhs (@Fin Rops te)) s t (K * h ^ 5) y.
Proof. exact C94_solves_five_lemma. Qed.
Print Assumptions C94_solves_five.
(** run_events finds the zeros of event functions, and stops at a terminal one *)
Theorem C94_events {E : @Env Rops} : forall rhs n L t0 te y, lipschitz n L rhs -> defined_on n rhs -> t0 <= te ->
  forall m p, Ck_solution 5 rhs n t0 te y -> smooth_along rhs n t0 te y -> In (m, p) var_table -> (1 <= n)%nat ->
  exists K, 0 <= K /\ forall (o : @options Rops) h, tolerances o -> shrinking o -> max_factor o = 1 -> (forall x : R, max_step o = @Fin Rops x -> 0 < x) -> 0 < h <= 1 ->
  exists N, forall g sel, garbage_ok m g -> exists s0, init_var m g rhs t0 (y t0) o sel (Some h) = Ret s0 /\ now s0 = t0 /\
    forall fuelc fuel cs s t evs, let sv := solver_of (E := E) m fuelc o rhs (@Fin Rops te) in (N <= fuelc)%nat ->
    returns (E := E) sv fuel cs s0 s -> event_call s (te - h) t evs ->
    (forall j u G Lg sg mu del z, (forall u, In u evs -> ~ terminal u) -> nth_error evs j = Some u ->
       visible_zero n y u G Lg sg mu del z (now s) (last t 0) (K * h ^ p) h ->
       finds (E := E) sv s t evs j y z (K * h ^ p) ((Lg * (K * h ^ p) + ev_tol) / mu + h / 2 ^ 50)) /\
    (forall u G Lg Lt sg mu del z, evs = [u] -> terminal u -> visible_zero n y u G Lg sg mu del z (now s) (last t 0) (K * h ^ p) h ->
       first_zero y G Lg Lt del z (now s) te (K * h ^ p) h ->
       stops_at (E := E) sv s t u z ((Lg * (K * h ^ p) + ev_tol + Lt * (h / 2 ^ 50)) / mu)).
Proof. exact C94_events_lemma. Qed.
Print Assumptions C94_events.
(** the default options with max_factor=1; y' = y on [0, 3] asked for the times 1 and 2 *)
Example C94_ex : tolerances opts_cap /\ shrinking opts_cap /\ max_factor opts_cap = 1 /\ (forall x : R, max_step opts_cap = @Fin Rops x -> 0 < x) /\ sane opts_cap /\
  (exists K, forall h, 0 < h <= 1 -> exists N s0, init_var (OT := Rops) RungeKutta45 (garb RungeKutta45) rhs_exp 0 (sol_exp 0) opts_cap (fun _ _ _ => Ret one) (Some h) = Ret s0 /\
    solved (E := ER) (solver_of (E := ER) RungeKutta45 N opts_cap rhs_exp (@Fin Rops 3)) s0 [1; 2] (K * h ^ 5) sol_exp).
Proof.
  destruct cap_options as (O1 & O2 & O3 & O4 & O5). do 5 (split; [assumption|]). exact C94_example.
Qed.
