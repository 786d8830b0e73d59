(** C84 and C86 for RungeKutta45 with order five. *)
From Coq Require Import List ZArith QArith Bool Arith Lia Reals Lra.
From Verif Require Import Base Scalar Vec MBuffer MZeros MSteps MApi MDop853 MClasses Laws Spec SpecInst SpecInit PVecR SpecRK SpecVar SpecConv SpecConv2 SpecConv3
  SpecEv SpecEvC SpecCtl SpecLive SpecVL SpecSolve SpecFive PBound PTop1 Ex PConv1 PConv8 PExR PC5 PExVar PExEvC POrd2 SpecMS PConv9 PFive3 PFive4 PSolve4 PFive5.
Import ListNotations.
Open Scope R_scope.

(** * C84  RungeKutta45: the states behind the events are off by at most K H^5 *)
Theorem C84_five {E : @Env Rops} : forall rhs n L t0 te y, lipschitz n L rhs -> t0 <= te -> Ck_solution 6 rhs n t0 te y -> smooth_along3 rhs n t0 te y ->
  exists K, 0 <= K /\ forall H g o sel first s0 fuelc tb fuel cs s, 0 < H <= 1 -> sane o -> garbage_ok (@RungeKutta45 Rops) g ->
    init_var (@RungeKutta45 Rops) g rhs t0 (y t0) o sel first = Ret s0 -> 0 <= hstep s0 ->
    steps_at_most H te (solver_of (E := E) RungeKutta45 fuelc o rhs tb) s0 ->
    returns (E := E) (solver_of (E := E) RungeKutta45 fuelc o rhs tb) fuel cs s0 s ->
    event_times (E := E) n te y (solver_of (E := E) RungeKutta45 fuelc o rhs tb) s (K * H ^ 5) H /\
    event_stops (E := E) n te y (solver_of (E := E) RungeKutta45 fuelc o rhs tb) s (K * H ^ 5) H.
Proof. exact C84_five_lemma. Qed.
Print Assumptions C84_five.
(** y' = y, y(0) = 1 with the event y = 2: the instances and the steps of C71_five_ex, and the simple zero ln 2 of the event function *)
Example C84_five_ex : lipschitz 1 1 rhs_exp /\
  (forall te, Ck_solution 6 rhs_exp 1 0 te sol_exp /\ smooth_along3 rhs_exp 1 0 te sol_exp) /\
  sane (@default_options Rops) /\
  init_var (RungeKutta45 (OT := Rops)) (garb RungeKutta45) rhs_exp 0 (sol_exp 0) default_options (fun _ _ _ => Ret one) (Some (1 / 10)) = Ret (r_rk45 (1 / 10)) /\
  (forall te, steps_at_most te te (solver_of (E := ER) RungeKutta45 1 default_options rhs_exp PInf) (r_rk45 (1 / 10))) /\
  event_fun 1 1 ev_two G_two /\ simple_zero 1 1 (1 / 2) (fun t => G_two t (sol_exp t)) (ln 2).
Proof.
  split; [apply exp_lipschitz|]. split; [intros te; split; [apply exp_Ck|apply exp_smooth3]|].
  split; [apply default_sane|]. split; [apply r_rk45_ok|]. split; [intros te; apply exp_steps45; lra|]. split; [exact two_fun|exact two_zero].
Qed.

(** * C86  RungeKutta45: run returns the asked rows, off by at most K H^5 *)
Theorem C86_five {E : @Env Rops} : forall rhs n L t0 te y, lipschitz n L rhs -> defined_on n rhs -> t0 <= te ->
  Ck_solution 6 rhs n t0 te y -> smooth_along3 rhs n t0 te y -> (1 <= n)%nat ->
  exists K, forall (o : @options Rops) h0, tolerances o -> shrinking o -> (forall x : R, max_step o = @Fin Rops x -> 0 < x) -> 0 < h0 ->
  exists N, forall g sel, garbage_ok (@RungeKutta45 Rops) g -> exists s0, init_var (@RungeKutta45 Rops) g rhs t0 (y t0) o sel (Some h0) = Ret s0 /\ now s0 = t0 /\ buf_t0 (cache s0) = t0 /\
    forall H fuelc fuel cs s t, 0 < H <= 1 -> (N <= fuelc)%nat ->
    steps_at_most H te (solver_of (E := E) RungeKutta45 fuelc o rhs (@Fin Rops te)) s0 ->
    returns (E := E) (solver_of (E := E) RungeKutta45 fuelc o rhs (@Fin Rops te)) fuel cs s0 s -> now s <= te -> askable s te t ->
    exists N' rows s', (forall fuel', (N' <= fuel')%nat -> run (E := E) (solver_of (E := E) RungeKutta45 fuelc o rhs (@Fin Rops te)) fuel' t s = (Ret rows, s')) /\
      (map fst rows = t \/ would_pass (@Fin Rops te) s' /\ now s' < last t 0) /\ Forall (fun r => near (K * H ^ 5) (snd r) (y (fst r))) rows.
Proof. exact C86_five_lemma. Qed.
Print Assumptions C86_five.
(** y' = y, y(0) = 1 with the default options; with t_bound 1 no step is longer than 1 *)
Example C86_five_ex : lipschitz 1 1 rhs_exp /\ defined_on 1 (@rhs_exp Rops) /\ Ck_solution 6 rhs_exp 1 0 1 sol_exp /\ smooth_along3 rhs_exp 1 0 1 sol_exp /\
  tolerances (@default_options Rops) /\ shrinking (@default_options Rops) /\ max_step (@default_options Rops) = PInf /\
  init_var (RungeKutta45 (OT := Rops)) (garb RungeKutta45) rhs_exp 0 (sol_exp 0) default_options (fun _ _ _ => Ret one) (Some (1 / 10)) = Ret (r_rk45 (1 / 10)) /\
  (forall fuelc, steps_at_most 1 1 (solver_of (E := ER) RungeKutta45 fuelc default_options rhs_exp (@Fin Rops 1)) (r_rk45 (1 / 10))) /\
  askable (r_rk45 (1 / 10)) 1 [0; 1 / 2; 1].
Proof.
  split; [apply exp_lipschitz|]. split; [intros t v _; exists v; reflexivity|]. split; [apply exp_Ck|]. split; [apply exp_smooth3|].
  split; [unfold tolerances; cbn [atol rtol default_options]; rewrite !lit_R; cbn; lra|].
  split; [unfold shrinking; cbn [min_factor max_factor safety_factor default_options]; rewrite !lit_R; cbn; lra|]. split; [reflexivity|]. split; [apply r_rk45_ok|].
  split; [intros fuelc; apply exp_steps45_at; lra|]. split; [discriminate|]. split; [cbn [is_sorted]; rewrite !andb_true_iff; repeat split; apply Rleb_true; lra|].
  destruct (init_pair rhs_exp 1 0 sol_exp (fun t v _ => ex_intro _ v eq_refl) RungeKutta45 (garb RungeKutta45) default_options (fun _ _ _ => Ret one) (1 / 10)) as (s0 & I0 & _ & _ & B0);
    [cbn; auto|reflexivity|unfold tolerances; cbn [atol rtol default_options]; rewrite !lit_R; cbn; lra|discriminate|apply garb_ok|].
  rewrite r_rk45_ok in I0. injection I0 as <-. rewrite B0. intros x Hx. destruct Hx as [<-|[<-|[<-|[]]]]; lra.
Qed.
