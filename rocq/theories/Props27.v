(** C49 for the variable step classes: run_events returns. *)
From Coq Require Import List ZArith QArith Bool Arith Lia Reals Lra.
From Verif Require Import Base Scalar Vec MBuffer MZeros MSteps MApi MDop853 MClasses Laws Spec SpecInst SpecInit PVecR SpecRK SpecEv SpecVar SpecConv SpecConv2 SpecConv3
  SpecCtl SpecMS SpecLive SpecVL PBound PTop1 Ex PConv1 PConv8 PExR PC3 PC5 PConv9 PExVar PExEvC PEv11.
Import ListNotations.
Open Scope R_scope.

(** * C49  RungeKutta23 and RungeKutta45: run_events returns
    [pairs]: RungeKutta23 and RungeKutta45.  [shrinking]: 0 < min_factor < 1,
    0 < safety_factor < 1 <= max_factor; [tolerances]: 0 < atol, 0 <= rtol.
    Whatever calls were made before, events that can be evaluated everywhere and
    times after the current one; [fuelc] bounds the trials of one step. *)
Theorem C49_variable {E : @Env Rops} : forall rhs n L M t0 te tb m o y0 h0, lipschitz n L rhs -> defined_on n rhs -> bounded_at_zero n M t0 tb rhs -> t0 <= te -> (1 <= n)%nat ->
  In m pairs -> tolerances o -> shrinking o -> length y0 = n -> 0 < h0 ->
  exists N, forall g sel first s0 fuelc fuel cs s, garbage_ok m g -> init_var m g rhs t0 y0 o sel first = Ret s0 -> hstep s0 = h0 -> (N <= fuelc)%nat ->
    let sv := solver_of (E := E) m fuelc o rhs tb in s = session (E := E) sv fuel cs s0 ->
    forall (t : list R) evs, t <> [] -> is_sorted (OT := Rops) t = true -> (forall x, In x t -> now s < x <= te /\ @gt_ext Rops x tb = false) ->
      evs <> [] -> (forall u : eventR, In u evs -> forall t y, exists v, ue_fun u t y = Ret v) ->
      exists N' r s', forall fuel', (N' <= fuel')%nat -> run_events (E := E) sv fuel' t evs s = (Ret r, s').
Proof. exact C49_variable_lemma. Qed.
Print Assumptions C49_variable.
(** y' = y, y(0) = 1 with the default options, first step 1/10, t_bound = 2 and the event y = 2 *)
Example C49_variable_ex : lipschitz 1 1 rhs_exp /\ defined_on 1 rhs_exp /\ bounded_at_zero 1 0 0 (@Fin Rops 2) rhs_exp /\ In (@RungeKutta23 Rops) pairs /\
  tolerances default_options /\ shrinking default_options /\
  init_var (RungeKutta23 (OT := Rops)) (garb RungeKutta23) rhs_exp 0 (sol_exp 0) default_options (fun _ _ _ => Ret one) (Some (1 / 10)) = Ret (r_rk23 (1 / 10)) /\
  hstep (r_rk23 (1 / 10)) = 1 / 10 /\ now (r_rk23 (1 / 10)) < 1 <= 2 /\ @gt_ext Rops 1 (@Fin Rops 2) = false /\
  (forall t y, exists v, ue_fun ev_two t y = Ret v).
Proof.
  split; [apply exp_lipschitz|]. split; [intros t y Hy; exists y; reflexivity|]. split.
  { intros t _ _. exists [0]. split; [reflexivity|]. intros i Hi. destruct i as [|[|i]]; cbn; rewrite Rabs_R0; lra. }
  split; [cbn; auto|]. split; [unfold tolerances; cbn [atol rtol default_options]; rewrite !lit_R; cbn; lra|].
  split; [unfold shrinking; cbn [min_factor max_factor safety_factor default_options]; rewrite !lit_R; cbn; lra|].
  split; [exact (r_rk23_ok (1 / 10))|]. destruct (r_rk23_data (1 / 10)) as (D1 & D2 & D3 & D4 & D5). split; [exact D1|].
  split; [rewrite D3; lra|]. split; [cbn; apply Rltb_false; lra|]. intros t y. eexists. reflexivity.
Qed.
