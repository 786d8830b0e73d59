(** C85: the variable step classes get there. *)
From Coq Require Import List ZArith Bool Arith Reals Lra.
From Verif Require Import Base Scalar Vec MBuffer MZeros MSteps MApi MClasses Laws Spec SpecInst PVecR PBound SpecRK SpecCtl SpecMS SpecConv SpecLive SpecVL
  Ex PTop1 SpecVar PExR PC3 PConv9 PExVar PConv8 PVL5.
Import ListNotations.
Open Scope R_scope.

(** * C85  variable step integration makes progress
    [pairs]: RungeKutta23 and RungeKutta45.  [shrinking]: 0 < min_factor < 1,
    0 < safety_factor < 1 <= max_factor; [tolerances]: 0 < atol, 0 <= rtol.
    [fuelc] bounds the trials of one step. *)
Theorem C85 {E : @Env Rops} : forall rhs n L M t0 te tb m o y0 h0, lipschitz n L rhs -> defined_on n rhs -> bounded_at_zero n M t0 tb rhs -> t0 <= te -> (1 <= n)%nat ->
  In m pairs -> tolerances o -> shrinking o -> length y0 = n -> 0 < h0 ->
  exists hmin N, 0 < hmin /\ forall g sel first s0 fuelc fuel cs s, garbage_ok m g -> init_var m g rhs t0 y0 o sel first = Ret s0 -> hstep s0 = h0 -> (N <= fuelc)%nat ->
    s = session (E := E) (solver_of (E := E) m fuelc o rhs tb) fuel cs s0 -> now s <= te ->
    hmin <= hstep s /\ (~ would_pass tb s -> exists s', took_step (solver_of (E := E) m fuelc o rhs tb) s s' /\ now s + hmin <= now s').
Proof. exact C85_lemma. Qed.
Print Assumptions C85.
(** step, skip and run return *)
Theorem C85_calls {E : @Env Rops} : forall rhs n L M t0 te tb m o y0 h0, lipschitz n L rhs -> defined_on n rhs -> bounded_at_zero n M t0 tb rhs -> t0 <= te -> (1 <= n)%nat ->
  In m pairs -> tolerances o -> shrinking o -> length y0 = n -> 0 < h0 ->
  exists N, forall g sel first s0 fuelc fuel cs s, garbage_ok m g -> init_var m g rhs t0 y0 o sel first = Ret s0 -> hstep s0 = h0 -> (N <= fuelc)%nat ->
    let sv := solver_of (E := E) m fuelc o rhs tb in s = session (E := E) sv fuel cs s0 ->
    (forall x, now s <= x <= te -> @gt_ext Rops x tb = false -> exists N' rows (s' : @st Rops), now s' <= x < now s' + hstep s' /\ forall fuel', (N' <= fuel')%nat ->
       step sv fuel' None (Some (@Fin Rops x)) s = (Ret (RMany rows), s') /\ skip sv fuel' None (Some (@Fin Rops x)) s = (Ret tt, s')) /\
    (forall t : list R, t <> [] -> is_sorted (OT := Rops) t = true -> (forall x, In x t -> buf_t0 (cache s) <= x <= te /\ @gt_ext Rops x tb = false) ->
       exists N' rows s', (map fst rows = t \/ would_pass tb s') /\ forall fuel', (N' <= fuel')%nat -> run (E := E) sv fuel' t s = (Ret rows, s')).
Proof. exact C85_calls_lemma. Qed.
Print Assumptions C85_calls.
(** y' = y, y(0) = 1 with the default options, first step 1/10, t_bound = 2 *)
Example C85_ex : lipschitz 1 1 rhs_exp /\ defined_on 1 rhs_exp /\ bounded_at_zero 1 0 0 (@Fin Rops 2) rhs_exp /\ In (@RungeKutta23 Rops) pairs /\
  tolerances default_options /\ shrinking default_options /\
  init_var (RungeKutta23 (OT := Rops)) (garb RungeKutta23) rhs_exp 0 (sol_exp 0) default_options (fun _ _ _ => Ret one) (Some (1 / 10)) = Ret (r_rk23 (1 / 10)) /\
  hstep (r_rk23 (1 / 10)) = 1 / 10 /\ ~ would_pass (@Fin Rops 2) (r_rk23 (1 / 10)).
Proof.
  split; [apply exp_lipschitz|]. split; [intros t y Hy; exists y; reflexivity|]. split.
  { intros t _ _. exists [0]. split; [reflexivity|]. intros i Hi. destruct i as [|[|i]]; cbn; rewrite Rabs_R0; lra. }
  split; [cbn; auto|]. split; [unfold tolerances; cbn [atol rtol default_options]; rewrite !lit_R; cbn; lra|].
  split; [unfold shrinking; cbn [min_factor max_factor safety_factor default_options]; rewrite !lit_R; cbn; lra|].
  split; [exact (r_rk23_ok (1 / 10))|]. destruct (r_rk23_data (1 / 10)) as (D1 & D2 & D3 & D4 & D5). split; [exact D1|].
  unfold would_pass. rewrite D1, D3. cbn. intros H. apply Rltb_true in H. lra.
Qed.
