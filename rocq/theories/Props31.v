(** C92, C95: DOP853 converges, makes progress, and solves problems. *)
From Coq Require Import List ZArith QArith Bool Arith Lia Reals Lra.
From Verif Require Import Base Scalar Vec MBuffer MZeros MSteps MApi MDop853 MClasses Laws Spec SpecInst SpecInit PVecR SpecRK SpecMS SpecOrder SpecVar SpecConv SpecConv3
  SpecLive SpecCtl SpecVL SpecSolve PBound PTop1 Ex PConv8 PConv9 PExR PC3 PExVar PCap3 PSolve6 POrd2 PDlv4 PDcv4 PDcv5.
Import ListNotations.
Open Scope R_scope.

(** * C92  the states and rows of DOP853 converge
    [S] bounds the right-hand side along the solution; the second term is the effect of
    the decimal coefficients, which satisfy the conditions for consistency only up to
    their last digits. *)
Theorem C92 {E : @Env Rops} : forall rhs n L t0 te y S, lipschitz n L rhs -> t0 <= te -> C2_solution rhs n t0 te y -> 0 <= S ->
  (forall t f i, t0 <= t <= te -> rhs t (y t) = Ret f -> (i < n)%nat -> Rabs (cmp i f) <= S) ->
  exists K, forall H g o sel first s0 fuelc tb fuel cs s, 0 < H <= 1 -> 200 * (H * L) <= 1 -> sane o -> garbage_ok (@DOP853 Rops) g ->
    init_var (@DOP853 Rops) g rhs t0 (y t0) o sel first = Ret s0 -> 0 <= hstep s0 -> steps_at_most H te (solver_of (E := E) DOP853 fuelc o rhs tb) s0 ->
    s = session (E := E) (solver_of (E := E) DOP853 fuelc o rhs tb) fuel cs s0 -> now s <= te ->
    near (K * H + S * (te - t0) * exp (26 * L * (te - t0)) / 10 ^ 29) (state s) (y (now s)).
Proof. exact C92_lemma. Qed.
Print Assumptions C92.
(** the rows of run, dense output included *)
Theorem C92_run {E : @Env Rops} : forall rhs n L t0 te y S, lipschitz n L rhs -> t0 <= te -> C2_solution rhs n t0 te y -> 0 <= S ->
  (forall t f i, t0 <= t <= te -> rhs t (y t) = Ret f -> (i < n)%nat -> Rabs (cmp i f) <= S) ->
  exists K, forall H g o sel first s0 fuelc tb fuel cs s fuel' t rows s', 0 < H <= 1 -> 200 * (H * L) <= 1 -> sane o -> garbage_ok (@DOP853 Rops) g ->
    init_var (@DOP853 Rops) g rhs t0 (y t0) o sel first = Ret s0 -> 0 <= hstep s0 -> steps_at_most H te (solver_of (E := E) DOP853 fuelc o rhs tb) s0 ->
    returns (E := E) (solver_of (E := E) DOP853 fuelc o rhs tb) fuel cs s0 s ->
    is_sorted t = true -> run (E := E) (solver_of (E := E) DOP853 fuelc o rhs tb) fuel' t s = (Ret rows, s') -> now s' <= te ->
    Forall (fun r => near (K * H + S * (te - t0) * exp (26 * L * (te - t0)) / 10 ^ 29) (snd r) (y (fst r))) rows.
Proof. exact C92_run_lemma. Qed.
Print Assumptions C92_run.
(** max_factor=1, first_step=h and t_bound=te, numba's division: run returns the rows that were asked for, or raises
    ZeroDivisionError *)
Theorem C92_solves {E : @Env Rops} : forall rhs n L t0 te y S, @numba_mode Rops E = true -> lipschitz n L rhs -> defined_on n rhs -> t0 <= te -> Ck_solution 2 rhs n t0 te y -> (1 <= n)%nat -> 0 <= S ->
  (forall t f i, t0 <= t <= te -> rhs t (y t) = Ret f -> (i < n)%nat -> Rabs (cmp i f) <= S) ->
  exists K, forall (o : @options Rops) h, tolerances o -> shrinking o -> max_factor o = 1 -> (forall x : R, max_step o = @Fin Rops x -> 0 < x) -> 0 < h <= 1 -> 200 * (h * L) <= 1 ->
  exists N, forall g sel, garbage_ok (@DOP853 Rops) g -> garbage_dim n g -> exists s0, init_var (@DOP853 Rops) g rhs t0 (y t0) o sel (Some h) = Ret s0 /\ now s0 = t0 /\ buf_t0 (cache s0) = t0 /\
    forall fuelc fuel cs s t, let sv := solver_of (E := E) DOP853 fuelc o rhs (@Fin Rops te) in (N <= fuelc)%nat ->
    returns (E := E) sv fuel cs s0 s -> now s <= te -> askable s (te - h) t ->
    solved (E := E) sv s t (K * h + S * (te - t0) * exp (26 * L * (te - t0)) / 10 ^ 29) y \/
    exists N' s', forall fuel', (N' <= fuel')%nat -> run (E := E) sv fuel' t s = (Raise ZeroDivisionError, s').
Proof. exact C92_solves_lemma. Qed.
Print Assumptions C92_solves.
(** y' = max(0, 1000 t - 9/10)^2, y(0) = 0 on [0, 1]: the default options but max_factor=1,
    first_step=1/1000; the first step is taken *)
Example C92_ex : lipschitz 1 1 rhs_ramp /\ defined_on 1 rhs_ramp /\ C2_solution rhs_ramp 1 0 1 sol_ramp /\ Ck_solution 2 rhs_ramp 1 0 1 sol_ramp /\
  (forall t f i, 0 <= t <= 1 -> rhs_ramp t (sol_ramp t) = Ret f -> (i < 1)%nat -> Rabs (cmp i f) <= 1000000) /\
  0 < 1 / 1000 <= 1 /\ 200 * (1 / 1000 * 1) <= 1 /\ sane opts_cap /\ tolerances opts_cap /\ shrinking opts_cap /\ max_factor opts_cap = 1 /\ @numba_mode Rops ER = true /\
  exists s s' : @st Rops, garbage_ok (@DOP853 Rops) g8 /\ garbage_dim (OT := Rops) 1 g8 /\
    init_var (@DOP853 Rops) g8 rhs_ramp 0 (sol_ramp 0) opts_cap (fun _ _ _ => Ret one) (Some (1 / 1000)) = Ret s /\ hstep s = 1 / 1000 /\ now s = 0 /\
    steps_at_most (1 / 1000) 1 (solver_of (E := ER) DOP853 1 opts_cap rhs_ramp PInf) s /\
    took_step (solver_of (E := ER) DOP853 1 opts_cap rhs_ramp PInf) s s' /\ now s' = 1 / 1000 /\ state s' = [y8].
Proof.
  destruct cap_options as (O1 & O2 & O3 & O4 & O5).
  split; [exact ramp_lip|]. split; [intros t v _; eexists; reflexivity|]. split; [apply (Ck_C2 2); [lia|exact ramp_sol]|]. split; [exact ramp_sol|]. split; [exact ramp_bound|].
  split; [lra|]. split; [lra|]. split; [exact O5|]. split; [exact O1|]. split; [exact O2|]. split; [exact O3|]. split; [reflexivity|exact (dop_ex 1)].
Qed.

(** * C95  DOP853 makes progress: a step is taken or ZeroDivisionError raised
    The norm of DOP853 divides by the error estimate of order five, which can be zero;
    nothing else can go wrong. *)
Theorem C95 {E : @Env Rops} : forall rhs n L M t0 te tb o y0 h0, @numba_mode Rops E = true -> lipschitz n L rhs -> defined_on n rhs -> bounded_at_zero n M t0 tb rhs -> t0 <= te -> (1 <= n)%nat ->
  tolerances o -> shrinking o -> length y0 = n -> 0 < h0 ->
  exists hmin N, 0 < hmin /\ forall g sel first s0 fuelc fuel cs s, garbage_ok (@DOP853 Rops) g -> init_var (@DOP853 Rops) g rhs t0 y0 o sel first = Ret s0 -> hstep s0 = h0 -> (N <= fuelc)%nat ->
    let sv := solver_of (E := E) DOP853 fuelc o rhs tb in s = session (E := E) sv fuel cs s0 -> now s <= te ->
    hmin <= hstep s /\
    (~ would_pass tb s -> exists s', (took_step sv s s' /\ now s + hmin <= now s') \/
      (cache s' = cache s /\ forall fuel', step sv fuel' None None s = (Raise ZeroDivisionError, s'))).
Proof. exact C95_lemma. Qed.
Print Assumptions C95.
(** step, skip and run return, or raise ZeroDivisionError *)
Theorem C95_calls {E : @Env Rops} : forall rhs n L M t0 te tb o y0 h0, @numba_mode Rops E = true -> lipschitz n L rhs -> defined_on n rhs -> bounded_at_zero n M t0 tb rhs -> t0 <= te -> (1 <= n)%nat ->
  tolerances o -> shrinking o -> length y0 = n -> 0 < h0 ->
  exists N, forall g sel first s0 fuelc, garbage_ok (@DOP853 Rops) g -> init_var (@DOP853 Rops) g rhs t0 y0 o sel first = Ret s0 -> hstep s0 = h0 -> (N <= fuelc)%nat ->
    let sv := solver_of (E := E) DOP853 fuelc o rhs tb in
    (forall fuel cs s x, s = session (E := E) sv fuel cs s0 -> now s <= x <= te -> @gt_ext Rops x tb = false -> exists N' (s' : @st Rops),
       (forall fuel', (N' <= fuel')%nat -> step sv fuel' None (Some (@Fin Rops x)) s = (Raise ZeroDivisionError, s') /\ skip sv fuel' None (Some (@Fin Rops x)) s = (Raise ZeroDivisionError, s')) \/
       exists rows, now s' <= x < now s' + hstep s' /\ forall fuel', (N' <= fuel')%nat ->
         step sv fuel' None (Some (@Fin Rops x)) s = (Ret (RMany rows), s') /\ skip sv fuel' None (Some (@Fin Rops x)) s = (Ret tt, s')) /\
    (forall fuel cs s, returns (E := E) sv fuel cs s0 s ->
       forall t : list R, t <> [] -> is_sorted (OT := Rops) t = true -> (forall x, In x t -> buf_t0 (cache s) <= x <= te /\ @gt_ext Rops x tb = false) ->
       exists N' s', (forall fuel', (N' <= fuel')%nat -> run (E := E) sv fuel' t s = (Raise ZeroDivisionError, s')) \/
         exists rows, (map fst rows = t \/ would_pass tb s' /\ exists x, In x t /\ now s' < x) /\ forall fuel', (N' <= fuel')%nat -> run (E := E) sv fuel' t s = (Ret rows, s')).
Proof. exact C95_calls_lemma. Qed.
Print Assumptions C95_calls.
(** the instance of C92_ex with t_bound = 1 *)
Example C95_ex : bounded_at_zero 1 1000000 0 (@Fin Rops 1) rhs_ramp /\
  exists s s' : @st Rops, init_var (@DOP853 Rops) g8 rhs_ramp 0 (sol_ramp 0) opts_cap (fun _ _ _ => Ret one) (Some (1 / 1000)) = Ret s /\ hstep s = 1 / 1000 /\
    ~ would_pass (@Fin Rops 1) s /\ took_step (solver_of (E := ER) DOP853 1 opts_cap rhs_ramp PInf) s s'.
Proof.
  split; [exact ramp_zero|].
  destruct (dop_ex 1) as (s & s' & _ & _ & H1 & H2 & H3 & _ & H4 & _). exists s, s'. split; [exact H1|]. split; [exact H2|]. split; [|exact H4].
  unfold would_pass. rewrite H2, H3. cbn. intros H. apply Rltb_true in H. lra.
Qed.
