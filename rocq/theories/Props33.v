(** C49 and C92: run_events of DOP853. *)
From Coq Require Import List ZArith QArith Bool Arith Lia Reals Lra Psatz.
From Verif Require Import Base Scalar Vec MBuffer MZeros MSteps MApi MDop853 MClasses Laws Spec SpecInst SpecInit PVecR SpecRK SpecMS SpecOrder SpecVar SpecConv SpecConv3
  SpecLive SpecCtl SpecVL SpecSolve SpecEv SpecEvC SpecEvD PBound PTop1 Ex PConv8 PConv9 PExR PC3 PExVar PCap3 PSolve6 POrd2 PDcv4 PDcv5 PEv12 PEvD3 Props31 Props32.
Import ListNotations.
Open Scope R_scope.

(** * C49  DOP853: run_events returns or raises ZeroDivisionError *)
Theorem C49_dop853 {E : @Env Rops} : forall rhs n L M t0 te tb o y0 h0, @numba_mode Rops E = true -> lipschitz n L rhs -> defined_on n rhs -> bounded_at_zero n M t0 tb rhs -> t0 <= te -> (1 <= n)%nat ->
  tolerances o -> shrinking o -> length y0 = n -> 0 < h0 ->
  exists N, forall g sel first s0 fuelc fuel cs s, garbage_ok (@DOP853 Rops) g -> init_var (@DOP853 Rops) g rhs t0 y0 o sel first = Ret s0 -> hstep s0 = h0 -> (N <= fuelc)%nat ->
    let sv := solver_of (E := E) DOP853 fuelc o rhs tb in returns (E := E) sv fuel cs s0 s ->
    forall (t : list R) evs, t <> [] -> is_sorted (OT := Rops) t = true -> (forall x, In x t -> now s < x <= te /\ @gt_ext Rops x tb = false) ->
      evs <> [] -> (forall u : eventR, In u evs -> forall t y, exists v, ue_fun u t y = Ret v) ->
      exists N' s', (forall fuel', (N' <= fuel')%nat -> run_events (E := E) sv fuel' t evs s = (Raise ZeroDivisionError, s')) \/
        exists r, forall fuel', (N' <= fuel')%nat -> run_events (E := E) sv fuel' t evs s = (Ret r, s').
Proof. exact C49_dop_lemma. Qed.
Print Assumptions C49_dop853.

(** * C92  DOP853 with max_factor=1: run_events finds the simple zeros of the event
    functions and stops at a terminal one, or raises ZeroDivisionError *)
Theorem C92_events {E : @Env Rops} : forall rhs n L t0 te y S, @numba_mode Rops E = true -> lipschitz n L rhs -> defined_on n rhs -> t0 <= te -> Ck_solution 2 rhs n t0 te y -> (1 <= n)%nat -> 0 <= S ->
  (forall t f i, t0 <= t <= te -> rhs t (y t) = Ret f -> (i < n)%nat -> Rabs (cmp i f) <= S) ->
  exists K, 0 <= K /\ forall (o : @options Rops) h, tolerances o -> shrinking o -> max_factor o = 1 -> (forall x : R, max_step o = @Fin Rops x -> 0 < x) -> 0 < h <= 1 -> 200 * (h * L) <= 1 ->
  exists N, forall g sel, garbage_ok (@DOP853 Rops) g -> garbage_dim n g -> exists s0, init_var (@DOP853 Rops) g rhs t0 (y t0) o sel (Some h) = Ret s0 /\ now s0 = t0 /\
    forall fuelc fuel cs s t evs, let sv := solver_of (E := E) DOP853 fuelc o rhs (@Fin Rops te) in (N <= fuelc)%nat ->
    returns (E := E) sv fuel cs s0 s -> event_call s (te - h) t evs ->
    let eps := K * h + S * (te - t0) * exp (26 * L * (te - t0)) / 10 ^ 29 in
    (exists N' s', forall fuel', (N' <= fuel')%nat -> run_events (E := E) sv fuel' t evs s = (Raise ZeroDivisionError, s')) \/
    ((forall j u G Lg sg mu del z, (forall u, In u evs -> ~ terminal u) -> nth_error evs j = Some u ->
       visible_zero n y u G Lg sg mu del z (now s) (last t 0) eps h ->
       finds (E := E) sv s t evs j y z eps ((Lg * eps + ev_tol) / mu + h / 2 ^ 50)) /\
     (forall u G Lg Lt sg mu del z, evs = [u] -> terminal u -> visible_zero n y u G Lg sg mu del z (now s) (last t 0) eps h ->
       first_zero y G Lg Lt del z (now s) te eps h ->
       stops_at (E := E) sv s t u z ((Lg * eps + ev_tol + Lt * (h / 2 ^ 50)) / mu))).
Proof. exact C92_events_lemma. Qed.
Print Assumptions C92_events.
(** the instance of C92_ex (the other hypotheses are shown there), asked for the time
    9/10: the event y = y(1/2) when the states are off by less than 1/20, and the event
    t = 1/2 in any case *)
Definition ev_clock : eventR := mkuev (OT := Rops) (fun t _ => Ret (t - 1 / 2)) None None.
Example C92_events_ex : exists s : @st Rops,
    init_var (@DOP853 Rops) g8 rhs_ramp 0 (sol_ramp 0) opts_cap (fun _ _ _ => Ret one) (Some (1 / 1000)) = Ret s /\ hstep s = 1 / 1000 /\
    event_call s (1 - 1 / 1000) [9 / 10] [ev_half; ev_clock] /\ (forall u, In u [ev_half; ev_clock] -> ~ terminal u) /\
    (forall eps, eps < 1 / 20 -> visible_zero 1 sol_ramp ev_half G_half 1 1 1 (1 / 10) (1 / 2) (now s) (last [9 / 10] 0) eps (1 / 1000)) /\
    (forall eps, visible_zero 1 sol_ramp ev_clock (fun t _ => t - 1 / 2) 0 1 1 (1 / 10) (1 / 2) (now s) (last [9 / 10] 0) eps (1 / 1000)) /\
    @gt_ext Rops (9 / 10) (@Fin Rops 1) = false.
Proof.
  destruct (dop_ex 1) as (s & _ & _ & _ & H1 & H2 & H3 & _). exists s. rewrite H3. split; [exact H1|]. split; [exact H2|].
  destruct C84_dop853_ex as (_ & _ & _ & _ & _ & _ & _ & F1 & F2 & _).
  split.
  { split; [discriminate|]. split; [reflexivity|]. rewrite H3. split; [intros x [<-|[]]; lra|]. split; [discriminate|]. intros u [<-|[<-|[]]] t a; eexists; reflexivity. }
  split; [intros u [<-|[<-|[]]] Hc; discriminate|]. cbn [last].
  assert (D : forall f, ue_dir (mkuev (OT := Rops) f None None) = 0) by (intros f; reflexivity).
  split; [|split].
  - intros eps He. split; [exact F1|]. split; [exact F2|]. unfold ev_half. rewrite D. repeat split; lra.
  - intros eps. split; [|split].
    + split; [lra|]. split; [reflexivity|]. intros t a b e _ _ _. replace (t - 1 / 2 - (t - 1 / 2)) with 0 by ring. rewrite Rabs_R0. lra.
    + split; [now left|]. split; [lra|]. intros x Hx. lra.
    + unfold ev_clock. rewrite D. repeat split; lra.
  - cbn. apply Laws.Rltb_false. lra.
Qed.
