(** C41 - C50: events (event_handler.py, core.py run_events). *)
From Coq Require Import List ZArith QArith Qcanon Bool Arith Reals Lia Lra Permutation.
From Verif Require Import Base Scalar Vec MBuffer MZeros MSteps MApi MDop853 MClasses Laws Spec SpecInst SpecRK SpecDense SpecEv
  PStep PBound PCore PHist PRun PRun2 PRun3 PTerm PInterp PDim Ex PRef1 PRef2 PTop1 PExR PEv3 PEv5 PEv6 PEv7 PEv8 PEv9.
Import ListNotations.
Open Scope R_scope.
Notation nowR := (@Spec.now Rops).

(** * C41  reported times are strictly increasing and lie in steps taken *)
Theorem C41 {E : @Env Rops} : forall m fuelc o rhs tb fuel t t' evs s r s',
  let sv := solver_of m fuelc o rhs tb in
  ready m fuelc o rhs tb s -> ordered (OT := Rops) t t' -> evs <> [] ->
  run_events sv fuel t evs s = (Ret r, s') ->
  exists l s1, chain sv tb s l s1 /\ cache s' = cache s1 /\ length (rr_tev r) = length evs /\
    forall j ts, nth_error (rr_tev r) j = Some ts -> increasing ts /\
      forall tau, In tau ts -> exists x x1, step_of s l x x1 /\ nowR x <= tau <= nowR x1.
Proof. intros m fuelc o rhs tb fuel t t' evs s r s'. exact (C41_lemma m fuelc o rhs tb fuel t t' evs s r s'). Qed.
Print Assumptions C41.
(** a call that returns, with an event that triggers in its first step *)
Example C41_ex : ready (E := ER) RungeKutta4 0 default_options rhs_exp PInf (r_rk4 1) /\
  (exists fuel r s', run_events (E := ER) (solver_of (E := ER) RungeKutta4 0 default_options rhs_exp PInf) fuel [2] [rev_half None] (r_rk4 1) = (Ret r, s')) /\
  exists x1, completes (solver_of (E := ER) RungeKutta4 0 default_options rhs_exp PInf) PInf (r_rk4 1) x1 /\ nowR x1 = 1 /\
    triggers (rev_half None) (r_rk4 1) x1.
Proof.
  split; [apply rk4_ready|]. split; [|apply rk4_triggers].
  destruct (rk4_call None) as (N & r & s' & H). exists N, r, s'. apply H. lia.
Qed.
(** ... and a variable step instance *)
Example C41_ready_variable h : 0 <= h -> ready (E := ER) RungeKutta23 5 default_options rhs_one PInf (r_one h).
Proof.
  intros Hh. right. split; [now left|]. split; [apply sane_default|]. exists 0%nat, [], (r_one h).
  destruct (r_one_h h) as (A & B & C).
  split; [apply r_one_built|]. split; [|split; [now rewrite A|constructor]].
  intros t y f Hy H. injection H as <-. now rewrite map_length.
Qed.

(** * C42  direction: a step is reported iff the event function crosses zero over it in the given direction *)
Theorem C42 {E : @Env Rops} : forall m fuelc o rhs tb fuel t t' evs s r s',
  let sv := solver_of m fuelc o rhs tb in
  ready m fuelc o rhs tb s -> ordered (OT := Rops) t t' -> evs <> [] ->
  run_events sv fuel t evs s = (Ret r, s') ->
  exists l s1, chain sv tb s l s1 /\ cache s' = cache s1 /\
    forall j u, nth_error evs j = Some u ->
      (forall x x1, step_of s l x x1 -> triggers u x x1 -> exists tau a, reports r j tau a /\ located sv u x x1 tau) /\
      (forall tau a, reports r j tau a -> exists x x1, step_of s l x x1 /\ triggers u x x1 /\ located sv u x x1 tau).
Proof. intros m fuelc o rhs tb fuel t t' evs s r s'. exact (C42_lemma m fuelc o rhs tb fuel t t' evs s r s'). Qed.
Print Assumptions C42.
Example C42_ex : exists x1, completes (solver_of (E := ER) RungeKutta4 0 default_options rhs_exp PInf) PInf (r_rk4 1) x1 /\ nowR x1 = 1 /\
    triggers (rev_half None) (r_rk4 1) x1.
Proof. apply rk4_triggers. Qed.

(** * C43  accuracy of the reported times
    [along sv u x1] is the event function along the interpolant of the step. *)
Theorem C43 {E : @Env Rops} : forall m fuelc o rhs tb fuel t t' evs s r s',
  let sv := solver_of m fuelc o rhs tb in
  ready m fuelc o rhs tb s -> ordered (OT := Rops) t t' -> evs <> [] ->
  run_events sv fuel t evs s = (Ret r, s') ->
  exists l s1, chain sv tb s l s1 /\ cache s' = cache s1 /\
    forall j u tau a, nth_error evs j = Some u -> reports r j tau a ->
    exists x x1, step_of s l x x1 /\ triggers u x x1 /\ nowR x <= tau <= nowR x1 /\ sol_arr sv x1 tau = Ret a /\
      forall g, (forall c, nowR x <= c <= nowR x1 -> along sv u x1 c = Ret (g c) /\ continuity_pt g c) ->
        (tau = nowR x1 /\ value u x1 0) \/ Rabs (g tau) <= ev_tol \/
        exists z, nowR x <= z <= nowR x1 /\ g z = 0 /\ Rabs (tau - z) <= (nowR x1 - nowR x) / 2 ^ 50.
Proof. intros m fuelc o rhs tb fuel t t' evs s r s'. exact (C43_lemma m fuelc o rhs tb fuel t t' evs s r s'). Qed.
Print Assumptions C43.
(** an event function of time only is continuous along every interpolant *)
Example C43_ex : exists x1, completes (solver_of (E := ER) RungeKutta4 0 default_options rhs_exp PInf) PInf (r_rk4 1) x1 /\
  exists g, forall c, along (solver_of (E := ER) RungeKutta4 0 default_options rhs_exp PInf) (rev_half None) x1 c = Ret (g c) /\ continuity_pt g c.
Proof.
  destruct rk4_step as (x1 & A & P & _).
  exists x1. split; [split; [unfold would_pass; cbn [gt_ext]; discriminate|exact A]|]. exists (fun c => c - 1 / 2). intros c.
  split; [|reg]. destruct (past_interp (E := ER) RungeKutta4 0 default_options rhs_exp PInf 1 I eq_refl rk4_shape (r_rk4 1) x1 c P) as (a & Ha & _).
  unfold along, sol. rewrite Ha. reflexivity.
Qed.

(** * C44  a terminal event ends the run
    Either no terminal event triggers in any step and the call is a plain run, or
    the first step in which one triggers is the last and the last row is the
    event time and the solution there, after the rows requested before it. *)
Theorem C44 {E : @Env Rops} : forall m fuelc o rhs tb fuel t evs s r s',
  let sv := solver_of m fuelc o rhs tb in
  ready m fuelc o rhs tb s -> is_sorted (OT := Rops) t = true -> evs <> [] ->
  run_events sv fuel t evs s = (Ret r, s') ->
  exists l s1, chain sv tb s l s1 /\ cache s' = cache s1 /\ hstep s' = hstep s1 /\
    (((forall u x x1, In u evs -> terminal u -> step_of s l x x1 -> ~ triggers u x x1) /\
      exists z', run sv fuel t s = (Ret (rr_rows r), z') /\ cache z' = cache s1 /\ hstep z' = hstep s1)
     \/
     exists x u tau y rows0 z tk, last_step_of s l x s1 /\
       (forall u' x' x1, In u' evs -> terminal u' -> step_of s (removelast l) x' x1 -> ~ triggers u' x' x1) /\
       In u evs /\ terminal u /\ triggers u x s1 /\ located sv u x s1 tau /\ sol sv s1 tau = Ret y /\
       rr_rows r = rows0 ++ [(tau, y)] /\ map fst rows0 = firstn (length rows0) t /\
       sampled sv s (map fst rows0) (map snd rows0) z /\ nth_error t (length rows0) = Some tk /\ nowR x < tk).
Proof. intros m fuelc o rhs tb fuel t evs s r s'. exact (C44_lemma m fuelc o rhs tb fuel t evs s r s'). Qed.
Print Assumptions C44.
Example C44_ex : terminal (rev_half (Some true)) /\
  exists fuel r s', run_events (E := ER) (solver_of (E := ER) RungeKutta4 0 default_options rhs_exp PInf) fuel [2] [rev_half (Some true)] (r_rk4 1) = (Ret r, s').
Proof.
  split; [reflexivity|]. destruct (rk4_call (Some true)) as (N & r & s' & H). exists N, r, s'. apply H. lia.
Qed.

(** * C45  several terminal events in one step: not the earliest, the last listed one *)
(** both trigger in the first step, at 1/8 and 3/8; the run ends at 3/8 *)
Theorem C45_refuted : exists u1 u2, ue_terminal u1 = Some true /\ ue_terminal u2 = Some true /\
  built (E := EQ) rhs_exp ForwardEuler ex_fe /\
  evQ (run_events (E := EQ) (sv_fe PInf) 5 [qq 1] [u1; u2] ex_fe) = Some ([((3 # 8)%Q, [343 # 256]%Q)], [[1 # 8]%Q; [3 # 8]%Q]).
Proof.
  exists (ev_at_time (1 # 8) (Some true)), (ev_at_time (3 # 8) (Some true)). split; [reflexivity|]. split; [reflexivity|].
  split; [exact ex_fe_built|exact C45_ref].
Qed.
Print Assumptions C45_refuted.
Theorem C45_last_listed {E : @Env Rops} : forall m fuelc o rhs tb fuel t evs s r s',
  let sv := solver_of m fuelc o rhs tb in
  ready m fuelc o rhs tb s -> is_sorted (OT := Rops) t = true -> evs <> [] ->
  run_events sv fuel t evs s = (Ret r, s') ->
  exists l s1, chain sv tb s l s1 /\ cache s' = cache s1 /\
    forall u0 x x1, In u0 evs -> terminal u0 -> step_of s l x x1 -> triggers u0 x x1 ->
    exists x0 j u tau y rows0, last_step_of s l x0 s1 /\ nth_error evs j = Some u /\ terminal u /\ triggers u x0 s1 /\
      (forall j' u', (j < j')%nat -> nth_error evs j' = Some u' -> terminal u' -> ~ triggers u' x0 s1) /\
      located sv u x0 s1 tau /\ sol sv s1 tau = Ret y /\ rr_rows r = rows0 ++ [(tau, y)].
Proof. intros m fuelc o rhs tb fuel t evs s r s'. exact (C45_lemma m fuelc o rhs tb fuel t evs s r s'). Qed.
Print Assumptions C45_last_listed.

(** * C46  events that are not terminal change nothing
    fixed step classes: any arithmetic *)
Theorem C46 {OT : Ops} {L : OrdLaws OT} {E : Env} : forall m fuelc o rhs tb fuel t t' evs s r s',
  let sv := solver_of m fuelc o rhs tb in
  is_fixed m = true -> ordered t t' -> evs <> [] ->
  (forall u, In u evs -> ue_terminal u <> Some true) ->
  run_events sv fuel t evs s = (Ret r, s') ->
  exists s1, run sv fuel t s = (Ret (rr_rows r), s1) /\ cache s1 = cache s' /\ hstep s1 = hstep s' /\ stages s1 = stages s'.
Proof. intros m fuelc o rhs tb fuel t t' evs s r s'. exact (C46_fixed m fuelc o rhs tb fuel t t' evs s r s'). Qed.
Print Assumptions C46.
(** variable step classes too, over the reals *)
Theorem C46_variable {E : @Env Rops} : forall m fuelc o rhs tb fuel t t' evs s r s',
  let sv := solver_of m fuelc o rhs tb in
  ready m fuelc o rhs tb s -> ordered (OT := Rops) t t' -> evs <> [] ->
  (forall u, In u evs -> ~ terminal u) ->
  run_events sv fuel t evs s = (Ret r, s') ->
  exists s1, run sv fuel t s = (Ret (rr_rows r), s1) /\ cache s1 = cache s' /\ hstep s1 = hstep s' /\ stages s1 = stages s'.
Proof. intros m fuelc o rhs tb fuel t t' evs s r s'. exact (C46_ready m fuelc o rhs tb fuel t t' evs s r s'). Qed.
Print Assumptions C46_variable.
(** the event is reported at 1/8 and the rows are those of run *)
Example C46_ex : evQ (run_events (E := EQ) (sv_fe PInf) 5 [qq 1] [ev_at_time (1 # 8) None] ex_fe)
    = Some ([(1%Q, [9 # 4]%Q)], [[1 # 8]%Q]) /\
  rowsQ (run (E := EQ) (sv_fe PInf) 5 [qq 1] ex_fe) = Some [(1%Q, [9 # 4]%Q)].
Proof. split; vm_compute; reflexivity. Qed.

(** * C47  requests at or before the current time: run answers them, run_events raises *)
Theorem C47_refuted : exists u, built (E := EQ) rhs_exp ForwardEuler ex_fe /\
  errQ (run_events (E := EQ) (sv_fe PInf) 5 [qq 0; qq 1] [u] ex_fe) = Some AttributeError /\
  rowsQ (run (E := EQ) (sv_fe PInf) 5 [qq 0; qq 1] ex_fe) = Some [(0%Q, [1%Q]); (1%Q, [9 # 4]%Q)].
Proof. exists (ev_at_time (1 # 8) None). split; [exact ex_fe_built|exact C47_ref]. Qed.
Print Assumptions C47_refuted.
(** it never returns *)
Theorem C47_never_returns {OT : Ops} {L : OrdLaws OT} {E : Env} : forall m fuelc o rhs tb fuel t t' evs s x r s',
  ordered t t' -> evs <> [] -> In x t -> leb x (now s) = true ->
  run_events (solver_of m fuelc o rhs tb) fuel t evs s <> (Ret r, s').
Proof. intros m fuelc o rhs tb fuel t t' evs s x r s'. exact (C47_never m fuelc o rhs tb fuel t t' evs s x r s'). Qed.
Print Assumptions C47_never_returns.

(** * C48  events are reported after the terminal event *)
Theorem C48_refuted : exists u1 u2, ue_terminal u1 = Some true /\ built (E := EQ) rhs_exp ForwardEuler ex_fe /\
  evQ (run_events (E := EQ) (sv_fe PInf) 5 [qq 1] [u1; u2] ex_fe) = Some ([((1 # 8)%Q, [285 # 256]%Q)], [[1 # 8]%Q; [3 # 8]%Q]).
Proof.
  exists (ev_at_time (1 # 8) (Some true)), (ev_at_time (3 # 8) None). split; [reflexivity|]. split; [exact ex_fe_built|exact C48_ref].
Qed.
Print Assumptions C48_refuted.
(** only ones that trigger in the same step *)
Theorem C48_same_step {E : @Env Rops} : forall m fuelc o rhs tb fuel t evs s r s',
  let sv := solver_of m fuelc o rhs tb in
  ready m fuelc o rhs tb s -> is_sorted (OT := Rops) t = true -> evs <> [] ->
  run_events sv fuel t evs s = (Ret r, s') ->
  exists l s1, chain sv tb s l s1 /\ cache s' = cache s1 /\
    forall u0 x0 x1, In u0 evs -> terminal u0 -> step_of s l x0 x1 -> triggers u0 x0 x1 ->
    exists x tau y rows0, last_step_of s l x s1 /\ rr_rows r = rows0 ++ [(tau, y)] /\ nowR x <= tau <= nowR s1 /\
      forall j u tau' a, nth_error evs j = Some u -> reports r j tau' a ->
        tau' <= tau \/ (triggers u x s1 /\ located sv u x s1 tau' /\ tau' <= nowR s1).
Proof. intros m fuelc o rhs tb fuel t evs s r s'. exact (C48_lemma m fuelc o rhs tb fuel t evs s r s'). Qed.
Print Assumptions C48_same_step.

(** * C49  a sign change over a step does not always lead to an event *)
(** AdamsBashforth3, y' = y: from -0.22 to 1.36 over the step, ValueError *)
Theorem C49_refuted : exists u, built (E := EQ) rhs_exp AB3 ex_ab3 /\
  (exists v v1 x1, completes (sv_ab3 PInf) PInf ex_ab3 x1 /\ value u ex_ab3 v /\ value u x1 v1 /\
     ltb v zero = true /\ ltb zero v1 = true) /\
  errQ (run_events (E := EQ) (sv_ab3 PInf) 5 [qq (3 # 2)] [u] ex_ab3) = Some ValueError.
Proof. exists ev_tilt. split; [exact ex_ab3_built|]. split; [exact C49_signs|exact C49_ref]. Qed.
Print Assumptions C49_refuted.
(** explicit fixed step classes with a history of two rows: run_events returns *)
Theorem C49_two_rows {E : @Env Rops} : forall m fuelc o rhs tb n s ta tr evs,
  explicit m -> len_history m = 2%nat -> shaped m -> total rhs -> keeps_dim n rhs ->
  reachable rhs m fuelc o tb s -> dims n s -> 0 < hstep s -> buf_t0 (cache s) <= nowR s ->
  is_sorted (OT := Rops) (ta :: tr) = true ->
  (forall x, In x (ta :: tr) -> nowR s < x /\ @gt_ext Rops x tb = false) ->
  evs <> [] -> (forall u : eventR, In u evs -> forall t y, exists v, ue_fun u t y = Ret v) ->
  exists N r s', forall fuel, (N <= fuel)%nat ->
    run_events (solver_of m fuelc o rhs tb) fuel (ta :: tr) evs s = (Ret r, s').
Proof.
  intros m fuelc o rhs tb n s ta tr evs Hm Hl Hsh Ht Hk Hr Hd Hh H0 Hs Hb He Hev.
  exact (C49_two_lemma m fuelc o rhs tb n Hm Hl Hsh Ht Hk s ta tr evs (conj (reachable_wf _ _ _ _ _ _ Hr) (conj Hd Hh)) Hs Hb H0 He Hev).
Qed.
Print Assumptions C49_two_rows.
Example C49_two_rows_ex : explicit (@RungeKutta4 Rops) /\ len_history (@RungeKutta4 Rops) = 2%nat /\ shaped (@RungeKutta4 Rops) /\
  total (@rhs_exp Rops) /\ keeps_dim 1 (@rhs_exp Rops) /\
  reachable (E := ER) rhs_exp RungeKutta4 0 default_options PInf (r_rk4 1) /\ dims 1 (r_rk4 1) /\ 0 < hstep (r_rk4 1) /\
  buf_t0 (cache (r_rk4 1)) <= nowR (r_rk4 1).
Proof.
  split; [exact I|]. split; [reflexivity|]. split; [split; [reflexivity|discriminate]|]. split; [apply total_exp|]. split; [apply rk4_keeps|].
  split; [apply r_rk4_reach|]. destruct rk4_good as (_ & A & B). split; [exact A|]. split; [exact B|]. cbn. lra.
Qed.

(** * C50  an unsorted request that is not fully answered *)
Theorem C50_refuted : built (E := EQ) rhs_exp RungeKutta4 ex_rk4 /\
  fst (run (E := EQ) (sv_rk4 (Fin (qq (3 # 4)))) 20 [qq (3 # 5); qq (1 # 4)] ex_rk4) = Raise IndexError.
Proof. split; [exact ex_rk4_built|exact C50_lemma]. Qed.
Print Assumptions C50_refuted.
(** it always raises; sorted requests return the rows reached (C13) *)
Theorem C50_raises {OT : Ops} {L : OrdLaws OT} {E : Env} : forall m fuelc o rhs tb fuel t t' s rows s',
  let sv := solver_of m fuelc o rhs tb in
  is_sorted t = false -> argsorts t t' ->
  run sv fuel t' s = (Ret rows, s') -> (length rows < length t)%nat -> run sv fuel t s = (Raise IndexError, s').
Proof. intros m fuelc o rhs tb fuel t t' s rows s'. exact (C50_always m fuelc o rhs tb fuel t t' s rows s'). Qed.
Print Assumptions C50_raises.
