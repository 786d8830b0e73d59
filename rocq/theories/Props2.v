(** C13 - C26: run, interpolation, history, aliasing. *)
From Coq Require Import List ZArith QArith Qcanon Bool Arith Reals Lia Lra Permutation.
From Verif Require Import Base Scalar Vec MBuffer MZeros MSteps MApi MDop853 MClasses Laws Spec SpecInst SpecRK SpecDense
  PStep PBound PCore PHist PVecR PTerm PFwd PRun PRun2 PRun3 Ex PRef1 PTop1 PInterp PDense PDim PRef2 PTop2 PExR.
Import ListNotations.
Open Scope nat_scope.

(** * C13  run returns the requested times with the interpolated solution
    Requests in order: the rows are a leading part of the request, each state is
    the interpolant right after the steps that reach its time; either all are
    answered or the next one needs a step that would pass t_bound. *)
Theorem C13 {OT : Ops} {L : OrdLaws OT} {E : Env} : forall m fuelc o rhs tb fuel t (s : st) rows s',
  let sv := solver_of m fuelc o rhs tb in
  is_sorted t = true -> run sv fuel t s = (Ret rows, s') ->
  exists s1, map fst rows = firstn (length rows) t /\
    sampled sv s (map fst rows) (map snd rows) s1 /\
    ((length rows = length t /\ s' = s1) \/
     exists tj, nth_error t (length rows) = Some tj /\ refused sv tj s1 s').
Proof. intros m fuelc o rhs tb fuel t s rows s'. exact (C13_lemma m fuelc o rhs tb fuel t s rows s'). Qed.
Print Assumptions C13.
(** Requests in any order: same rows, at the requested positions. *)
Theorem C13_unsorted {OT : Ops} {L : OrdLaws OT} {E : Env} : forall m fuelc o rhs tb fuel t t' (s : st) rows' s',
  let sv := solver_of m fuelc o rhs tb in
  is_sorted t = false -> argsorts t t' ->
  run sv fuel t' s = (Ret rows', s') -> length rows' = length t ->
  exists rows, run sv fuel t s = (Ret rows, s') /\ map fst rows = t /\ Permutation rows rows' /\
    forall i k, nth_error (np_argsort t) i = Some k -> nth_error rows k = nth_error rows' i.
Proof. intros m fuelc o rhs tb fuel t t' s rows' s'. exact (C15_rows m fuelc o rhs tb fuel t t' s rows' s'). Qed.
Print Assumptions C13_unsorted.
Example C13_ex :
  rowsQ (run (E := EQ) (sv_rk4 PInf) 20 [qq 0; qq (1 # 4); qq (1 # 2); qq (1 # 2)] ex_rk4) =
  Some [(0, [1]); (1 # 4, [2629 # 2048]); (1 # 2, [211 # 128]); (1 # 2, [211 # 128])]%Q /\
  rowsQ (run (E := EQ) (sv_rk4 PInf) 20 [qq (1 # 2); qq (1 # 4); qq 0] ex_rk4) =
  Some [(1 # 2, [211 # 128]); (1 # 4, [2629 # 2048]); (0, [1])]%Q /\
  argsorts (E := EQ) [qq (1 # 2); qq (1 # 4); qq 0] [qq 0; qq (1 # 4); qq (1 # 2)].
Proof.
  split; [vm_compute; reflexivity|]. split; [vm_compute; reflexivity|].
  split; [|split; vm_compute; reflexivity].
  change (np_argsort _) with [2; 1; 0]. apply NoDup_Permutation.
  - repeat constructor; cbn; intuition discriminate.
  - apply seq_NoDup.
  - intros x. cbn. intuition.
Qed.

(** * C14  run never silently drops requested times
    Refuted: with h = 1/2 and t_bound = 3/4 the request [1/4, 3/5] (both within
    t_bound, no error) is answered like [1/4]. *)
Theorem C14_refuted :
  exists (sv : @solver QI) (s : @st QI) (t1 t2 : @T QI) rows s',
    built (E := EQ) rhs_exp RungeKutta4 s /\ sv = sv_rk4 (Fin (qq (3 # 4))) /\
    gt_ext t1 (s_bound sv) = false /\ gt_ext t2 (s_bound sv) = false /\ ltb t1 t2 = true /\
    run (E := EQ) sv 20 [t1; t2] s = (Ret rows, s') /\ length rows = 1.
Proof.
  pose proof C14_lemma as (_ & K).
  destruct (run (E := EQ) (sv_rk4 (Fin (qq (3 # 4)))) 20 [qq (1 # 4); qq (3 # 5)] ex_rk4) as [[rows| |] s'] eqn:e; try discriminate.
  exists (sv_rk4 (Fin (qq (3 # 4)))), ex_rk4, (qq (1 # 4)), (qq (3 # 5)), rows, s'.
  split; [exact ex_rk4_built|]. repeat split; auto.
  cbn in K. rewrite map_length in K. now injection K.
Qed.
Print Assumptions C14_refuted.
(** What holds: fewer rows than requested means that a further step would pass t_bound. *)
Theorem C14_partial {OT : Ops} {L : OrdLaws OT} {E : Env} : forall m fuelc o rhs tb fuel t (s : st) rows s',
  is_sorted t = true -> run (solver_of m fuelc o rhs tb) fuel t s = (Ret rows, s') ->
  length rows = length t \/ would_pass tb s'.
Proof.
  intros m fuelc o rhs tb fuel t s rows s' Hs H.
  destruct (C13_lemma m fuelc o rhs tb fuel t s rows s' Hs H) as (s1 & _ & _ & [(K & _) | (tj & _ & l & _ & _ & K)]); auto.
Qed.
Print Assumptions C14_partial.

(** * C15  run does not depend on the order of the requested times *)
Theorem C15 {OT : Ops} {L : OrdLaws OT} {E : Env} : forall m fuelc o rhs tb fuel t1 t1' t2 t2' (s : st) r1 s1,
  let sv := solver_of m fuelc o rhs tb in
  (forall x y : T, leb x y = true -> leb y x = true -> x = y) ->
  ordered t1 t1' -> ordered t2 t2' -> Permutation t1 t2 ->
  run sv fuel t1 s = (Ret r1, s1) -> length r1 = length t1 ->
  exists r2, run sv fuel t2 s = (Ret r2, s1) /\ map fst r1 = t1 /\ map fst r2 = t2 /\ Permutation r1 r2.
Proof.
  intros m fuelc o rhs tb fuel t1 t1' t2 t2' s r1 s1 sv anti.
  exact (C15_lemma m fuelc o rhs tb anti fuel t1 t1' t2 t2' s r1 s1).
Qed.
Print Assumptions C15.
Example C15_ex :
  rowsQ (run (E := EQ) (sv_rk4 PInf) 20 [qq 1; qq (1 # 4); qq 0] ex_rk4) =
  option_map (fun l => [nth 2 l (9, []); nth 0 l (9, []); nth 1 l (9, [])]%Q)
    (rowsQ (run (E := EQ) (sv_rk4 PInf) 20 [qq (1 # 4); qq 0; qq 1] ex_rk4)) /\
  forall x y : @T QI, leb x y = true -> leb y x = true -> x = y.
Proof.
  split; [vm_compute; reflexivity|]. intros x y H1 H2. apply Qcle_antisym; apply Qle_bool_iff; assumption.
Qed.

(** * C16  run can be split and resumed *)
Theorem C16 {OT : Ops} {L : OrdLaws OT} {E : Env} : forall m fuelc o rhs tb fuel a1 t1 a2 t2 (s : st),
  let sv := solver_of m fuelc o rhs tb in
  reachable rhs m fuelc o tb s -> in_order s -> forward sv s ->
  is_sorted ((a1 :: t1) ++ (a2 :: t2)) = true ->
  leb (buf_t0 (cache s)) a1 = true ->
  (forall x, In x ((a1 :: t1) ++ (a2 :: t2)) -> gt_ext x tb = false) ->
  run sv fuel ((a1 :: t1) ++ (a2 :: t2)) s =
  (do r1 <- run sv fuel (a1 :: t1) ;; do r2 <- run sv fuel (a2 :: t2) ;; ret (r1 ++ r2)) s.
Proof.
  intros m fuelc o rhs tb fuel a1 t1 a2 t2 s sv R.
  exact (C16_lemma m fuelc o rhs tb fuel a1 t1 a2 t2 s (reachable_wf m fuelc o rhs tb s R)).
Qed.
Print Assumptions C16.
(** fixed step classes with h >= 0 go forward in any ordered arithmetic, variable
    step ones over the reals *)
Theorem C16_forward {OT : Ops} {L : OrdLaws OT} {AL : AddLaws OT} {E : Env} : forall m fuelc o rhs tb (s : st),
  is_fixed m = true -> reachable rhs m fuelc o tb s -> leb zero (hstep s) = true ->
  (exists x, ltb x (now s) = true) -> forward (solver_of m fuelc o rhs tb) s.
Proof.
  intros m fuelc o rhs tb s Hf R. exact (forward_fixed m fuelc o rhs tb s Hf (reachable_wf m fuelc o rhs tb s R)).
Qed.
Print Assumptions C16_forward.
Theorem C16_forward_variable {E : @Env Rops} : forall m fuelc o rhs tb s,
  is_fixed m = false -> reachable rhs m fuelc o tb s -> sane o -> (0 <= hstep s)%R ->
  forward (solver_of m fuelc o rhs tb) s.
Proof.
  intros m fuelc o rhs tb s Hf R. exact (forward_var m fuelc o rhs tb s Hf (reachable_wf m fuelc o rhs tb s R)).
Qed.
Print Assumptions C16_forward_variable.
(** the second request starts behind the current time *)
Example C16_ex : in_order (OT := QI) ex_rk4 /\ forward (OT := QI) (sv_rk4 PInf) ex_rk4 /\
  rowsQ (run (E := EQ) (sv_rk4 PInf) 20 [qq (1 # 8); qq (1 # 4); qq (3 # 4)] ex_rk4) =
  rowsQ ((do r1 <- run (E := EQ) (sv_rk4 PInf) 20 [qq (1 # 8)] ;;
          do r2 <- run (E := EQ) (sv_rk4 PInf) 20 [qq (1 # 4); qq (3 # 4)] ;; ret (r1 ++ r2)) ex_rk4).
Proof.
  split; [split; vm_compute; reflexivity|]. split; [|vm_compute; reflexivity].
  apply (C16_forward (OT := QI) (E := EQ) RungeKutta4 0 default_options rhs_exp PInf); auto.
  - exists ex_rk4, 0, []. split; [exact ex_rk4_built | reflexivity].
  - exists (qq (-1 # 1)). vm_compute. reflexivity.
Qed.

(** * C17  sampling does not perturb the trajectory *)
Theorem C17 {OT : Ops} {L : OrdLaws OT} {E : Env} : forall m fuelc o rhs tb fuel1 fuel2 t1 t2 (s : st) r1 s1 r2 s2,
  let sv := solver_of m fuelc o rhs tb in
  is_sorted t1 = true -> is_sorted t2 = true -> last t1 zero = last t2 zero ->
  run sv fuel1 t1 s = (Ret r1, s1) -> run sv fuel2 t2 s = (Ret r2, s2) ->
  cache s1 = cache s2 /\ hstep s1 = hstep s2 /\ stages s1 = stages s2.
Proof.
  intros m fuelc o rhs tb fuel1 fuel2 t1 t2 s r1 s1 r2 s2.
  exact (C17_lemma m fuelc o rhs tb fuel1 fuel2 t1 t2 s r1 s1 r2 s2).
Qed.
Print Assumptions C17.
Theorem C17_stepping {OT : Ops} {L : OrdLaws OT} {E : Env} : forall m fuelc o rhs tb fuel t (s : st) rows s',
  let sv := solver_of m fuelc o rhs tb in
  is_sorted t = true -> run sv fuel t s = (Ret rows, s') ->
  exists l x, upto_target sv (last t zero) s l x /\
    (ltb (now x) (last t zero) = false \/ would_pass tb x) /\
    cache s' = cache x /\ hstep s' = hstep x /\ stages s' = stages x.
Proof. intros m fuelc o rhs tb fuel t s rows s'. exact (PRun3.C17_stepping m fuelc o rhs tb fuel t s rows s'). Qed.
Print Assumptions C17_stepping.
Example C17_ex :
  bufQ (cache (snd (run (E := EQ) (sv_rk4 PInf) 20 [qq (1 # 8); qq (1 # 4); qq (3 # 4)] ex_rk4))) =
  bufQ (cache (snd (run (E := EQ) (sv_rk4 PInf) 20 [qq (3 # 4)] ex_rk4))) /\
  fst (fst (bufQ (cache (snd (run (E := EQ) (sv_rk4 PInf) 20 [qq (3 # 4)] ex_rk4))))) = [1 # 2; 1]%Q.
Proof. split; vm_compute; reflexivity. Qed.

(** * C18  interpolate accepts exactly the recorded history *)
Theorem C18_outside {OT : Ops} {E : Env} : forall (sv : solver) t (s : st),
  leb (buf_t0 (cache s)) t = false \/ leb t (now s) = false ->
  interpolate sv t s = (Raise ValueError, s).
Proof. exact PInterp.C18_outside. Qed.
Print Assumptions C18_outside.
Theorem C18_inside {E : @Env Rops} : forall m fuelc o rhs tb s t,
  reachable rhs m fuelc o tb s -> (is_dop m = true -> total rhs) ->
  (buf_t0 (cache s) <= t <= now s)%R ->
  exists a s', interpolate (solver_of m fuelc o rhs tb) t s = (Ret a, s').
Proof. exact C18_R. Qed.
Print Assumptions C18_inside.
(** in any arithmetic: only a division by zero or the user's rhs (extra stages of
    DOP853) can raise inside the window *)
Theorem C18_inside_any {OT : Ops} {E : Env} : forall m fuelc o rhs tb t (s : st) e s',
  leb (buf_t0 (cache s)) t = true -> leb t (now s) = true ->
  interpolate (solver_of m fuelc o rhs tb) t s = (Raise e, s') ->
  e = ZeroDivisionError \/ exists t' y', rhs t' y' = Raise e.
Proof. intros m fuelc o rhs tb t s e s'. exact (PInterp.C18_inside m fuelc o rhs tb t s e s'). Qed.
Print Assumptions C18_inside_any.
Theorem C18_keeps {OT : Ops} {E : Env} : forall m fuelc o rhs tb t (s : st),
  let s' := snd (interpolate (solver_of m fuelc o rhs tb) t s) in
  cache s' = cache s /\ hstep s' = hstep s /\ stages s' = stages s.
Proof. exact PInterp.C18_keeps. Qed.
Print Assumptions C18_keeps.
Example C18_ex :
  interpQ (interpolate (sv_ab3 PInf) (qq (1 # 4)) ex_ab3) = Some [1343839 # 1048576]%Q /\
  interpQ (interpolate (sv_ab3 PInf) (qq (5 # 4)) ex_ab3) = None.
Proof. split; vm_compute; reflexivity. Qed.

(** * C19  the default interpolant is the cubic Hermite polynomial of the window *)
Theorem C19 {E : @Env Rops} : forall m fuelc o rhs tb n s i,
  reachable rhs m fuelc o tb s -> is_fixed m = true -> dims n s -> i < n -> (buf_t0 (cache s) < now s)%R ->
  exists q0 q1 q2 q3,
    (forall t, (buf_t0 (cache s) <= t <= now s)%R ->
       exists a, interpolate (solver_of m fuelc o rhs tb) t s = (Ret a, s) /\
                 cmp i (deref (cache s) a) = cubic q0 q1 q2 q3 t) /\
    cubic q0 q1 q2 q3 (buf_t0 (cache s)) = cmp i (buf_y0 (cache s)) /\
    dcubic q1 q2 q3 (buf_t0 (cache s)) = cmp i (buf_f0 (cache s)) /\
    cubic q0 q1 q2 q3 (now s) = cmp i (state s) /\ dcubic q1 q2 q3 (now s) = cmp i (deriv s).
Proof. exact C19_reach. Qed.
Print Assumptions C19.
Theorem C19_cubic_exact {E : @Env Rops} : forall m fuelc o rhs tb n s i q0 q1 q2 q3,
  reachable rhs m fuelc o tb s -> is_fixed m = true -> dims n s -> i < n -> (buf_t0 (cache s) < now s)%R ->
  cmp i (buf_y0 (cache s)) = cubic q0 q1 q2 q3 (buf_t0 (cache s)) ->
  cmp i (buf_f0 (cache s)) = dcubic q1 q2 q3 (buf_t0 (cache s)) ->
  cmp i (state s) = cubic q0 q1 q2 q3 (now s) -> cmp i (deriv s) = dcubic q1 q2 q3 (now s) ->
  forall t, (buf_t0 (cache s) <= t <= now s)%R ->
    exists a, interpolate (solver_of m fuelc o rhs tb) t s = (Ret a, s) /\
              cmp i (deref (cache s) a) = cubic q0 q1 q2 q3 t.
Proof. exact C19_cubic. Qed.
Print Assumptions C19_cubic_exact.
(** the recorded vectors keep their dimension *)
Theorem C19_dims {OT : Ops} {E : Env} : forall n rhs m fuelc o tb fuel cs (s : st),
  keeps_dim n rhs -> match m with ImplMS _ _ _ => solve_dim | _ => True end ->
  wf m s -> shaped m -> dims n s ->
  dims n (session (solver_of m fuelc o rhs tb) fuel cs s).
Proof. intros n rhs m fuelc o tb fuel cs s Hk Hs. exact (dims_session n rhs Hk m fuelc o tb fuel cs s Hs). Qed.
Print Assumptions C19_dims.
(** a step of RungeKutta4 opens the window *)
Example C19_ex : let s := session (E := ER) (solver_of (E := ER) RungeKutta4 0 default_options rhs_exp PInf) 0 [CStep None None] (r_rk4 (1 / 2)) in
  reachable (E := ER) rhs_exp RungeKutta4 0 default_options PInf s /\ dims 1 s /\ (buf_t0 (cache s) < now s)%R.
Proof.
  split; [|split].
  - exists (r_rk4 (1 / 2)), 0, [CStep None None]. split; [apply r_rk4_built | reflexivity].
  - split; vm_compute; repeat constructor.
  - cbv -[Rplus Rmult Rdiv Rminus Ropp IZR Rinv Rlt]. lra.
Qed.

(** * C20  interpolating at a recorded time returns the recorded state
    True at both ends of the window, hence everywhere when LEN_HISTORY = 2. *)
Theorem C20_partial {E : @Env Rops} : forall m fuelc o rhs tb n s,
  reachable rhs m fuelc o tb s -> dims n s -> (buf_t0 (cache s) < now s)%R ->
  (exists a, interpolate (solver_of m fuelc o rhs tb) (now s) s = (Ret a, s) /\ deref (cache s) a = state s) /\
  (exists a, interpolate (solver_of m fuelc o rhs tb) (buf_t0 (cache s)) s = (Ret a, s) /\
             deref (cache s) a = buf_y0 (cache s)).
Proof. exact C20_ends. Qed.
Print Assumptions C20_partial.
Theorem C20_two_rows {E : @Env Rops} : forall m fuelc o rhs tb n s i,
  reachable rhs m fuelc o tb s -> dims n s -> (buf_t0 (cache s) < now s)%R ->
  len_history m = 2 -> i < 2 ->
  exists a, interpolate (solver_of m fuelc o rhs tb) (nth i (ts (cache s)) 0%R) s = (Ret a, s) /\
            deref (cache s) a = nth i (ys (cache s)) [].
Proof. exact C20_two. Qed.
Print Assumptions C20_two_rows.
(** Refuted for longer histories: AdamsBashforth3 with recorded times 0, 1/2, 1. *)
Theorem C20_refuted : exists s : @st QI, built (E := EQ) rhs_exp AB3 s /\
  map this (ts (cache s)) = [0; 1 # 2; 1]%Q /\
  interpQ (interpolate (sv_ab3 PInf) (qq (1 # 2)) s) <> Some (map this (nth 1 (ys (cache s)) [])).
Proof. exists ex_ab3. split; [exact ex_ab3_built | exact C20_lemma]. Qed.
Print Assumptions C20_refuted.

(** * C21  f is always rhs(t, y) *)
Theorem C21 {OT : Ops} {E : Env} : forall rhs m (s0 : st) fuelc o tb fuel cs, built rhs m s0 ->
  let s := session (solver_of m fuelc o rhs tb) fuel cs s0 in
  recorded_ok rhs (cache s) /\ rhs (now s) (state s) = Ret (deriv s).
Proof. exact C21_lemma. Qed.
Print Assumptions C21.
Example C21_ex : bufQ (cache (session (E := EQ) (sv_ab3 PInf) 9 [CStep (Some 2%Z) None; CRun [qq (9 # 4)]] ex_ab3)) =
  ([3 # 2; 2; 5 # 2], [[1235813 # 393216]; [33650929 # 9437184]; [1091138957 # 226492416]], [[1235813 # 393216]; [33650929 # 9437184]; [1091138957 # 226492416]])%Q.
Proof. vm_compute. reflexivity. Qed.

(** * C22  the history holds exactly the last LEN_HISTORY entries, oldest first *)
Theorem C22 {OT : Ops} {E : Env} : forall m fuelc o rhs tb (s0 : st) fuel cs, built rhs m s0 ->
  let s := session (solver_of m fuelc o rhs tb) fuel cs s0 in
  exists l : list (T * vec * vec),
    let N := len_history m in
    ts (cache s) = lastn N (ts (cache s0) ++ map (fun e => fst (fst e)) l) /\
    ys (cache s) = lastn N (ys (cache s0) ++ map (fun e => snd (fst e)) l) /\
    fs (cache s) = lastn N (fs (cache s0) ++ map snd l) /\
    length (ts (cache s)) = N /\ length (ys (cache s)) = N /\ length (fs (cache s)) = N.
Proof. exact C22_lastn. Qed.
Print Assumptions C22.
Theorem C22_padding {OT : Ops} {E : Env} : forall m (rhs : rhs_t) (s0 : st), built rhs m s0 -> is_erk m \/ is_fixed m = false ->
  exists t0 y0 f0, let N := len_history m in
    ts (cache s0) = repeat t0 N /\ ys (cache s0) = repeat y0 N /\ fs (cache s0) = repeat f0 N.
Proof. intros m rhs. exact (C22_start m 0 default_options rhs PInf). Qed.
Print Assumptions C22_padding.
Theorem C22_sorted {E : @Env Rops} : forall m fuelc o rhs tb s0 fuel cs,
  built rhs m s0 -> in_order s0 -> (0 <= hstep s0)%R -> sane o ->
  is_sorted (ts (cache (session (solver_of m fuelc o rhs tb) fuel cs s0))) = true.
Proof. exact C22_order. Qed.
Print Assumptions C22_sorted.
Theorem C22_sorted_start {E : @Env Rops} : forall m (rhs : @rhs_t Rops) s0,
  built rhs m s0 -> is_erk m \/ is_fixed m = false -> in_order s0.
Proof. intros m rhs. exact (built_order m 0 default_options rhs PInf). Qed.
Print Assumptions C22_sorted_start.
Example C22_ex : map this (ts (cache ex_ab3)) = [0; 1 # 2; 1]%Q /\
  map this (ts (cache (session (E := EQ) (sv_ab3 PInf) 9 [CStep (Some 2%Z) None] ex_ab3))) = [1; 3 # 2; 2]%Q.
Proof. split; vm_compute; reflexivity. Qed.

(** * C23  a failing right-hand side does not corrupt t, y, f
    Any calls, raising or not: the history is the result of completed steps. *)
Theorem C23 {OT : Ops} {E : Env} : forall rhs m (s : st) fuelc o tb fuel cs, built rhs m s ->
  exists l, follows (solver_of m fuelc o rhs tb) s l (session (solver_of m fuelc o rhs tb) fuel cs s).
Proof. exact C23_lemma. Qed.
Print Assumptions C23.
(** When step() raises, the history is that after its completed steps. *)
Theorem C23_step {OT : Ops} {E : Env} : forall rhs m (s : st) fuelc o tb fuel n u e s',
  reachable rhs m fuelc o tb s -> step (solver_of m fuelc o rhs tb) fuel n u s = (Raise e, s') ->
  exists b l s1, chain (solver_of m fuelc o rhs tb) b s l s1 /\ cache s' = cache s1.
Proof.
  intros rhs m s fuelc o tb fuel n u e s' R.
  exact (PHist.C23_step rhs m s fuelc o tb fuel n u e s' (reachable_good OT E rhs m fuelc o tb s R)).
Qed.
Print Assumptions C23_step.
(** step(n=3) from 0 with h = 1/2; the rhs raises in the third step *)
Definition rhs_until1 : @rhs_t QI := fun t y => if ltb (qq 1) t then Raise (UserError 7) else Ret y.
Example C23_ex :
  let r := step (solver_of (E := EQ) RungeKutta4 0 default_options rhs_until1 PInf) 0 (Some 3%Z) None ex_rk4 in
  match fst r with Raise (UserError 7) => true | _ => false end = true /\
  bufQ (cache (snd r)) = ([1 # 2; 1], [[211 # 128]; [44521 # 16384]], [[211 # 128]; [44521 # 16384]])%Q.
Proof. split; vm_compute; reflexivity. Qed.

(** * C24  dense output describes the last completed step
    As long as no call raised. *)
Theorem C24_partial {E : @Env Rops} : forall A B C Ew order P fuelc o rhs tb n fuel cs s0 s t,
  length C = length A /\ A <> [] -> keeps_dim n rhs -> sane o ->
  let m := Fsal A B C Ew order P in let sv := solver_of m fuelc o rhs tb in
  built rhs m s0 -> length (state s0) = n -> (0 <= hstep s0)%R ->
  returns sv fuel cs s0 s -> (prev_t s < t < now s)%R ->
  exists h K s', last_step rhs A B C s h K /\
    interpolate sv t s = (Ret (@Own Rops (rk_dense P (prev_t s) (prev_y s) h (K ++ [deriv s]) t)), s').
Proof.
  intros A B C Ew order P fuelc o rhs tb n fuel cs s0 s t Hsh Hk Ho m sv.
  exact (C24_rk_clean A B C Ew order P fuelc o rhs tb n Hsh Hk Ho fuel cs s0 s t).
Qed.
Print Assumptions C24_partial.
(** After any calls, raising or not, one completed step restores it. *)
Theorem C24_recovers {E : @Env Rops} : forall A B C Ew order P fuelc o rhs tb n fuel0 cs0 s0 b s1 fuel cs s t,
  length C = length A /\ A <> [] -> keeps_dim n rhs -> sane o ->
  let m := Fsal A B C Ew order P in let sv := solver_of m fuelc o rhs tb in
  built rhs m s0 -> length (state s0) = n -> (0 <= hstep s0)%R ->
  completes sv b (session sv fuel0 cs0 s0) s1 ->
  returns sv fuel cs s1 s -> (prev_t s < t < now s)%R ->
  exists h K s', last_step rhs A B C s h K /\
    interpolate sv t s = (Ret (@Own Rops (rk_dense P (prev_t s) (prev_y s) h (K ++ [deriv s]) t)), s').
Proof.
  intros A B C Ew order P fuelc o rhs tb n fuel0 cs0 s0 b s1 fuel cs s t Hsh Hk Ho m sv.
  exact (C24_rk_recovers A B C Ew order P fuelc o rhs tb n Hsh Hk Ho fuel0 cs0 s0 b s1 fuel cs s t).
Qed.
Print Assumptions C24_recovers.
(** The same for DOP853: the extra stages are those of the last step too. *)
Theorem C24_dop_partial {E : @Env Rops} : forall A B C E5 E3 order D Af Cf fuelc o rhs tb n fuel cs s0 s t,
  length C = length A /\ A <> [] -> length A = dop_n_stages -> length Cf = length Af -> keeps_dim n rhs -> sane o ->
  let m := Dop A B C E5 E3 order D Af Cf in let sv := solver_of m fuelc o rhs tb in
  built rhs m s0 -> length (state s0) = n -> (0 <= hstep s0)%R ->
  returns sv fuel cs s0 s -> (prev_t s < t < now s)%R ->
  exists h K, last_step rhs A B C s h K /\
   (forall a s', interpolate sv t s = (Ret a, s') ->
    exists K', @stages_of Rops rhs (prev_t s) (prev_y s) h (skipn (dop_n_stages + 1) Af) (skipn (dop_n_stages + 1) Cf) (K ++ [deriv s]) K' /\
      a = @Own Rops (dop_dense D (prev_t s) (prev_y s) (state s) (deriv s) h K' t)) /\
   (total rhs -> exists a s', interpolate sv t s = (Ret a, s')).
Proof.
  intros A B C E5 E3 order D Af Cf fuelc o rhs tb n fuel cs s0 s t Hsh HA HC Hk Ho m sv.
  exact (C24_dop_clean A B C E5 E3 order D Af Cf fuelc o rhs tb n Hsh Hk Ho HA HC fuel cs s0 s t).
Qed.
Print Assumptions C24_dop_partial.
Theorem C24_dop_recovers {E : @Env Rops} : forall A B C E5 E3 order D Af Cf fuelc o rhs tb n fuel0 cs0 s0 b s1 fuel cs s t,
  length C = length A /\ A <> [] -> length A = dop_n_stages -> length Cf = length Af -> keeps_dim n rhs -> sane o ->
  let m := Dop A B C E5 E3 order D Af Cf in let sv := solver_of m fuelc o rhs tb in
  built rhs m s0 -> length (state s0) = n -> (0 <= hstep s0)%R ->
  completes sv b (session sv fuel0 cs0 s0) s1 ->
  returns sv fuel cs s1 s -> (prev_t s < t < now s)%R ->
  exists h K, last_step rhs A B C s h K /\
   (forall a s', interpolate sv t s = (Ret a, s') ->
    exists K', @stages_of Rops rhs (prev_t s) (prev_y s) h (skipn (dop_n_stages + 1) Af) (skipn (dop_n_stages + 1) Cf) (K ++ [deriv s]) K' /\
      a = @Own Rops (dop_dense D (prev_t s) (prev_y s) (state s) (deriv s) h K' t)) /\
   (total rhs -> exists a s', interpolate sv t s = (Ret a, s')).
Proof.
  intros A B C E5 E3 order D Af Cf fuelc o rhs tb n fuel0 cs0 s0 b s1 fuel cs s t Hsh HA HC Hk Ho m sv.
  exact (PDense.C24_dop_recovers A B C E5 E3 order D Af Cf fuelc o rhs tb n Hsh Hk Ho HA HC fuel0 cs0 s0 b s1 fuel cs s t).
Qed.
Print Assumptions C24_dop_recovers.
(** the shapes hold for the registered classes; a step that completes *)
Example C24_ex :
  (match @RungeKutta23 Rops with Fsal A B C _ _ _ => length C = length A /\ A <> [] | _ => False end) /\
  (match @RungeKutta45 Rops with Fsal A B C _ _ _ => length C = length A /\ A <> [] | _ => False end) /\
  (match @DOP853 Rops with Dop A B C _ _ _ _ Af Cf =>
     (length C = length A /\ A <> []) /\ length A = dop_n_stages /\ length Cf = length Af | _ => False end) /\
  (sane (@default_options Rops)) /\ keeps_dim 1 (@rhs_one Rops) /\
  exists s, returns (E := ER) sv_one 0 [CStep None None] (r_one (1 / 2)) s /\ (prev_t s < 1 / 4 < now s)%R.
Proof.
  split; [split; [reflexivity|discriminate]|]. split; [split; [reflexivity|discriminate]|].
  split. { split; [split; [vm_compute; reflexivity | vm_compute; discriminate]|]. split; vm_compute; reflexivity. }
  split. { unfold sane, default_options. cbn [min_factor max_factor safety_factor]. rewrite !lit_R. cbn. lra. }
  split. { intros t y f H Hf. unfold rhs_one in Hf. injection Hf as <-. now rewrite map_length. }
  destruct (r_one_step (1 / 2)) as (s & H & H1 & H2). exists s. split.
  - eapply rts_cons; [|constructor]. unfold exec_call, step, bind, step_. cbn [s_bound sv_one solver_of gt_ext].
    unfold bind. rewrite H. reflexivity.
  - rewrite H1, H2. lra.
Qed.
(** Refuted after an exception: RungeKutta23, y' = 2 t.  One step from 0 to 1/2,
    then a step whose rhs raises: same history, other interpolant at 1/4. *)
Theorem C24_refuted : exists s0 : @st QI, built (E := EQ) rhs_2t RungeKutta23 s0 /\
  let s1 := session (E := EQ) (sv_2t PInf) 5 [CStep None None] s0 in
  let s2 := session (E := EQ) (sv_2t PInf) 5 [CStep None None; CStep None None] s0 in
  bufQ (cache s2) = bufQ (cache s1) /\
  interpQ (interpolate (sv_2t PInf) (qq (1 # 4)) s1) = Some [1 # 16]%Q /\
  interpQ (interpolate (sv_2t PInf) (qq (1 # 4)) s2) <> Some [1 # 16]%Q.
Proof. exists ex_2t. split; [exact ex_2t_built | exact C24_lemma]. Qed.
Print Assumptions C24_refuted.

(** * C25  returned arrays are snapshots
    Refuted twice: the state returned by step(), and the states in y_events. *)
Theorem C25_refuted : exists (s : @st QI) t a s1, built (E := EQ) rhs_exp RungeKutta4 s /\
  step (sv_rk4 PInf) 5 None None s = (Ret (ROne t a), s1) /\
  arrQ (session (E := EQ) (sv_rk4 PInf) 5 [CStep None None] s1) a <> arrQ s1 a.
Proof. destruct C25_step_lemma as (t & a & s1 & H). exists ex_rk4, t, a, s1. split; [exact ex_rk4_built | exact H]. Qed.
Print Assumptions C25_refuted.
Theorem C25_events_refuted : exists (s : @st QI) r s1 a, built (E := EQ) rhs_one RungeKutta23 s /\
  run_events (E := EQ) (sv_rk23 PInf) 5 [qq (1 # 2)] [ev_half] s = (Ret r, s1) /\
  map (map this) (rr_tev r) = [[1 # 2]%Q] /\ rr_yev r = [[a]] /\
  arrQ (session (E := EQ) (sv_rk23 PInf) 5 [CStep None None] s1) a <> arrQ s1 a.
Proof. destruct C25_events_lemma as (r & s1 & a & H). exists ex_rk23, r, s1, a. split; [exact ex_rk23_built | exact H]. Qed.
Print Assumptions C25_events_refuted.
(** What step() returns is always the current state of the instance.  (The other
    forms of step, and the rows of run, hold values, not views: type RMany.) *)
Theorem C25_partial {OT : Ops} {E : Env} : forall m fuelc o rhs tb (s s1 : st) t a fuel1 fuel2 cs,
  reachable rhs m fuelc o tb s ->
  step (solver_of m fuelc o rhs tb) fuel1 None None s = (Ret (ROne t a), s1) ->
  let s2 := session (solver_of m fuelc o rhs tb) fuel2 cs s1 in deref (cache s2) a = state s2.
Proof. exact C25_view. Qed.
Print Assumptions C25_partial.

(** * C26  params is partial application *)
Theorem C26 {OT : Ops} {E : Env} : forall (f : T -> vec -> vec -> outcome vec) (p : vec) (g : T -> vec -> outcome vec),
  (forall t y, g t y = f t y p) ->
  forall m, (forall s, built (make_rhs (Rhs3 f) (Some p)) m s <-> built (make_rhs (Rhs2 g) None) m s) /\
  forall fuelc o tb fuel,
    let sv := solver_of m fuelc o (make_rhs (Rhs3 f) (Some p)) tb in
    let sv' := solver_of m fuelc o (make_rhs (Rhs2 g) None) tb in
    (forall n u s, step sv fuel n u s = step sv' fuel n u s) /\
    (forall n u s, skip sv fuel n u s = skip sv' fuel n u s) /\
    (forall t s, run sv fuel t s = run sv' fuel t s) /\
    (forall t e s, run_events sv fuel t e s = run_events sv' fuel t e s) /\
    (forall t s, interpolate sv t s = interpolate sv' t s) /\
    (forall cs s, session sv fuel cs s = session sv' fuel cs s).
Proof. exact C26_lemma. Qed.
Print Assumptions C26.
(** y' = p0 y with p = [1] *)
Example C26_ex :
  let f : @T QI -> vec -> vec -> outcome vec := fun _ y p => Ret (map (mul (nth 0 p zero)) y) in
  stepQ (step (solver_of (E := EQ) RungeKutta4 0 default_options (make_rhs (Rhs3 f) (Some [qq 1])) PInf) 0 (Some 1%Z) None ex_rk4) =
  stepQ (step (sv_rk4 PInf) 0 (Some 1%Z) None ex_rk4).
Proof. vm_compute. reflexivity. Qed.
