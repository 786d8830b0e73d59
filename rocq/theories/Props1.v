(** C01 - C12: stepping. *)
From Coq Require Import List ZArith QArith Qcanon Bool Arith Reals Lia Lra Floats.SpecFloat.
From Verif Require Import Base Scalar Vec MBuffer MZeros MSteps MApi MClasses Laws Spec SpecInst
  PStep PBound PTerm PFwd Ex PRef1 PTop1.
Import ListNotations.
Open Scope nat_scope.

(** * C01  step(n=a); step(n=b)  is  step(n=a+b)
    For every solver object, whatever its step function does. *)
Theorem C01 {OT : Ops} {E : Env} : forall (sv : solver) fuel (a b : Z) (s : st),
  (0 <= a)%Z -> (0 <= b)%Z ->
  step sv fuel (Some (a + b)%Z) None s =
  match step sv fuel (Some a) None s with
  | (Ret (RMany r1), s1) =>
      match step sv fuel (Some b) None s1 with
      | (Ret (RMany r2), s2) => (Ret (RMany (r1 ++ r2)), s2)
      | other => other
      end
  | other => other
  end.
Proof. exact C01_lemma. Qed.
Print Assumptions C01.
(** both parts take steps; and one where the second part fails *)
Example C01_ex :
  stepQ (step (sv_rk4 PInf) 0 (Some (1 + 1)%Z) None ex_rk4) =
    Some [(1 # 2, [211 # 128]); (1, [44521 # 16384])]%Q /\
  fst (step (sv_rk4 (Fin (qq (3 # 4)))) 0 (Some (1 + 1)%Z) None ex_rk4) = Raise RuntimeError.
Proof.
  split; [vm_compute; reflexivity|].
  assert (K : match fst (step (sv_rk4 (Fin (qq (3 # 4)))) 0 (Some (1 + 1)%Z) None ex_rk4) with
              | Raise RuntimeError => true | _ => false end = true) by (vm_compute; reflexivity).
  destruct (fst _) as [|[]|]; try discriminate; reflexivity.
Qed.

(** * C02  skip is step without the output *)
Theorem C02 {OT : Ops} {E : Env} : forall (sv : solver) fuel (n : option Z) (u : option ext) (s : st),
  (forall k, n = Some k -> (0 <= k)%Z) ->
  skip sv fuel n u s = (forget (fst (step sv fuel n u s)), snd (step sv fuel n u s)).
Proof. exact C02_lemma. Qed.
Print Assumptions C02.
(** the hypothesis is needed: step(n=-1) raises ValueError, skip(n=-1) does nothing *)
Example C02_ex :
  (match step (sv_rk4 PInf) 0 (Some (-1)%Z) None ex_rk4 with (Raise ValueError, _) => true | _ => false end = true) /\
  (match skip (sv_rk4 PInf) 0 (Some (-1)%Z) None ex_rk4 with (Ret _, s) => this (now s) | _ => 99%Q end = 0%Q) /\
  (match skip (sv_rk4 PInf) 9 (Some 3%Z) (Some (Fin (qq 1))) ex_rk4 with (Ret _, s) => this (now s) | _ => 99%Q end = 1%Q).
Proof. vm_compute. auto. Qed.

(** * C03  documented equivalences
    Full statement: step() = step(n=1), step(n=k) = step(n=k, upto_t=inf),
    step(upto_t=x) = step(n=infinity, upto_t=x).  The first two are false when
    t_bound is in the way (C03_refuted); this is what holds. *)
Theorem C03_partial {OT : Ops} {E : Env} : forall (sv : solver) (s : st),
  (* step() and step(n=1), when the step fits *)
  (forall fuel, ~ would_pass (s_bound sv) s ->
    match step sv fuel (Some 1%Z) None s with
    | (Ret r, s') => r = RMany [row s'] /\
                     step sv fuel None None s =
                       (Ret (ROne (now s') (CacheRow (length (ys (cache s')) - 1))), s')
    | (Raise e, s') => step sv fuel None None s = (Raise e, s')
    | (Loop, s') => step sv fuel None None s = (Loop, s')
    end) /\
  (* step(n=k) and step(n=k, upto_t=inf), when there is no t_bound *)
  (forall fuel k, s_bound sv = PInf -> (0 <= k)%Z ->
    step sv fuel (Some k) (Some PInf) s = step sv fuel (Some k) None s) /\
  (* step(upto_t=x) and step(n=k, upto_t=x) for every k from some N on *)
  (forall u s' rows, ext_lt u (now s) = false ->
    (exists fuel, step sv fuel None (Some u) s = (Ret (RMany rows), s')) <->
    (exists N, forall k fuel, (N <= k)%Z -> step sv fuel (Some k) (Some u) s = (Ret (RMany rows), s'))
    /\ would_pass u s').
Proof.
  exact (fun sv s => conj (fun fuel => proj1 (C03_step1 sv fuel s))
    (conj (fun fuel k => C03_inf sv fuel k s) (fun u s' rows => C03_upto sv u s s' rows))).
Qed.
Print Assumptions C03_partial.
Theorem C03_refuted {OT : Ops} {E : Env} : forall (sv : solver) fuel (s : st),
  (* at t_bound, step() returns None while step(n=1) raises *)
  (would_pass (s_bound sv) s ->
    step sv fuel None None s = (Ret RNone, s) /\
    step sv fuel (Some 1%Z) None s = (Raise RuntimeError, s)) /\
  (* with a finite t_bound, step(n=k, upto_t=inf) always raises *)
  (forall k tb, s_bound sv = Fin tb ->
    step sv fuel (Some k) (Some PInf) s = (Raise ValueError, s)).
Proof.
  exact (fun sv fuel s => conj (proj2 (C03_step1 sv fuel s)) (fun k tb => C03_inf_bad sv fuel k s tb)).
Qed.
Print Assumptions C03_refuted.
Example C03_ex :
  would_pass (OT := QI) (s_bound (sv_rk4 (Fin (qq (1 # 4))))) ex_rk4 /\
  ~ would_pass (OT := QI) (s_bound (sv_rk4 (Fin (qq (3 # 4))))) ex_rk4 /\
  s_bound (sv_rk4 (Fin (qq (1 # 4)))) = Fin (qq (1 # 4)) /\
  stepQ (step (sv_rk4 PInf) 9 None (Some (Fin (qq 1))) ex_rk4) =
    Some [(1 # 2, [211 # 128]); (1, [44521 # 16384])]%Q.
Proof. split; [|split; [|split]]; try (vm_compute; reflexivity). intro H. vm_compute in H. discriminate. Qed.

(** * C04  never beyond t_bound
    Full statement: for every sequence of calls, now <= t_bound.  False when
    upto_t is NaN (C04_refuted).  It holds otherwise, for fixed step classes in
    every ordered arithmetic (reals, rationals, binary64), and for variable step
    classes in exact arithmetic with factors that do not enlarge a rejected step. *)
Theorem C04_partial {OT : Ops} {L : OrdLaws OT} {E : Env} :
  forall (rhs : rhs_t) (m : meth) fuelc o (tb : ext) fuel (cs : list call) (s0 : st),
  built rhs m s0 -> is_fixed m = true -> Forall no_nan cs -> gt_ext (now s0) tb = false ->
  gt_ext (now (session (solver_of m fuelc o rhs tb) fuel cs s0)) tb = false.
Proof. exact C04_fixed'. Qed.
Print Assumptions C04_partial.
Theorem C04_variable_partial {E : @Env Rops} :
  forall (m : @meth Rops) fuelc (o : @options Rops) (rhs : @rhs_t Rops) (tb : @ext Rops) fuel cs s0,
  built rhs m s0 -> is_fixed m = false ->
  (0 <= min_factor o <= 1)%R -> (0 <= max_factor o)%R -> (safety_factor o <= 1)%R ->
  (0 <= hstep s0)%R -> gt_ext (now s0) tb = false ->
  gt_ext (now (session (solver_of m fuelc o rhs tb) fuel cs s0)) tb = false.
Proof. exact C04_var'. Qed.
Print Assumptions C04_variable_partial.
(** binary64, ForwardEuler on y' = 1 from t = 0 with h = 1 and t_bound = 2:
    step(n=5, upto_t=nan) goes to 5 *)
Theorem C04_refuted : forall pw, let FI := SFops pw in let EF := @env0 FI true in
  exists (s0 : @st FI) cs,
  built (OT := FI) (E := EF) rhs_one ForwardEuler s0 /\
  gt_ext (OT := FI) (now s0) (Fin (ff pw 2)) = false /\
  gt_ext (OT := FI) (now (session (solver_of (OT := FI) (E := EF) ForwardEuler 0 default_options rhs_one (Fin (ff pw 2))) 0 cs s0))
    (Fin (ff pw 2)) = true.
Proof.
  exact (fun pw => ex_intro _ (f_euler pw (ff pw 0) (ff pw 1)) (ex_intro _ [CStep (Some 5%Z) (Some (Fin (f_nan pw)))]
    (conj (f_built pw (ff pw 0) (ff pw 1)) (conj (proj2 (C04_nan_lemma pw)) (proj1 (C04_nan_lemma pw)))))).
Qed.
Print Assumptions C04_refuted.
Example C04_ex :
  built (E := EQ) rhs_exp AB3 ex_ab3 /\ gt_ext (OT := QI) (now ex_ab3) (Fin (qq 2)) = false /\
  this (now (session (E := EQ) (sv_ab3 (Fin (qq 2))) 9
    [CStep (Some 1%Z) None; CRun [qq (3 # 2); qq (9 # 5)]; CStep (Some 7%Z) None] ex_ab3)) = 2%Q.
Proof. split; [exact ex_ab3_built|]. vm_compute. auto. Qed.
Example C04_variable_ex :
  built (OT := Rops) (E := ER) rhs_exp RungeKutta23 (r_rk23 (1 / 2)%R) /\
  (0 <= min_factor (OT := Rops) default_options <= 1)%R /\ (0 <= max_factor (OT := Rops) default_options)%R /\
  (safety_factor (OT := Rops) default_options <= 1)%R.
Proof.
  split; [apply r_rk23_built|]. cbn [min_factor max_factor safety_factor default_options].
  rewrite !lit_R. cbn. lra.
Qed.

(** * C05  the history of a fresh multistep instance
    Full statement: times t0, t0+h, ..., t0+(ORDER-1)h and current time <=
    t_bound, for every first stepper.  True for fixed step first steppers as
    far as the grid goes; without first stepper the history is the initial point
    repeated.  C05_refuted has the rest; note that the default first stepper,
    RungeKutta45, is a variable step one. *)
Theorem C05_partial {OT : Ops} {E : Env} :
  forall (m : meth) (rhs : rhs_t) g t0 y0 h m1 s1 fuel1 o1 fuel s,
  garbage_ok m g -> is_multistep m -> 1 < ms_order m -> is_fixed m1 = true -> built rhs m1 s1 ->
  now s1 = t0 -> state s1 = y0 -> hstep s1 = match h with Some x => x | None => one end ->
  init_ms m g rhs t0 y0 h (FSFixed (fun _ _ _ => Ret (solver_of m1 fuel1 o1 rhs PInf, s1))) fuel = Ret s ->
  ts (cache s) = map (grid t0 (hstep s)) (seq 0 (ms_order m)).
Proof. exact C05_fixed. Qed.
Print Assumptions C05_partial.
Theorem C05_none {OT : Ops} {E : Env} :
  forall (m : meth) (rhs : rhs_t) g t0 y0 h fuel s, garbage_ok m g ->
  init_ms m g rhs t0 y0 h FSNone fuel = Ret s ->
  ts (cache s) = repeat t0 (len_history m) /\ ys (cache s) = repeat y0 (len_history m).
Proof. exact init_ms_none_eq. Qed.
Print Assumptions C05_none.
Example C05_ex : map this (ts (cache ex_ab3)) = [0; 1 # 2; 1]%Q /\
  1 < ms_order (AB3 (OT := QI)) /\ is_multistep (AB3 (OT := QI)).
Proof. split; [vm_compute; reflexivity|]. split; [cbn; lia | exact I]. Qed.
(** (a) AdamsBashforth3 with t_bound = 1/2, h = 1/2: after construction t = 1;
    (b) variable step first stepper, t0 = -1, h = 1: times -1, 1, 2;
    (c) variable step first stepper, t0 = 10: the constructor raises ValueError *)
Theorem C05_refuted :
  (exists (s : @st QI) (tb : @T QI), built (E := EQ) rhs_exp AB3 s /\ gt_ext (now s) (Fin tb) = true) /\
  (exists s, ab3_var (-1 # 1) 1 = Ret s /\ map this (ts (cache s)) = [-1 # 1; 1; 2]%Q) /\
  ab3_var 10 1 = Raise ValueError.
Proof.
  exact (conj (ex_intro _ ex_ab3 (ex_intro _ (qq (1 # 2)) (conj ex_ab3_built C05_bound_lemma)))
    (conj C05_var_grid_lemma C05_var_raise_lemma)).
Qed.
Print Assumptions C05_refuted.

(** * C06  step(upto_t=x) advances maximally without passing x *)
Theorem C06 {OT : Ops} {E : Env} : forall (sv : solver) (u : ext) (s s' : st) rows,
  ext_lt u (now s) = false -> ext_gt u (s_bound sv) = false ->
  ((exists fuel, step sv fuel None (Some u) s = (Ret (RMany rows), s'))
   <-> exists l, chain sv u s l s' /\ rows = map row l /\ would_pass u s').
Proof. exact C06_lemma. Qed.
Print Assumptions C06.
Theorem C06_no_pass {OT : Ops} {E : Env} : forall (m : meth) fuelc o (rhs : rhs_t) (tb : ext) s fuel u rows s',
  reachable rhs m fuelc o tb s -> is_fixed m = true ->
  step (solver_of m fuelc o rhs tb) fuel None (Some u) s = (Ret (RMany rows), s') ->
  Forall (fun r => gt_ext (fst r) u = false) rows.
Proof. exact C06_times. Qed.
Print Assumptions C06_no_pass.
Theorem C06_no_pass_variable {E : @Env Rops} :
  forall (m : @meth Rops) fuelc (o : @options Rops) (rhs : @rhs_t Rops) (tb : @ext Rops) s fuel u rows s',
  reachable rhs m fuelc o tb s -> is_fixed m = false ->
  (0 <= min_factor o <= 1)%R -> (0 <= max_factor o)%R -> (safety_factor o <= 1)%R -> (0 <= hstep s)%R ->
  step (solver_of m fuelc o rhs tb) fuel None (Some u) s = (Ret (RMany rows), s') ->
  Forall (fun r => gt_ext (fst r) u = false) rows.
Proof. exact C06_times_var. Qed.
Print Assumptions C06_no_pass_variable.
Example C06_ex :
  ext_lt (OT := QI) (Fin (qq (5 # 4))) (now ex_rk4) = false /\
  stepQ (step (sv_rk4 PInf) 9 None (Some (Fin (qq (5 # 4)))) ex_rk4) =
    Some [(1 # 2, [211 # 128]); (1, [44521 # 16384])]%Q /\
  reachable (E := EQ) rhs_exp RungeKutta4 0 default_options PInf ex_rk4.
Proof.
  split; [vm_compute; reflexivity|]. split; [vm_compute; reflexivity|].
  exists ex_rk4, 0, []. split; [exact ex_rk4_built | reflexivity].
Qed.

(** * C07  requests in the past *)
Theorem C07 {OT : Ops} {E : Env} : forall (sv : solver) fuel n (u : ext) (s : st),
  ext_lt u (now s) = true ->
  step sv fuel n (Some u) s = (Ret (RMany []), s) /\ skip sv fuel n (Some u) s = (Ret tt, s).
Proof. exact C07_lemma. Qed.
Print Assumptions C07.
Example C07_ex : ext_lt (OT := QI) (Fin (qq (3 # 4))) (now ex_ab3) = true.
Proof. reflexivity. Qed.

(** * C08  out-of-range requests change nothing *)
Theorem C08 {OT : Ops} {E : Env} : forall (sv : solver) fuel n (u : ext) (s : st),
  ext_lt u (now s) = false -> ext_gt u (s_bound sv) = true ->
  step sv fuel n (Some u) s = (Raise ValueError, s) /\
  skip sv fuel n (Some u) s = (Raise ValueError, s).
Proof. exact C08_step. Qed.
Print Assumptions C08.
(** run(t) is run_events(t, []) *)
Theorem C08_run {OT : Ops} {E : Env} {L : OrdLaws OT} :
  forall (m : meth) fuelc o (rhs : rhs_t) (tb : ext) fuel t t' evs s x,
  ordered t t' -> In x t -> leb (buf_t0 (cache s)) (buf_t0 (cache s)) = true ->
  ltb x (buf_t0 (cache s)) = true \/ gt_ext x tb = true ->
  run_events (solver_of m fuelc o rhs tb) fuel t evs s = (Raise ValueError, s).
Proof. exact (fun m fuelc o rhs tb => @C08_lemma OT E m fuelc o rhs tb L). Qed.
Print Assumptions C08_run.
Example C08_ex :
  ext_gt (OT := QI) (Fin (qq 3)) (Fin (qq 2)) = true /\
  ordered (E := EQ) [qq 5; qq 1] [qq 1; qq 5] /\ gt_ext (OT := QI) (qq 5) (Fin (qq 2)) = true /\
  leb (Ops := QI) (buf_t0 (cache ex_ab3)) (buf_t0 (cache ex_ab3)) = true.
Proof.
  split; [reflexivity|]. split; [|split; reflexivity]. right. split; [reflexivity|].
  split; [|split; reflexivity]. apply Permutation.perm_swap.
Qed.

(** * C09  RuntimeError of step(n)
    The first disjunct is the documented reason (fewer than n steps fit).  The
    second is a RuntimeError raised by the step function itself (an implicit
    step that does not converge, or the user's right-hand side). *)
Theorem C09 {OT : Ops} {E : Env} : forall (sv : solver) fuel n (s s' : st), (0 <= n)%Z ->
  step sv fuel (Some n) None s = (Raise RuntimeError, s') <->
  (exists l, chain sv (s_bound sv) s l s' /\ (Z.of_nat (length l) < n)%Z /\ would_pass (s_bound sv) s')
  \/ (exists l s1, chain sv (s_bound sv) s l s1 /\ (Z.of_nat (length l) < n)%Z
        /\ ~ would_pass (s_bound sv) s1 /\ s_core sv s1 = (Raise RuntimeError, s')).
Proof. exact C09_lemma. Qed.
Print Assumptions C09.
Theorem C09_return {OT : Ops} {E : Env} : forall (sv : solver) fuel n (s s' : st) rows, (0 <= n)%Z ->
  step sv fuel (Some n) None s = (Ret (RMany rows), s') <->
  exists l, chain sv (s_bound sv) s l s' /\ Z.of_nat (length l) = n /\ rows = map row l.
Proof. exact C09_success. Qed.
Print Assumptions C09_return.
Example C09_ex :
  match step (sv_rk4 (Fin (qq (5 # 4)))) 0 (Some 4%Z) None ex_rk4 with
  | (Raise RuntimeError, s') => this (now s') | _ => 99%Q end = 1%Q.
Proof. vm_compute. reflexivity. Qed.

(** * C10  fixed step classes walk the grid *)
Theorem C10 {OT : Ops} {E : Env} : forall (m : meth) fuelc o (rhs : rhs_t) (tb : ext) s fuel n u rows s',
  reachable rhs m fuelc o tb s -> is_fixed m = true ->
  step (solver_of m fuelc o rhs tb) fuel n u s = (Ret (RMany rows), s') ->
  map fst rows = map (fun k => grid (now s) (hstep s) (S k)) (seq 0 (length rows)) /\
  now s' = grid (now s) (hstep s) (length rows) /\ hstep s' = hstep s.
Proof. exact C10_lemma. Qed.
Print Assumptions C10.
Theorem C10_calls {OT : Ops} {E : Env} : forall (m : meth) fuelc o (rhs : rhs_t) (tb : ext) s0 fuel cs,
  built rhs m s0 -> is_fixed m = true ->
  hstep (session (solver_of m fuelc o rhs tb) fuel cs s0) = hstep s0 /\
  exists k, now (session (solver_of m fuelc o rhs tb) fuel cs s0) = grid (now s0) (hstep s0) k.
Proof. exact C10_session. Qed.
Print Assumptions C10_calls.
Theorem C10_exact {E : @Env Rops} :
  forall (m : @meth Rops) fuelc (o : @options Rops) (rhs : @rhs_t Rops) (tb : @ext Rops) s fuel n u rows s',
  reachable rhs m fuelc o tb s -> is_fixed m = true ->
  step (solver_of m fuelc o rhs tb) fuel n u s = (Ret (RMany rows), s') ->
  map fst rows = map (fun k => now s + INR (S k) * hstep s)%R (seq 0 (length rows)) /\
  now s' = (now s + INR (length rows) * hstep s)%R.
Proof. exact C10_R. Qed.
Print Assumptions C10_exact.
Example C10_ex :
  stepQ (step (sv_rk4 PInf) 9 (Some 3%Z) None ex_rk4) =
    Some [(1 # 2, [211 # 128]); (1, [44521 # 16384]); (3 # 2, [9393931 # 2097152])]%Q /\
  is_fixed (RungeKutta4 (OT := QI)) = true.
Proof. split; vm_compute; reflexivity. Qed.

(** * C11  termination for a positive step (exact arithmetic) *)
Theorem C11 {E : @Env Rops} :
  forall (m : @meth Rops) fuelc (o : @options Rops) (rhs : @rhs_t Rops) (tb : @ext Rops) s (x : R),
  reachable rhs m fuelc o tb s -> is_fixed m = true -> (0 < hstep s)%R ->
  (now s <= x)%R -> @gt_ext Rops x tb = false ->
  steps_return (solver_of m fuelc o rhs tb) (@Fin Rops x) s ->
  exists n, (INR n * hstep s <= x - now s < INR (S n) * hstep s)%R /\
  exists rows s', length rows = n /\
  forall fuel, n < fuel ->
     step (solver_of m fuelc o rhs tb) fuel None (Some (@Fin Rops x)) s = (Ret (RMany rows), s') /\
     skip (solver_of m fuelc o rhs tb) fuel None (Some (@Fin Rops x)) s = (Ret tt, s').
Proof. exact C11_step. Qed.
Print Assumptions C11.
(** the last hypothesis of C11 holds whenever the right-hand side returns and the class is explicit *)
Theorem C11_explicit {E : @Env Rops} :
  forall (m : @meth Rops) fuelc (o : @options Rops) (rhs : @rhs_t Rops) (tb : @ext Rops) b s,
  explicit m -> total rhs -> steps_return (solver_of m fuelc o rhs tb) b s.
Proof. exact explicit_returns. Qed.
Print Assumptions C11_explicit.
(** run(ts) takes the least number n of steps that reaches max ts (or stops at t_bound) *)
Theorem C11_run {E : @Env Rops} :
  forall (m : @meth Rops) fuelc (o : @options Rops) (rhs : @rhs_t Rops) (tb : @ext Rops) s (ta : R) (tr : list R),
  reachable rhs m fuelc o tb s -> explicit m -> total rhs -> (0 < hstep s)%R ->
  in_order s -> is_sorted (OT := Rops) (ta :: tr) = true ->
  (forall x, In x (ta :: tr) -> (buf_t0 (cache s) <= x)%R /\ @gt_ext Rops x tb = false) ->
  exists N n rows s',
    (forall fuel, N <= fuel -> run (solver_of m fuelc o rhs tb) fuel (ta :: tr) s = (Ret rows, s')) /\
    now s' = (now s + INR n * hstep s)%R /\
    (n = 0 \/ (now s + INR (n - 1) * hstep s < last (ta :: tr) 0)%R) /\
    ((last (ta :: tr) 0 <= now s')%R \/ would_pass tb s').
Proof. exact C11_run'. Qed.
Print Assumptions C11_run.
Example C11_ex : let s := r_rk4 (1 / 10)%R in
  reachable (OT := Rops) (E := ER) rhs_exp RungeKutta4 0 default_options PInf s /\
  (0 < hstep s)%R /\ explicit (RungeKutta4 (OT := Rops)) /\ total (@rhs_exp Rops) /\ (now s <= 1)%R /\
  in_order (OT := Rops) s.
Proof. split; [apply r_rk4_reach|]. cbn. split; [lra|]. split; [exact I|]. split; [apply total_exp|]. split; [lra|].
  split; cbn; repeat (apply andb_true_intro; split); try reflexivity; apply Rleb_true; lra. Qed.

(** * C12  every accepted step size makes progress: false
    (a) h <= 0 is accepted and step(upto_t=x) never returns;
    (b) binary64: h = 1 > 0 is lost at t = 2^53 and step(upto_t = 2^53 + 2) never
    returns. *)
Theorem C12_refuted : 
  (forall (E : @Env Rops) (m : @meth Rops) fuelc (o : @options Rops) (rhs : @rhs_t Rops) (tb : @ext Rops) s (x : R) fuel rows s',
     reachable rhs m fuelc o tb s -> is_fixed m = true -> (hstep s <= 0)%R ->
     (now s <= x)%R -> @gt_ext Rops x tb = false ->
     step (solver_of m fuelc o rhs tb) fuel None (Some (@Fin Rops x)) s <> (Ret rows, s')) /\
  (forall pw, let FI := SFops pw in let EF := @env0 FI true in
     exists (rhs : @rhs_t FI) (s : @st FI) (x : @T FI),
     built (OT := FI) (E := EF) rhs ForwardEuler s /\ @ltb FI zero (hstep s) = true /\
     forall fuel, fst (step (solver_of (OT := FI) (E := EF) ForwardEuler 0 default_options rhs PInf)
                        fuel None (Some (Fin x)) s) = Loop).
Proof.
  exact (conj (fun E m fuelc o rhs tb s x fuel rows s' => @C12_neg E m fuelc o rhs tb s x fuel rows s')
   (fun pw => ex_intro _ (f_zero_rhs pw) (ex_intro _ (f_big pw) (ex_intro _ (ff pw (inject_Z (2 ^ 53 + 2)))
     (conj (f_big_built pw) (conj (proj1 (C12_f_lemma pw 0)) (fun fuel => proj2 (C12_f_lemma pw fuel)))))))).
Qed.
Print Assumptions C12_refuted.
Example C12_ex : let s := r_rk4 (-1)%R in
  reachable (OT := Rops) (E := ER) rhs_exp RungeKutta4 0 default_options PInf s /\
  (hstep s <= 0)%R /\ (now s <= 1)%R.
Proof. split; [apply r_rk4_reach|]. cbn. lra. Qed.
