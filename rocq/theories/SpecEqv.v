(** Vocabulary of the theorems on corresponding problems: the same problem with
    another origin of time, or seen through a map of the states. *)
From Coq Require Import List ZArith Bool Arith.
From Verif Require Import Base Scalar Vec MBuffer MZeros MSteps MApi MClasses Spec SpecInst SpecRK.
Import ListNotations.

Section SpecEqv.
Context {OT : Ops}.
(** [f] maps times, [g] maps states; [ok] says which states are meant *)
Variables (f : T -> T) (g : vec -> vec) (ok : vec -> Prop).

Definition omap {A B} (h : A -> B) (o : outcome A) : outcome B :=
  match o with Ret a => Ret (h a) | Raise e => Raise e | Loop => Loop end.
Definition ext_map (b : ext) : ext := match b with Fin t => Fin (f t) | PInf => PInf end.

(** corresponding right-hand sides and event functions *)
Definition corr_rhs (rhs rhs' : rhs_t) : Prop :=
  forall t y, ok y -> rhs' (f t) (g y) = omap g (rhs t y).
Definition corr_event (u u' : user_event) : Prop :=
  (forall t y, ok y -> ue_fun u' (f t) (g y) = ue_fun u t y) /\
  ue_terminal u' = ue_terminal u /\ ue_direction u' = ue_direction u.

(** the same API call in terms of the other problem *)
Inductive corr_call : call -> call -> Prop :=
| cc_step n u : corr_call (CStep n u) (CStep n (option_map ext_map u))
| cc_skip n u : corr_call (CSkip n u) (CSkip n (option_map ext_map u))
| cc_run t : corr_call (CRun t) (CRun (map f t))
| cc_events t evs evs' : Forall2 corr_event evs evs' -> corr_call (CRunEvents t evs) (CRunEvents (map f t) evs')
| cc_interp t : corr_call (CInterpolate t) (CInterpolate (f t)).

(** corresponding histories *)
Definition corr_hist (b b' : buffer) : Prop :=
  ts b' = map f (ts b) /\ ys b' = map g (ys b) /\ fs b' = map g (fs b).

(** corresponding rows, arrays and results *)
Definition corr_row (r r' : T * vec) : Prop := r' = (f (fst r), g (snd r)).
Definition corr_arr (a a' : arr) : Prop :=
  match a, a' with
  | Own v, Own v' => v' = g v
  | CacheRow i, CacheRow i' => i' = i
  | _, _ => False
  end.
Inductive corr_out {A B} (R : A -> B -> Prop) : outcome A -> outcome B -> Prop :=
| co_ret a b : R a b -> corr_out R (Ret a) (Ret b)
| co_raise e : corr_out R (Raise e) (Raise e)
| co_loop : corr_out R Loop Loop.
Definition corr_run (r r' : run_ret) : Prop :=
  Forall2 corr_row (rr_rows r) (rr_rows r') /\ rr_tev r' = map (map f) (rr_tev r) /\
  Forall2 (Forall2 corr_arr) (rr_yev r) (rr_yev r').
Definition corr_step (r r' : step_ret) : Prop :=
  match r, r' with
  | RNone, RNone => True
  | ROne t y, ROne t' y' => t' = f t /\ corr_arr y y'
  | RMany l, RMany l' => Forall2 corr_row l l'
  | _, _ => False
  end.

(** instances that answer every call alike, up to [f] and [g]: same histories,
    same step size, and whatever is called next gives corresponding results or
    the same exception *)
Definition alike {E : Env} (sv sv' : solver) (fuel : nat) (s s' : st) : Prop :=
  corr_hist (cache s) (cache s') /\ hstep s' = hstep s /\
  (forall n u, corr_out corr_step (fst (step sv fuel n u s)) (fst (step sv' fuel n (option_map ext_map u) s'))) /\
  (forall n u, fst (skip sv' fuel n (option_map ext_map u) s') = fst (skip sv fuel n u s)) /\
  (forall t, corr_out (Forall2 corr_row) (fst (run sv fuel t s)) (fst (run sv' fuel (map f t) s'))) /\
  (forall t evs evs', Forall2 corr_event evs evs' ->
     corr_out corr_run (fst (run_events sv fuel t evs s)) (fst (run_events sv' fuel (map f t) evs' s'))) /\
  (forall t, corr_out corr_arr (fst (interpolate sv t s)) (fst (interpolate sv' (f t) s'))).

(** [twin cls rhs rhs' m s s']: two instances of class [m] built for
    corresponding problems, [s] for [rhs] from (t0, y0) and [s'] for [rhs'] from
    (f t0, g y0), with the same step size and corresponding first steppers.
    [cls] says which classes (of first steppers too) are meant.  The arrays that
    np.empty leaves uninitialised are unrelated in the two instances, except the
    stages of a variable step class, which its first interpolant is made of. *)
Inductive twin {E : Env} (cls : meth -> Prop) (rhs rhs' : rhs_t) : meth -> st -> st -> Prop :=
| twin_rk m gb gb' t0 y0 h s s' :
    cls m -> is_erk m -> shaped m -> garbage_ok m gb -> garbage_ok m gb' -> ok y0 ->
    init_rk m gb rhs t0 y0 h = Ret s -> init_rk m gb' rhs' (f t0) (g y0) h = Ret s' ->
    twin cls rhs rhs' m s s'
| twin_var m gb gb' t0 y0 o sel sel' first s s' :
    cls m -> is_fixed m = false -> garbage_ok m gb -> garbage_ok m gb' -> ok y0 ->
    g_K gb' = map g (g_K gb) -> Forall ok (g_K gb) ->
    (forall t y k, ok y -> ok k -> sel' (f t) (g y) (g k) = sel t y k) ->
    init_var m gb rhs t0 y0 o sel first = Ret s ->
    init_var m gb' rhs' (f t0) (g y0) o sel' first = Ret s' ->
    twin cls rhs rhs' m s s'
| twin_ms m gb gb' t0 y0 h fuel s s' :
    cls m -> is_multistep m -> garbage_ok m gb -> garbage_ok m gb' -> ok y0 ->
    init_ms m gb rhs t0 y0 h FSNone fuel = Ret s ->
    init_ms m gb' rhs' (f t0) (g y0) h FSNone fuel = Ret s' ->
    twin cls rhs rhs' m s s'
| twin_ms_fixed m gb gb' t0 y0 h fuel s s' m1 s1 s1' fuel1 o1 :
    cls m -> is_multistep m -> garbage_ok m gb -> garbage_ok m gb' -> ok y0 ->
    is_fixed m1 = true -> twin cls rhs rhs' m1 s1 s1' -> now s1 = t0 -> state s1 = y0 ->
    hstep s1 = match h with Some x => x | None => one end ->
    init_ms m gb rhs t0 y0 h
      (FSFixed (fun _ _ _ => Ret (solver_of m1 fuel1 o1 rhs PInf, s1))) fuel = Ret s ->
    init_ms m gb' rhs' (f t0) (g y0) h
      (FSFixed (fun _ _ _ => Ret (solver_of m1 fuel1 o1 rhs' PInf, s1'))) fuel = Ret s' ->
    twin cls rhs rhs' m s s'.

(** the constructors called for the two problems return twins, or raise the same *)
Definition twins_built {E : Env} (cls : meth -> Prop) (rhs rhs' : rhs_t) : Prop :=
  (forall m gb gb' t0 y0 h, cls m -> is_erk m -> shaped m -> garbage_ok m gb -> garbage_ok m gb' -> ok y0 ->
     corr_out (twin cls rhs rhs' m) (init_rk m gb rhs t0 y0 h) (init_rk m gb' rhs' (f t0) (g y0) h)) /\
  (forall m gb gb' t0 y0 o sel sel' first, cls m -> is_fixed m = false -> garbage_ok m gb -> garbage_ok m gb' -> ok y0 ->
     g_K gb' = map g (g_K gb) -> Forall ok (g_K gb) ->
     (forall t y k, ok y -> ok k -> sel' (f t) (g y) (g k) = sel t y k) ->
     corr_out (twin cls rhs rhs' m) (init_var m gb rhs t0 y0 o sel first) (init_var m gb' rhs' (f t0) (g y0) o sel' first)) /\
  (forall m gb gb' t0 y0 h fuel, cls m -> is_multistep m -> garbage_ok m gb -> garbage_ok m gb' -> ok y0 ->
     corr_out (twin cls rhs rhs' m) (init_ms m gb rhs t0 y0 h FSNone fuel) (init_ms m gb' rhs' (f t0) (g y0) h FSNone fuel)) /\
  (forall m gb gb' t0 y0 h fuel m1 s1 s1' fuel1 o1, cls m -> is_multistep m -> garbage_ok m gb -> garbage_ok m gb' -> ok y0 ->
     is_fixed m1 = true -> twin cls rhs rhs' m1 s1 s1' -> now s1 = t0 -> state s1 = y0 ->
     hstep s1 = match h with Some x => x | None => one end ->
     corr_out (twin cls rhs rhs' m)
       (init_ms m gb rhs t0 y0 h (FSFixed (fun _ _ _ => Ret (solver_of m1 fuel1 o1 rhs PInf, s1))) fuel)
       (init_ms m gb' rhs' (f t0) (g y0) h (FSFixed (fun _ _ _ => Ret (solver_of m1 fuel1 o1 rhs' PInf, s1'))) fuel)).
End SpecEqv.
