(** Model of the user-facing API of nbkode/core.py (step, skip, run, run_events,
    interpolate) and of nbkode/event_handler.py. *)
From Coq Require Import List ZArith QArith Bool Arith.
From Verif Require Import Base Scalar Vec MBuffer MZeros MSteps.
Import ListNotations.
Local Open Scope sc_scope.

Section Api.
Context {OT : Ops} {E : Env}.

(** What the API methods use of a solver instance: the class's unguarded step
    [step(rhs, cache, h, *args)] (core.py:174), [_interpolate] (core.py:579 or
    overridden) and t_bound (core.py:116). *)
Record solver : Type := mksolver {
  s_core : M st unit;
  s_interp : T -> M st arr;
  s_bound : ext }.

(** [x < b] and [b1 > b2] for possibly infinite times *)
Definition ext_lt (b : ext) (x : T) : bool :=
  match b with Fin t => t <? x | PInf => false end.
Definition ext_gt (a b : ext) : bool :=
  match a, b with
  | Fin x, _ => gt_ext x b
  | PInf, Fin _ => true
  | PInf, PInf => false
  end.

Variable sv : solver.

(** core.py:176-182: the guarded step shared by all solvers *)
Definition step_ (t_end : ext) : M st bool :=
  fun s =>
    if gt_ext (buf_t (cache s) + hstep s) t_end then (Ret false, s)
    else (do _ <- s_core sv ;; ret true) s.

(** core.py:208-212 *)
Definition check_time (t : ext) : M st unit :=
  if ext_gt t (s_bound sv) then raise ValueError else ret tt.

(** core.py:483-508 _steps.  The recorded states are copies. *)
Fixpoint steps_ (fuel : nat) (t_end : ext) : M st (list (T * vec)) :=
  match fuel with
  | O => fun s => (Loop, s)
  | S fuel' =>
      do ok <- step_ t_end ;;
      if ok then
        (do s <- get ;;
         let r := (buf_t (cache s), buf_y (cache s)) in
         do rest <- steps_ fuel' t_end ;;
         ret (r :: rest))
      else ret []
  end.

(** core.py:510-537 _nsteps: returns the rows written and the stop condition *)
Fixpoint nsteps_ (n : nat) (t_end : ext) : M st (list (T * vec) * bool) :=
  match n with
  | O => ret ([], false)
  | S n' =>
      do ok <- step_ t_end ;;
      if ok then
        (do s <- get ;;
         let r := (buf_t (cache s), buf_y (cache s)) in
         do p <- nsteps_ n' t_end ;;
         ret (r :: fst p, snd p))
      else ret ([], true)
  end.

(** core.py:539-554 _skip *)
Fixpoint skip_ (fuel : nat) (t_end : ext) : M st unit :=
  match fuel with
  | O => fun s => (Loop, s)
  | S fuel' =>
      do ok <- step_ t_end ;;
      if ok then skip_ fuel' t_end else ret tt
  end.

(** core.py:556-575 _nskip *)
Fixpoint nskip_ (n : nat) (t_end : ext) : M st bool :=
  match n with
  | O => ret false
  | S n' =>
      do ok <- step_ t_end ;;
      if ok then nskip_ n' t_end else ret true
  end.

(** The values step() can return: None, the pair of the no-argument form (the
    state is a view of the history), the recorded arrays, or the pair of empty
    arrays of core.py:244. *)
Inductive step_ret : Type :=
| RNone
| ROne (t : T) (y : arr)
| RMany (rows : list (T * vec)).

(** core.py:214-267 step.  n is a Python int; a negative n makes np.empty raise
    ValueError (core.py:527). *)
Definition step (fuel : nat) (n : option Z) (upto_t : option ext) : M st step_ret :=
  fun s =>
    match upto_t with
    | Some u => if ext_lt u (buf_t (cache s)) then (Ret (RMany []), s) else
        match n with
        | None =>
            (do _ <- check_time u ;;
             do rows <- steps_ fuel u ;;
             ret (RMany rows)) s
        | Some k =>
            (do _ <- check_time u ;;
             if (k <? 0)%Z then raise ValueError else
             do p <- nsteps_ (Z.to_nat k) u ;;
             ret (RMany (fst p))) s
        end
    | None =>
        match n with
        | None =>
            (do ok <- step_ (s_bound sv) ;;
             if ok then
               (do s' <- get ;;
                ret (ROne (buf_t (cache s')) (CacheRow (length (ys (cache s')) - 1))))
             else ret RNone) s
        | Some k =>
            (if (k <? 0)%Z then raise ValueError else
             do p <- nsteps_ (Z.to_nat k) (s_bound sv) ;;
             if snd p then raise RuntimeError else ret (RMany (fst p))) s
        end
    end.

(** core.py:269-313 skip.  range(n) of a negative n is empty. *)
Definition skip (fuel : nat) (n : option Z) (upto_t : option ext) : M st unit :=
  fun s =>
    match upto_t with
    | Some u => if ext_lt u (buf_t (cache s)) then (Ret tt, s) else
        match n with
        | None => (do _ <- check_time u ;; skip_ fuel u) s
        | Some k =>
            (do _ <- check_time u ;;
             do _ <- nskip_ (Z.to_nat k) u ;; ret tt) s
        end
    | None =>
        match n with
        | None => (do _ <- nskip_ 1 (s_bound sv) ;; ret tt) s
        | Some k =>
            (do stop <- nskip_ (Z.to_nat k) (s_bound sv) ;;
             if stop then raise RuntimeError else ret tt) s
        end
    end.

(** core.py:449-472 interpolate *)
Definition interpolate (t : T) : M st arr :=
  fun s =>
    if negb ((buf_t0 (cache s) <=? t) && (t <=? buf_t (cache s)))
    then (Raise ValueError, s)
    else s_interp sv t s.

(** core.py:614-616 / 638-640: [while cache.t < ti: if not step(...): return] —
    false when a step was refused *)
Fixpoint run_until (fuel : nat) (ti : T) : M st bool :=
  fun s =>
    if buf_t (cache s) <? ti then
      match fuel with
      | O => (Loop, s)
      | S fuel' =>
          (do ok <- step_ (s_bound sv) ;;
           if ok then run_until fuel' ti else ret false) s
      end
    else (Ret true, s).

(** core.py:617 / 405: the interpolated value copied into the output array *)
Definition interp_copy (ip : T -> M st arr) (ti : T) : M st vec :=
  do a <- ip ti ;;
  do s <- get ;;
  ret (deref (cache s) a).

(** core.py:598-619 _run_eval: the rows of y_out that are returned; the times
    returned are the same number of leading entries of t_eval. *)
Fixpoint run_eval_ (fuel : nat) (t_eval : list T) : M st (list vec) :=
  match t_eval with
  | [] => ret []
  | ti :: rest =>
      do ok <- run_until fuel ti ;;
      if ok then
        (do y <- interp_copy (s_interp sv) ti ;;
         do ys <- run_eval_ fuel rest ;;
         ret (y :: ys))
      else ret []
  end.

(** ** Events (event_handler.py) *)

(** event_handler.py:95-129 Event: [ev_ts]/[ev_ys] are self.t / self.y in order
    of insertion; the states may be views of the history. *)
Record event : Type := mkevent {
  ev_fun : T -> vec -> outcome T;
  ev_term : bool;
  ev_dir : Z;
  ev_last_t : T;
  ev_last_v : T;
  ev_ts : list T;
  ev_ys : list arr }.

(** A user's event callable with its optional attributes. *)
Record user_event : Type := mkuev {
  ue_fun : T -> vec -> outcome T;
  ue_terminal : option bool;
  ue_direction : option T }.

(** event_handler.py:251: int(np.sign(direction)); int(nan) raises ValueError *)
Definition dir_of (d : option T) : outcome Z :=
  match d with
  | None => Ret 0%Z
  | Some x => if zero <? x then Ret 1%Z
              else if x <? zero then Ret (-1)%Z
              else if x =? zero then Ret 0%Z
              else Raise ValueError
  end.

(** event_handler.py:235-260 build_handler and Event.__init__ 121-129 *)
Definition build_event (t : T) (y : vec) (u : user_event) : outcome event :=
  let! d := dir_of (ue_direction u) in
  let! v := ue_fun u t y in
  Ret (mkevent (ue_fun u)
         match ue_terminal u with Some b => b | None => false end d t v [] []).
Definition build_handler (evs : list user_event) (t : T) (y : vec) : outcome (list event) :=
  omapM (build_event t y) evs.

(** event_handler.py:33-57 event_at_sol *)
Definition event_at_sol (f : T -> vec -> outcome T) (t : T) : M st T :=
  do y <- interp_copy (s_interp sv) t ;;
  lift (f t y).

(** event_handler.py:137-145 *)
Definition ev_trigger (dir : Z) (last_value value : T) : bool :=
  let up := (last_value <=? zero) && (zero <=? value) in
  let down := (zero <=? last_value) && (value <=? zero) in
  (up && (0 <? dir)%Z) || (down && (dir <? 0)%Z) || ((up || down) && (dir =? 0)%Z).

(** event_handler.py:131-166 Event.evaluate: returns [trigger and is_terminal]
    and the updated event. *)
Definition ev_evaluate (e : event) : M st (bool * event) :=
  fun s =>
    let t := buf_t (cache s) in
    (do value <- lift (ev_fun e t (buf_y (cache s))) ;;
     let trigger := ev_trigger (ev_dir e) (ev_last_v e) value in
     do rec <-
       (if trigger then
          (do root <- (if value =? zero then ret t
                       else bisect (event_at_sol (ev_fun e)) (ev_last_t e) t
                              default_tol zero 50) ;;
           if match last_opt (ev_ts e) with
              | Some r => r =? root
              | None => false
              end
           then ret (ev_ts e, ev_ys e)
           else (do a <- s_interp sv root ;;
                 ret (ev_ts e ++ [root], ev_ys e ++ [a])))
        else ret (ev_ts e, ev_ys e)) ;;
     ret (trigger && ev_term e,
          mkevent (ev_fun e) (ev_term e) (ev_dir e) t value (fst rec) (snd rec))) s.

(** event_handler.py:168-172 Event.last_event; None is the (nan, empty) pair *)
Definition ev_last (e : event) : option (T * arr) :=
  match last_opt (ev_ts e), last_opt (ev_ys e) with
  | Some t, Some y => Some (t, y)
  | _, _ => None
  end.

(** event_handler.py:223-232 EventHandler.evaluate.  [t > min_t] with min_t =
    -inf is read as "t is not NaN" (t = -inf cannot be a recorded time). *)
Fixpoint handler_evaluate (evs : list event) (last : option (T * arr))
  : M st (bool * list event * option (T * arr)) :=
  match evs with
  | [] => ret (false, [], last)
  | e :: rest =>
      do r <- ev_evaluate e ;;
      let '(fired, e') := r in
      let last' := if fired then
                     match ev_last e' with
                     | Some (t, y) => if t <=? t then Some (t, y) else last
                     | None => last
                     end
                   else last in
      do r2 <- handler_evaluate rest last' ;;
      let '(term, rest', last'') := r2 in
      ret (fired || term, e' :: rest', last'')
  end.

(** handler state: the events and EventHandler.last_event *)
Definition hstate : Type := (list event * option (T * arr))%type.

(** core.py:638-644: the while loop with events.  Result: [None] when the target
    time was reached, [Some None] when a step was refused, [Some (Some (t, y))]
    when a terminal event stopped the run (y copied into the output array). *)
Fixpoint run_until_ev (fuel : nat) (ti : T) (hs : hstate)
  : M st (option (option (T * vec)) * hstate) :=
  fun s =>
    if buf_t (cache s) <? ti then
      match fuel with
      | O => (Loop, s)
      | S fuel' =>
          (do ok <- step_ (s_bound sv) ;;
           if ok then
             (do r <- handler_evaluate (fst hs) (snd hs) ;;
              let '(term, evs', last') := r in
              if term then
                match last' with
                | Some (t, a) =>
                    (do s' <- get ;;
                     ret (Some (Some (t, deref (cache s') a)), (evs', last')))
                | None => raise ValueError (* empty(0) into a row of y_out *)
                end
              else run_until_ev fuel' ti (evs', last'))
           else ret (Some None, hs)) s
      end
    else (Ret (None, hs), s).

(** core.py:621-647 _run_eval_events: returned rows (t, y) and final handler *)
Fixpoint run_eval_events_ (fuel : nat) (t_eval : list T) (hs : hstate)
  : M st (list (T * vec) * hstate) :=
  match t_eval with
  | [] => ret ([], hs)
  | ti :: rest =>
      do r <- run_until_ev fuel ti hs ;;
      match r with
      | (Some None, hs') => ret ([], hs')
      | (Some (Some ty), hs') => ret ([ty], hs')
      | (None, hs') =>
          do y <- interp_copy (s_interp sv) ti ;;
          do r2 <- run_eval_events_ fuel rest hs' ;;
          ret ((ti, y) :: fst r2, snd r2)
      end
  end.

(** core.py:387 *)
Fixpoint is_sorted (t : list T) : bool :=
  match t with
  | a :: ((b :: _) as t') => (a <=? b) && is_sorted t'
  | _ => true
  end.
(** np.max *)
Definition list_max (a : T) (t : list T) : T := fold_left npmax t a.

(** fancy indexing a[idx]: IndexError when an index is out of range *)
Definition fancy {A} (l : list A) (idx : list nat) : outcome (list A) :=
  omapM (fun i => match nth_error l i with Some x => Ret x | None => Raise IndexError end) idx.
(** np.argsort of an integer permutation, the inverse permutation *)
Definition inv_perm (idx : list nat) : list nat :=
  map (fun i => match List.find (fun j => Nat.eqb (nth j idx 0%nat) i) (seq 0 (length idx))
                with Some j => j | None => 0%nat end) (seq 0 (length idx)).

(** rows (ts, ys) plus t_events, y_events (the latter may contain views) *)
Record run_ret : Type := mkrun {
  rr_rows : list (T * vec);
  rr_tev : list (list T);
  rr_yev : list (list arr) }.

(** core.py:334-447 run_events; [events] is empty when None or falsy.  A float
    argument is a one-element list. *)
Definition run_events (fuel : nat) (t : list T) (events : list user_event) : M st run_ret :=
  fun s =>
    let sorted := is_sorted t in
    let ndx := np_argsort t in
    (do t <- (if sorted then ret t else lift (fancy t ndx)) ;;
     match t with
     | [] => raise IndexError                             (* t[0] *)
     | ta :: trest =>
         if ta <? buf_t0 (cache s) then raise ValueError else
         do _ <- check_time (Fin (list_max ta trest)) ;;
         let now := buf_t (cache s) in
         let t_old := List.filter (fun x => x <=? now) t in
         let t_run := List.filter (fun x => negb (x <=? now)) t in
         let any_old := match t_old with [] => false | _ => true end in
         do y_old <- mapM (fun x => interp_copy interpolate x) t_old ;;
         do res <-
           (match events with
            | [] =>
                do ys <- run_eval_ fuel t_run ;;
                ret (mkrun (combine t_run ys) [] [])
            | _ =>
                do s1 <- get ;;
                do evs <- lift (build_handler events (buf_t (cache s1)) (buf_y (cache s1))) ;;
                do r <- run_eval_events_ fuel t_run (evs, None) ;;
                ret (mkrun (fst r) (map ev_ts (fst (snd r))) (map ev_ys (fst (snd r))))
            end) ;;
         if any_old && match events with [] => false | _ => true end
         then raise AttributeError                        (* warnings.warning *)
         else
           let rows := combine t_old y_old ++ rr_rows res in
           if sorted then ret (mkrun rows (rr_tev res) (rr_yev res))
           else
             do rows <- lift (fancy rows (inv_perm ndx)) ;;
             ret (mkrun rows (rr_tev res) (rr_yev res))
     end) s.

(** core.py:315-332 run *)
Definition run (fuel : nat) (t : list T) : M st (list (T * vec)) :=
  do r <- run_events fuel t [] ;; ret (rr_rows r).
End Api.
