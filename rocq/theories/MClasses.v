(** Coefficients of the 26 solver classes and construction of instances:
    nbkode/multistep/{adams_bashforth,adams_moulton,bdf,core}.py, nbkode/euler.py,
    nbkode/runge_kutta/{core,explicit}.py, nbkode/core.py (__init__). *)
From Coq Require Import List ZArith QArith Bool Arith.
From Verif Require Import Base Scalar Vec MBuffer MZeros MSteps MApi MDop853.
Import ListNotations.
Local Open Scope sc_scope.

Section Classes.
Context {OT : Ops} {E : Env}.

(** The numerical content of a concrete solver class. *)
Inductive meth : Type :=
| ExplMS (A B : list T)                      (* ExplicitMultistep *)
| ImplMS (A B : list T) (Bn : T)             (* ImplicitMultistep *)
| Erk (A : list (list T)) (B C : list T)     (* ERK *)
| Fsal (A : list (list T)) (B C Ew : list T) (order : Z) (P : list (list T))
| Dop (A : list (list T)) (B C E5 E3 : list T) (order : Z)
      (D Afull : list (list T)) (Cfull : list T).

Definition lits : list Q -> list T := map lit.
Definition litm : list (list Q) -> list (list T) := map lits.
(** [np.array(l) / d]: integer arrays divided by an integer *)
Definition over (l : list Z) (d : positive) : list T := map (fun z => lit (z # d)) l.

(** adams_bashforth.py:10-14 / adams_moulton.py:27-31: zeros, then A[-1] = -1 *)
Definition adams_A (B : list T) : list T :=
  list_set (map (fun _ => zero) B) (length B - 1) (lit (-1 # 1)).
(** bdf.py:10-12 *)
Definition bdf_B (A : list T) : list T := map (fun _ => zero) A.

(** adams_bashforth.py:17-61 *)
Definition ab (B : list T) : meth := ExplMS (adams_A B) B.
Definition AB1 := ab (lits [1%Q]).
Definition AB2 := ab (over [3; -1]%Z 2).
Definition AB3 := ab (over [23; -16; 5]%Z 12).
Definition AB4 := ab (over [55; -59; 37; -9]%Z 24).
Definition AB5 := ab (over [1901; -2774; 2616; -1274; 251]%Z 720).
(** adams_moulton.py:34-56 *)
Definition am (B : list T) (Bn : Q) : meth := ImplMS (adams_A B) B (lit Bn).
Definition AM1 := am (lits [0%Q]) 1.
Definition AM2 := am (lits [1 # 2]%Q) (1 # 2).
Definition AM3 := am (lits [-1 # 12; 2 # 3]%Q) (5 # 12).
Definition AM4 := am (over [19; -5; 1]%Z 24) (9 # 24).
Definition AM5 := am (over [646; -264; 106; -19]%Z 720) (251 # 720).
(** euler.py:19-36: subclasses that only change the name, alias and group *)
Definition ForwardEuler := AB1.
Definition BackwardEuler := AM1.
(** bdf.py:15-42 *)
Definition bdf (A : list T) (Bn : Q) : meth := ImplMS A (bdf_B A) (lit Bn).
Definition BDF1 := bdf (lits [-1 # 1]%Q) 1.
Definition BDF2 := bdf (over [1; -4]%Z 3) (2 # 3).
Definition BDF3 := bdf (over [-2; 9; -18]%Z 11) (6 # 11).
Definition BDF4 := bdf (over [3; -16; 36; -48]%Z 25) (12 # 25).
Definition BDF5 := bdf (over [-12; 75; -200; 300; -300]%Z 137) (60 # 137).
Definition BDF6 := bdf (over [10; -72; 225; -400; 450; -360]%Z 147) (60 # 147).

(** explicit.py:102-105 *)
Definition Runge2 := Erk (litm [[0; 0]; [1 # 2; 0]]%Q) (lits [0; 1]%Q) (lits [0; 1 # 2]%Q).
(** explicit.py:108-111 *)
Definition Runge3 :=
  Erk (litm [[0; 0; 0; 0]; [1 # 2; 0; 0; 0]; [0; 1; 0; 0]; [0; 0; 1; 0]]%Q)
      (over [1; 4; 0; 1]%Z 6) (lits [0; 1 # 2; 1; 1]%Q).
(** explicit.py:114-117 *)
Definition Heun3 :=
  Erk (map (fun r => over r 3) [[0; 0; 0]; [1; 0; 0]; [0; 2; 0]]%Z)
      (over [1; 0; 3]%Z 4) (over [0; 1; 2]%Z 3).
(** explicit.py:120-123 *)
Definition RungeKutta4 :=
  Erk (litm [[0; 0; 0; 0]; [1 # 2; 0; 0; 0]; [0; 1 # 2; 0; 0]; [0; 0; 1; 0]]%Q)
      (over [1; 2; 2; 1]%Z 6) (over [0; 1; 1; 2]%Z 2).
(** explicit.py:126-129 *)
Definition RungeKutta3_8 :=
  Erk (litm [[0; 0; 0; 0]; [1 # 3; 0; 0; 0]; [-1 # 3; 1; 0; 0]; [1; -1; 1; 0]]%Q)
      (over [1; 3; 3; 1]%Z 8) (over [0; 1; 2; 3]%Z 3).

(** explicit.py:54-58 FSAL.E: E = -B2; E[:-1] += B *)
Definition fsal_E (B B2 : list T) : list T :=
  let e := map opp B2 in
  map2 add (removelast e) B ++ match last_opt e with Some x => [x] | None => [] end.

(** explicit.py:132-151 *)
Definition rk23_B : list T := lits [2 # 9; 1 # 3; 4 # 9]%Q.
Definition rk23_B2 : list T := lits [7 # 24; 1 # 4; 1 # 3; 1 # 8]%Q.
Definition RungeKutta23 :=
  Fsal (litm [[0; 0; 0]; [1 # 2; 0; 0]; [0; 3 # 4; 0]]%Q)
       rk23_B (lits [0; 1 # 2; 3 # 4]%Q) (fsal_E rk23_B rk23_B2) 2
       (litm [[1; -4 # 3; 5 # 9]; [0; 1; -2 # 3]; [0; 4 # 3; -8 # 9]; [0; -1 # 1; 1]]%Q).

(** explicit.py:168-243 *)
Definition RungeKutta45 :=
  Fsal (litm [[0; 0; 0; 0; 0; 0];
              [1 # 5; 0; 0; 0; 0; 0];
              [3 # 40; 9 # 40; 0; 0; 0; 0];
              [44 # 45; -56 # 15; 32 # 9; 0; 0; 0];
              [19372 # 6561; -25360 # 2187; 64448 # 6561; -212 # 729; 0; 0];
              [9017 # 3168; -355 # 33; 46732 # 5247; 49 # 176; -5103 # 18656; 0]]%Q)
       (lits [35 # 384; 0; 500 # 1113; 125 # 192; -2187 # 6784; 11 # 84]%Q)
       (lits [0; 1 # 5; 3 # 10; 4 # 5; 8 # 9; 1]%Q)
       (lits [-71 # 57600; 0; 71 # 16695; -71 # 1920; 17253 # 339200; -22 # 525; 1 # 40]%Q)
       4
       (litm [[1; -8048581381 # 2820520608; 8663915743 # 2820520608;
                -12715105075 # 11282082432];
              [0; 0; 0; 0];
              [0; 131558114200 # 32700410799; -68118460800 # 10900136933;
                87487479700 # 32700410799];
              [0; -1754552775 # 470086768; 14199869525 # 1410260304;
                -10690763975 # 1880347072];
              [0; 127303824393 # 49829197408; -318862633887 # 49829197408;
                701980252875 # 199316789632];
              [0; -282668133 # 205662961; 2019193451 # 616988883;
                -1453857185 # 822651844];
              [0; 40617522 # 29380423; -110615467 # 29380423; 69997945 # 29380423]]%Q).

(** dop853_coefficients.py:127 B = A[12, :12] *)
Definition dop_B : list T := firstn dop_n_stages (lits (nth dop_n_stages dop_A [])).
(** dop853_coefficients.py:129-133 *)
Definition dop_E3 : list T :=
  fold_left (fun e p => list_set e (fst p) (nth (fst p) e zero - lit (snd p)))
            dop_E3_sub (dop_B ++ [zero]).
(** explicit.py:282-304 *)
Definition DOP853 :=
  Dop (map (firstn 12) (firstn 12 (litm dop_A))) dop_B (firstn 12 (lits dop_C))
      (lits dop_E5) dop_E3 7 (litm dop_D) (litm dop_A) (lits dop_C).

(** The step and interpolation functions of a class (core.py:172-184 plus the
    _interpolate overrides).  [fuel] bounds the trial loop of variable step
    methods. *)
Definition core_of (m : meth) (fuel : nat) (o : options) (rhs : rhs_t) : M st unit :=
  match m with
  | ExplMS A B => core_expl_ms A B rhs
  | ImplMS A B Bn => core_impl_ms A B Bn rhs
  | Erk A B C => core_erk A B C rhs
  | Fsal A B C Ew order P =>
      core_fsal fuel A B C (norm_fsal Ew) o (error_exponent order) rhs
  | Dop A B C E5 E3 order _ _ _ =>
      core_fsal fuel A B C (norm_dop853 E5 E3) o (error_exponent order) rhs
  end.
Definition interp_of (m : meth) (rhs : rhs_t) : T -> M st arr :=
  match m with
  | Fsal _ _ _ _ _ P => interp_rk P
  | Dop _ _ _ _ _ _ D Af Cf => interp_dop dop_n_stages D Af Cf rhs
  | _ => interp_default
  end.
Definition solver_of (m : meth) (fuel : nat) (o : options) (rhs : rhs_t) (tb : ext) : solver :=
  mksolver (core_of m fuel o rhs) (interp_of m rhs) tb.

(** LEN_HISTORY: multistep/core.py:33-35, runge_kutta/core.py:16 *)
Definition len_history (m : meth) : nat :=
  match m with
  | ExplMS A _ | ImplMS A _ _ => ms_len A
  | _ => 2
  end.
(** stages: runge_kutta/core.py:47-49, explicit.py:50-52 (0: no K) *)
Definition n_stages_of (m : meth) : nat :=
  match m with
  | ExplMS _ _ | ImplMS _ _ _ => 0
  | Erk A _ _ => length A
  | Fsal A _ _ _ _ _ => length A + 1
  | Dop A _ _ _ _ _ _ _ _ => length A + 1
  end.

(** What np.empty happens to contain: the history buffer and K. *)
Record garbage : Type := mkgarb { g_buf : buffer; g_K : list vec }.

(** core.py:106-141 Solver.__init__ (rhs already combined with params) *)
Definition init_base (m : meth) (g : garbage) (rhs : rhs_t) (t0 : T) (y0 : vec)
    (h : option T) : outcome st :=
  let! f0 := rhs t0 y0 in
  Ret (mkst (buffer_init (len_history m) (g_buf g) t0 y0 f0)
            match h with Some x => x | None => one end
            (g_K g) (mkitp [] [] zero)).

(** The two signatures a user's right-hand side may have (core.py:84-88). *)
Inductive user_rhs : Type :=
| Rhs2 (f : T -> vec -> outcome vec)
| Rhs3 (f : T -> vec -> vec -> outcome vec).
(** core.py:118-130: without params the callable is used as it is, with params
    they are its third argument; a callable of the other arity raises TypeError
    when it is called.  (A contiguous params array is not copied; it is taken
    not to be modified after the construction.) *)
Definition make_rhs (u : user_rhs) (params : option vec) : rhs_t :=
  match params, u with
  | None, Rhs2 f => f
  | Some p, Rhs3 f => fun t y => f t y p
  | _, _ => fun _ _ => Raise TypeError
  end.

(** runge_kutta/core.py:25-27, fixed step Runge-Kutta instances *)
Definition init_rk (m : meth) (g : garbage) (rhs : rhs_t) (t0 : T) (y0 : vec)
    (h : option T) : outcome st :=
  init_base m g rhs t0 y0 h.

(** core.py:687-706 VariableStep.__init__ followed by the interpolator's
    construction (explicit.py:153-155, 308-318).  [sel] is scipy's
    select_initial_step.  validate_max_step raises ValueError for max_step <= 0;
    validate_tol raises ValueError for a negative atol (its clipping of rtol is
    discarded, core.py:694). *)
Definition init_var (m : meth) (g : garbage) (rhs : rhs_t) (t0 : T) (y0 : vec)
    (o : options) (sel : T -> vec -> vec -> outcome T) (first_step : option T)
    : outcome st :=
  let! s := init_base m g rhs t0 y0 None in
  if match max_step o with Fin x => x <=? zero | PInf => false end
  then Raise ValueError
  else if atol o <? zero then Raise ValueError
  else
    let! h := match first_step with
              | Some h => Ret h
              | None => sel (buf_t (cache s)) (buf_y (cache s)) (buf_f (cache s))
              end in
    let s := set_h h s in
    match m with
    | Fsal _ _ _ _ _ P => Ret (rk_update P s)
    | Dop _ _ _ _ _ _ D Af Cf =>
        match dop_update dop_n_stages D Af Cf rhs s with
        | (Ret _, s') => Ret s'
        | (Raise e, _) => Raise e
        | (Loop, _) => Loop
        end
    | _ => Ret s
    end.

(** The first stepper of a multistep method: how an instance of it is built from
    (rhs, t, y[, h]). *)
Inductive first_stepper : Type :=
| FSNone
| FSFixed (mk : T -> vec -> T -> outcome (solver * st))
| FSVar (mk : T -> vec -> outcome (solver * st)).

(** multistep/core.py:57-59 *)
Fixpoint fs_fixed_loop (n : nat) (sv : solver) (s : st) (c : buffer) : outcome buffer :=
  match n with
  | O => Ret c
  | S n' =>
      match step sv 0 None None s with
      | (Ret _, s') =>
          fs_fixed_loop n' sv s'
            (push c (buf_t (cache s')) (buf_y (cache s')) (buf_f (cache s')))
      | (Raise e, _) => Raise e
      | (Loop, _) => Loop
      end
  end.
(** multistep/core.py:64-65 *)
Fixpoint fs_push_all (rhs : rhs_t) (rows : list (T * vec)) (c : buffer) : outcome buffer :=
  match rows with
  | [] => Ret c
  | (t, y) :: rest =>
      let! f := rhs t y in fs_push_all rhs rest (push c t y f)
  end.

Definition ms_order (m : meth) : nat :=
  match m with ExplMS A _ | ImplMS A _ _ => length A | _ => 0 end.

(** multistep/core.py:37-65 Multistep.__init__ *)
Definition init_ms (m : meth) (g : garbage) (rhs : rhs_t) (t0 : T) (y0 : vec)
    (h : option T) (fs : first_stepper) (fuel : nat) : outcome st :=
  let! s := init_base m g rhs t0 y0 h in
  let c := cache s in
  let no_stepper :=
    Ret (set_cache (iterate (len_history m - 1)
                      (fun c => push c (buf_t c) (buf_y c) (buf_f c)) c) s) in
  if Nat.eqb (ms_order m) 1 then no_stepper
  else
    match fs with
    | FSNone => no_stepper
    | FSFixed mk =>
        let! p := mk (buf_t c) (buf_y c) (hstep s) in
        let! c' := fs_fixed_loop (ms_order m - 1) (fst p) (snd p) c in
        Ret (set_cache c' s)
    | FSVar mk =>
        let! p := mk (buf_t c) (buf_y c) in
        match run (fst p) fuel
                (map (fun i => ofnat i * hstep s) (seq 1 (ms_order m - 1))) (snd p) with
        | (Ret rows, _) =>
            let! c' := fs_push_all rhs rows c in
            Ret (set_cache c' s)
        | (Raise e, _) => Raise e
        | (Loop, _) => Loop
        end
    end.
End Classes.
