(** Model of the step functions: nbkode/multistep/core.py,
    nbkode/runge_kutta/core.py, nbkode/runge_kutta/explicit.py, and of the
    interpolation functions. *)
From Coq Require Import List ZArith QArith Bool Arith.
From Verif Require Import Base Scalar Vec MBuffer MZeros.
Import ListNotations.
Local Open Scope sc_scope.

Section Steps.
Context {OT : Ops} {E : Env}.

(** y.size *)
Definition ysize (b : buffer) : nat := length (buf_y b).

(** ** Linear multistep methods (multistep/core.py) *)

(** multistep/core.py:33-35 LEN_HISTORY = max(ORDER, 2), ORDER = A.size *)
Definition ms_len (A : list T) : nat := Nat.max (length A) 2.

(** multistep/core.py:94-109 and 124-153:
    [h * B @ cache.fs[deltaB:] - A @ cache.ys[deltaA:]], the slices being
    dropped when both coefficient arrays are as long as the history. *)
Definition ms_combination (A B : list T) (c : buffer) (h : T) : vec :=
  let n := ysize c in
  let L := ms_len A in
  if (length A <? L)%nat || (length B <? L)%nat
  then vsub (lincomb n (map (mul h) B) (skipn (L - length B) (fs c)))
            (lincomb n A (skipn (L - length A) (ys c)))
  else vsub (lincomb n (map (mul h) B) (fs c)) (lincomb n A (ys c)).

(** multistep/core.py:87-112 ExplicitMultistep._fixed_step *)
Definition expl_ms_fixed_step (A B : list T) (c : buffer) (h : T) : T * vec :=
  (buf_t c + h, ms_combination A B c h).

(** multistep/core.py:120-122 implicit_root *)
Definition implicit_root (rhs : rhs_t) (t hBn : T) (K : vec) (y : vec) : outcome vec :=
  let! f := rhs t y in
  Ret (vsub (vsub y (vscale hBn f)) K).

(** multistep/core.py:115-170 ImplicitMultistep._fixed_step: one-dimensional
    systems use the secant method (on an array of size 1, here a scalar), larger
    ones newton_hd. *)
Definition impl_ms_fixed_step (A B : list T) (Bn : T) (rhs : rhs_t)
    (c : buffer) (h : T) : outcome (T * vec) :=
  let t_new := buf_t c + h in
  let K := ms_combination A B c h in
  if Nat.eqb (ysize c) 1 then
    let fn := fun p => let! r := implicit_root rhs t_new (h * Bn) K [p] in
                       Ret (nth 0 r zero) in
    let! p := j_newton fn (nth 0 (buf_y c) zero) None None None default_tol zero 50 in
    Ret (t_new, [p])
  else
    let! y := newton_hd (implicit_root rhs t_new (h * Bn) K) (buf_y c)
                default_tol zero 50 in
    Ret (t_new, y).

(** multistep/core.py:71-80 Multistep._step for both families *)
Definition core_expl_ms (A B : list T) (rhs : rhs_t) : M st unit :=
  fun s =>
    let '(t, y) := expl_ms_fixed_step A B (cache s) (hstep s) in
    (do f <- lift (rhs t y) ;; push_st t y f) s.
Definition core_impl_ms (A B : list T) (Bn : T) (rhs : rhs_t) : M st unit :=
  fun s =>
    (do ty <- lift (impl_ms_fixed_step A B Bn rhs (cache s) (hstep s)) ;;
     let '(t, y) := ty in
     do f <- lift (rhs t y) ;; push_st t y f) s.

(** ** Explicit Runge-Kutta (runge_kutta/explicit.py) *)

(** explicit.py:38-40 / 70-72: the stage loop, from stage [s] on.  [rows] are
    the rows A[s:], [cs] the nodes C[s:]. *)
Fixpoint erk_stages (rhs : rhs_t) (t : T) (y : vec) (h : T) (s : nat)
    (rows : list (list T)) (cs : list T) : M st unit :=
  match rows, cs with
  | a :: rows', c :: cs' =>
      do x <- get ;;
      let dy := lincomb (length y) (firstn s a) (firstn s (stages x)) in
      do k <- lift (rhs (t + h * c) (vadd y (vscale h dy))) ;;
      do _ <- set_K s k ;;
      erk_stages rhs t y h (s + 1) rows' cs'
  | _, _ => ret tt
  end.

(** explicit.py:28-46 ERK._fixed_step *)
Definition erk_fixed_step (A : list (list T)) (B C : list T) (rhs : rhs_t) : M st (T * vec) :=
  fun s0 =>
    let t := buf_t (cache s0) in
    let y := buf_y (cache s0) in
    let h := hstep s0 in
    (do _ <- set_K 0 (buf_f (cache s0)) ;;
     do _ <- erk_stages rhs t y h 1 (skipn 1 A) (skipn 1 C) ;;
     do x <- get ;;
     ret (t + h, vadd y (lincomb (length y) (map (mul h) B) (stages x)))) s0.

(** runge_kutta/core.py:33-42 RungeKutta._step *)
Definition core_erk (A : list (list T)) (B C : list T) (rhs : rhs_t) : M st unit :=
  do ty <- erk_fixed_step A B C rhs ;;
  let '(t, y) := ty in
  do f <- lift (rhs t y) ;;
  push_st t y f.

(** explicit.py:60-79 FSAL._fixed_step: K has one more row than A; the last row
    is the derivative at the new point. *)
Definition fsal_fixed_step (A : list (list T)) (B C : list T) (rhs : rhs_t) : M st (T * vec) :=
  fun s0 =>
    let t := buf_t (cache s0) in
    let y := buf_y (cache s0) in
    let h := hstep s0 in
    (do _ <- set_K 0 (buf_f (cache s0)) ;;
     do _ <- erk_stages rhs t y h 1 (skipn 1 A) (skipn 1 C) ;;
     do x <- get ;;
     let t' := t + h in
     let y' := vadd y (lincomb (length y) (map (mul h) B) (removelast (stages x))) in
     do f <- lift (rhs t' y') ;;
     do _ <- set_K (length (stages x) - 1) f ;;
     ret (t', y')) s0.

(** core.py:661-679 VariableStepOptions *)
Record options : Type := mkopts {
  atol : T; rtol : T; min_step : T; max_step : ext;
  min_factor : T; max_factor : T; safety_factor : T }.
Definition default_options : options :=
  mkopts (lit (1 # 1000000)) (lit (1 # 1000)) (lit (1 # 1000000000000000)) PInf
         (lit (1 # 5)) (lit 10) (lit (9 # 10)).

(** runge_kutta/core.py:73-76 _step_error: [h * (E @ K)] *)
Definition step_error (n : nat) (h : T) (K : list vec) (Ew : list T) : vec :=
  vscale h (lincomb n Ew K).

(** runge_kutta/core.py:78-83 _scaled_error_norm *)
Definition scaled_error_norm (y y_prev error : vec) (o : options) : T :=
  let scale := map2 (fun a b => atol o + rtol o * npmax (absT a) (absT b)) y y_prev in
  sqrtT (vmean (map (fun x => x * x) (map2 div error scale))).

(** runge_kutta/core.py:85-99 _step_update: updates h in place, returns whether
    the step is accepted. *)
Definition step_update (error_norm : T) (o : options) (expo : T) : M st bool :=
  fun s =>
    if error_norm =? zero then (Ret true, set_h (hstep s * max_factor o) s)
    else
      (do factor <- lift (sdiv (safety_factor o) (powT error_norm expo)) ;;
       fun s =>
         (Ret (error_norm <? one),
          set_h (hstep s * pymin (max_factor o) (pymax (min_factor o) factor)) s)) s.

(** runge_kutta/core.py:69-71 error_exponent = 1 / (error_estimator_order + 1) *)
Definition error_exponent (order : Z) : T := lit (1 # (Z.to_pos (order + 1))).

(** the error norm of one trial: explicit.py:93-94 (FSAL) *)
Definition norm_fsal (Ew : list T) (o : options) (y : vec) (s : st) : outcome T :=
  let err := step_error (length y) (hstep s) (stages s) Ew in
  Ret (scaled_error_norm y (buf_y (cache s)) err o).
(** explicit.py:332-336 (DOP853); [10 * err5] may be zero *)
Definition norm_dop853 (E5 E3 : list T) (o : options) (y : vec) (s : st) : outcome T :=
  let n := length y in
  let err5 := step_error n (hstep s) (stages s) E5 in
  let err3 := step_error n (hstep s) (stages s) E3 in
  let err5 := scaled_error_norm y (buf_y (cache s)) err5 o in
  let err3 := scaled_error_norm y (buf_y (cache s)) err3 o in
  let! q := sdiv err3 (lit 10 * err5) in
  sdiv err5 (sqrtT (one + q * q)).

(** explicit.py:89-97 / 328-339: [while True: trial; if accepted: push; break].
    [fuel] bounds the number of trials. *)
Fixpoint core_fsal (fuel : nat) (A : list (list T)) (B C : list T)
    (norm : options -> vec -> st -> outcome T) (o : options) (expo : T)
    (rhs : rhs_t) : M st unit :=
  match fuel with
  | O => fun s => (Loop, s)
  | S fuel' =>
      do ty <- fsal_fixed_step A B C rhs ;;
      let '(t, y) := ty in
      do x <- get ;;
      do error_norm <- lift (norm o y x) ;;
      do ok <- step_update error_norm o expo ;;
      if ok
      then (do x <- get ;; push_st t y (last (stages x) []))
      else core_fsal fuel' A B C norm o expo rhs
  end.

(** ** Interpolation *)

(** core.py:577-596 Solver._interpolate: cubic Hermite over the whole window *)
Definition hermite (t_eval : T) (c : buffer) : outcome arr :=
  let t0 := buf_t0 c in
  let y0 := buf_y0 c in
  if t_eval =? t0 then Ret (CacheRow 0)
  else
    let dt := buf_t c - t0 in
    let dy := vsub (buf_y c) y0 in
    let f0 := buf_f0 c in
    let f1 := buf_f c in
    let! X := sdiv (t_eval - t0) dt in
    Ret (Own (vadd (vadd y0 (vscale X dy))
                (vscale (X * (X - one))
                   (vadd (vscale (one - two * X) dy)
                      (vscale dt (vadd (vscale (X - one) f0) (vscale X f1))))))).
Definition interp_default (t_eval : T) : M st arr :=
  fun s => (hermite t_eval (cache s), s).

(** explicit.py:364-369 RkInterpolator.update: Q = K.T.dot(P); column j of Q is
    the combination of the stages with the j-th column of P. *)
Definition rk_update (P : list (list T)) (s : st) : st :=
  let c := cache s in
  let cols := map (fun j => map (fun row => nth j row zero) P)
                  (seq 0 (length (hd [] P))) in
  set_interp (mkitp (map (fun col => lincomb (ysize c) col (stages s)) cols)
                    (iF (interp s)) (buf_t c)) s.

(** np.cumprod(np.repeat(x, n)) = [x, x^2, ..., x^n] *)
Fixpoint powers_from (acc x : T) (n : nat) : list T :=
  match n with
  | O => []
  | S n' => acc :: powers_from (acc * x) x n'
  end.

(** explicit.py:371-403 RkInterpolator.evaluate *)
Definition interp_rk (P : list (list T)) (t_eval : T) : M st arr :=
  fun s =>
    let c := cache s in
    let L := length (ys c) in
    if t_eval =? buf_t c then (Ret (CacheRow (L - 1)), s)
    else if t_eval =? buf_tp c then (Ret (CacheRow (L - 2)), s)
    else
      let s := if t_eval <? iupd (interp s) then s else rk_update P s in
      let t_old := buf_tp c in
      let y_old := buf_yp c in
      let h := buf_t c - t_old in
      (do x <- lift (sdiv (t_eval - t_old) h) ;;
       let Q := iQ (interp s) in
       let p := powers_from x x (length Q) in
       ret (Own (vadd (vscale h (lincomb (length y_old) p Q)) y_old))) s.

(** explicit.py:438-440: the extra stages of DOP853, from row [s] of K_extended *)
Fixpoint dop_extra (rhs : rhs_t) (t_old : T) (y_old : vec) (h : T)
    (rows : list (list T * T)) (s : nat) (K : list vec) : outcome (list vec) :=
  match rows with
  | [] => Ret K
  | (a, c) :: rows' =>
      let dy := map (fun x => x * h) (lincomb (length y_old) (firstn s a) (firstn s K)) in
      let! k := rhs (t_old + c * h) (vadd y_old dy) in
      dop_extra rhs t_old y_old h rows' (s + 1) (K ++ [k])
  end.

(** explicit.py:426-449 DOP853Interpolator.update *)
Definition dop_update (n_stages : nat) (D Afull : list (list T)) (Cfull : list T)
    (rhs : rhs_t) : M st unit :=
  fun s =>
    let c := cache s in
    let t_old := buf_tp c in
    let y_old := buf_yp c in
    let t := buf_t c in
    let y := buf_y c in
    let h := t - t_old in
    let f := buf_f c in
    (do K <- lift (dop_extra rhs t_old y_old h
                     (combine (skipn (n_stages + 1) Afull) (skipn (n_stages + 1) Cfull))
                     (n_stages + 1) (stages s)) ;;
     let f_old := hd [] K in
     let delta := vsub y y_old in
     let F0 := delta in
     let F1 := vsub (vscale h f_old) delta in
     let F2 := vsub (vscale two delta) (vscale h (vadd f f_old)) in
     let Frest := map (fun d => vscale h (lincomb (length y_old) d K)) D in
     fun s => (Ret tt, set_interp (mkitp (iQ (interp s)) (F0 :: F1 :: F2 :: Frest) t) s)) s.

(** explicit.py:473-478: y += f; y *= x or 1-x, over F reversed *)
Fixpoint dop_horner (x : T) (i : nat) (Frev : list vec) (y : vec) : vec :=
  match Frev with
  | [] => y
  | f :: Frev' =>
      let y := vadd y f in
      let y := if Nat.even i then map (fun v => v * x) y
               else map (fun v => v * (one - x)) y in
      dop_horner x (i + 1) Frev' y
  end.

(** explicit.py:451-481 DOP853Interpolator.evaluate *)
Definition interp_dop (n_stages : nat) (D Afull : list (list T)) (Cfull : list T)
    (rhs : rhs_t) (t_eval : T) : M st arr :=
  fun s =>
    let c := cache s in
    let L := length (ys c) in
    if t_eval =? buf_t c then (Ret (CacheRow (L - 1)), s)
    else if t_eval =? buf_tp c then (Ret (CacheRow (L - 2)), s)
    else
      (do _ <- (if t_eval <? iupd (interp s) then ret tt
                else dop_update n_stages D Afull Cfull rhs) ;;
       fun s =>
         let t_old := buf_tp c in
         let y_old := buf_yp c in
         let h := buf_t c - t_old in
         (do x <- lift (sdiv (t_eval - t_old) h) ;;
          ret (Own (vadd (dop_horner x 0 (rev (iF (interp s))) (vzero (length y_old)))
                         y_old))) s) s.
End Steps.
