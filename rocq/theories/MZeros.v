(** Model of nbkode/nbcompat/common.py and nbkode/nbcompat/zeros.py. *)
From Coq Require Import List ZArith QArith Bool.
From Verif Require Import Base Scalar Vec MBuffer.
Import ListNotations.
Local Open Scope sc_scope.

Section Zeros.
Context {OT : Ops} {E : Env}.

(** common.py:16-18 *)
Definition isclose (a b atol rtol : T) : bool :=
  absT (a - b) <=? (atol + rtol * absT b).
(** common.py:21-23 *)
Definition clip (x xmin xmax : T) : T := pymin (pymax x xmin) xmax.

(** zeros.py:27-31 NewtonEnum *)
Inductive nflag : Type := OK | DERIVATIVE_WAS_ZERO | TOLERANCE_REACHED | NOT_CONVERGED.

(** the tuple (p, funcalls, itr, flag) of zeros.py:286; [conv] is
    flag = _ECONVERGED *)
Record nres : Type := mknres { root : T; funcalls : nat; iters : nat; conv : bool }.

(** zeros.py:295-339, the Newton-Raphson / Halley loop: [todo] iterations are
    left, [itr] are done.  [p0] equals the last [p] after the first iteration. *)
Fixpoint nr_loop (func fprime : T -> outcome T) (fprime2 : option (T -> outcome T))
    (tol rtol : T) (todo itr : nat) (p0 : T) (calls : nat) : outcome (nres * nflag) :=
  match todo with
  | O => (* zeros.py:392-395 *)
      match itr with
      | O => Raise UnboundLocalError
      | _ => Ret (mknres p0 calls itr false, NOT_CONVERGED)
      end
  | S todo' =>
      let! fval := func p0 in
      let calls := (calls + 1)%nat in
      if fval =? zero then Ret (mknres p0 calls itr true, OK)
      else
        let! fder := fprime p0 in
        let calls := (calls + 1)%nat in
        if fder =? zero then
          Ret (mknres p0 calls (itr + 1)%nat false, DERIVATIVE_WAS_ZERO)
        else
          let newton_step := fval / fder in
          let! r := match fprime2 with
                    | None => Ret (newton_step, calls)
                    | Some f2 =>
                        let! fder2 := f2 p0 in
                        let adj := newton_step * fder2 / fder / two in
                        Ret (if absT adj <? one
                             then newton_step / (one - adj) else newton_step,
                             (calls + 1)%nat)
                    end in
          let '(newton_step, calls) := r in
          let p := p0 - newton_step in
          if isclose p p0 tol rtol then Ret (mknres p calls (itr + 1)%nat true, OK)
          else nr_loop func fprime fprime2 tol rtol todo' (itr + 1)%nat p calls
  end.

(** zeros.py:356-385, the secant loop *)
Fixpoint secant_loop (func : T -> outcome T) (tol rtol : T) (todo itr : nat)
    (p0 q0 p1 q1 : T) (calls : nat) : outcome (nres * nflag) :=
  match todo with
  | O =>
      match itr with
      | O => Raise UnboundLocalError
      | _ => Ret (mknres p1 calls itr false, NOT_CONVERGED)
      end
  | S todo' =>
      if q1 =? q0 then
        let flag := if p1 =? p0 then OK else TOLERANCE_REACHED in
        Ret (mknres ((p1 + p0) / two) calls (itr + 1)%nat true, flag)
      else
        let p := if absT q0 <? absT q1
                 then (- q0 / q1 * p1 + p0) / (one - q0 / q1)
                 else (- q1 / q0 * p0 + p1) / (one - q1 / q0) in
        if isclose p p1 tol rtol then Ret (mknres p calls (itr + 1)%nat true, OK)
        else
          let! q := func p in
          secant_loop func tol rtol todo' (itr + 1)%nat p1 q1 p q (calls + 1)%nat
  end.

(** zeros.py:347-349: the default second point *)
Definition secant_eps : T := lit (1 # 10000).
Definition secant_x1 (x0 : T) : T :=
  let p1 := x0 * (one + secant_eps) in
  p1 + (if zero <=? p1 then secant_eps else - secant_eps).

(** zeros.py:266-395 _newton (full_output only selects the return format) *)
Definition newton_ (func : T -> outcome T) (x0 : T)
    (fprime fprime2 : option (T -> outcome T)) (x1 : option T)
    (tol rtol : T) (maxiter : nat) : outcome (nres * nflag) :=
  let p0 := one * x0 in
  match fprime with
  | Some f1 => nr_loop func f1 fprime2 tol rtol maxiter 0 p0 0
  | None =>
      let! p1 := match x1 with
                 | Some x => if x =? x0 then Raise ValueError else Ret x
                 | None => Ret (secant_x1 x0)
                 end in
      let! q0 := func p0 in
      let! q1 := func p1 in
      if absT q1 <? absT q0
      then secant_loop func tol rtol maxiter 0 p1 q1 p0 q0 2
      else secant_loop func tol rtol maxiter 0 p0 q0 p1 q1 2
  end.

(** zeros.py:401-437 j_newton *)
Definition j_newton (func : T -> outcome T) (x0 : T)
    (fprime fprime2 : option (T -> outcome T)) (x1 : option T)
    (tol rtol : T) (maxiter : nat) : outcome T :=
  let! r := newton_ func x0 fprime fprime2 x1 tol rtol maxiter in
  match snd r with OK => Ret (root (fst r)) | _ => Raise RuntimeError end.

(** zeros.py:44-263 newton, scalar x0 (for arrays of size > 1 it delegates to
    scipy's _array_newton, not modelled).  [disp = false] turns the exception
    into a warning.  maxiter is an integer (operator.index). *)
Definition newton (func : T -> outcome T) (x0 : T)
    (fprime fprime2 : option (T -> outcome T)) (x1 : option T)
    (tol rtol : T) (maxiter : Z) (disp : bool) : outcome nres :=
  if tol <=? zero then Raise ValueError
  else if (maxiter <? 1)%Z then Raise ValueError
  else
    let! r := newton_ func x0 fprime fprime2 x1 tol rtol (Z.to_nat maxiter) in
    match snd r with
    | OK => Ret (fst r)
    | _ => if disp then Raise RuntimeError else Ret (fst r)
    end.

(** default tolerance 1.48e-8 *)
Definition default_tol : T := lit (148 # 10000000000).

(** zeros.py:440-457 jacobian: the i-th column is the central difference in
    direction i.  Columns are returned (J[:, i] = ...). *)
Definition jac_eps : T := lit (1 # 10000000000).
Definition bump (x : vec) (i : nat) (d : T) : vec :=
  list_set x i (nth i x zero + d).
Definition jacobian (func : vec -> outcome vec) (x : vec) : outcome (list vec) :=
  omapM (fun i =>
           let! f1 := func (bump x i jac_eps) in
           let! f2 := func (bump x i (- jac_eps)) in
           Ret (map (fun d => d / (two * jac_eps)) (vsub f1 f2)))
        (seq 0 (length x)).

(** zeros.py:480-490: the while loop of newton_hd_impl; [todo] = maxiter + 1
    - iteration_counter, so the body runs at most maxiter + 1 times. *)
Fixpoint hd_loop (func : vec -> outcome vec) (atol rtol : T) (todo : nat)
    (y value : vec) : outcome (vec * nflag) :=
  if isclose (vnorm2 value) zero atol rtol then Ret (y, OK)
  else
    match todo with
    | O => Ret (y, NOT_CONVERGED) (* not reached: todo starts at maxiter+1 *)
    | S todo' =>
        let! J := jacobian func y in
        let! delta := np_solve J (vopp value) in
        let y := vadd y delta in
        let! value := func y in
        match todo' with
        | O => Ret (y, NOT_CONVERGED)   (* iteration_counter > maxiter *)
        | _ => hd_loop func atol rtol todo' y value
        end
    end.

(** zeros.py:460-490 newton_hd_impl *)
Definition newton_hd_impl (func : vec -> outcome vec) (y : vec) (atol rtol : T)
    (maxiter : nat) : outcome (vec * nflag) :=
  let! value := func y in
  hd_loop func atol rtol (maxiter + 1) y value.

(** zeros.py:493-505 newton_hd *)
Definition newton_hd (func : vec -> outcome vec) (y0 : vec) (atol rtol : T)
    (maxiter : nat) : outcome vec :=
  let! r := newton_hd_impl func y0 atol rtol maxiter in
  match snd r with OK => Ret (fst r) | _ => Raise RuntimeError end.

(** zeros.py:523-533: the loop of bisect; [mid] is the last midpoint (None
    before the first iteration).  [fun] is monadic because event functions are
    evaluated through the interpolator, which may update itself. *)
Fixpoint bisect_loop {St} (fn : T -> M St T) (tol rtol : T) (todo : nat)
    (left right yl : T) (mid : option T) : M St T :=
  match todo with
  | O => match mid with Some m => ret m | None => raise UnboundLocalError end
  | S todo' =>
      let m := (left + right) / two in
      do ym <- fn m ;;
      if isclose ym zero tol rtol then ret m
      else if same_sign ym yl
      then bisect_loop fn tol rtol todo' m right ym (Some m)
      else bisect_loop fn tol rtol todo' left m yl (Some m)
  end.

(** zeros.py:508-533 bisect *)
Definition bisect {St} (fn : T -> M St T) (left right tol rtol : T)
    (maxiter : nat) : M St T :=
  if negb (left <? right) then raise ValueError
  else
    do yl <- fn left ;;
    if yl =? zero then ret left
    else
      do yr <- fn right ;;
      if yr =? zero then ret right
      else if negb (yl * yr <? zero) then raise ValueError
      else bisect_loop fn tol rtol maxiter left right yl None.
End Zeros.
