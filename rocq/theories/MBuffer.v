(** Model of nbkode/buffer.py and of the mutable part of a solver instance. *)
From Coq Require Import List ZArith QArith.
From Verif Require Import Base Scalar Vec.
Import ListNotations.

(** External numpy/numba facts a run depends on (see DESIGN.md, trusted base):
    - [numba_mode]: jitted scalar division by zero raises ZeroDivisionError
      (numba's default error model); with NBKODE_NONUMBA it is IEEE division;
    - [np_solve cols b]: np.linalg.solve(J, b) where [cols] are the columns of J;
    - [np_argsort]: np.argsort on floats (quicksort, not stable). *)
Class Env {OT : Ops} : Type := {
  numba_mode : bool;
  np_solve : list (list T) -> list T -> outcome (list T);
  np_argsort : list T -> list nat
}.

Section Buffer.
Context {OT : Ops}.

(** buffer.py:13 AlignedBuffer: ts, ys, fs of [capacity] rows, oldest first. *)
Record buffer : Type := mkbuf { ts : list T; ys : list vec; fs : list vec }.

(** buffer.py:49,52,55: [a[:-1] = a[1:]] — every cell but the last receives its
    right neighbour, the last cell keeps its value.  (numpy and numba both give
    overlapping slice assignment copy semantics.) *)
Definition shift_down {A} (d : A) (a : list A) : list A :=
  match a with [] => [] | _ => skipn 1 a ++ [last a d] end.
(** buffer.py:50,53,56: [a[-1] = x] *)
Definition set_last {A} (a : list A) (x : A) : list A :=
  match a with [] => [] | _ => removelast a ++ [x] end.

(** buffer.py:48-56 AlignedBuffer.push *)
Definition push (b : buffer) (t : T) (y f : vec) : buffer :=
  {| ts := set_last (shift_down zero (ts b)) t;
     ys := set_last (shift_down [] (ys b)) y;
     fs := set_last (shift_down [] (fs b)) f |}.

(** buffer.py:14-19 AlignedBuffer.__init__: np.empty has arbitrary contents
    ([g]: a buffer of [capacity] uninitialised rows), then capacity pushes. *)
Definition buffer_init (capacity : nat) (g : buffer) (t : T) (y f : vec) : buffer :=
  iterate capacity (fun b => push b t y f) g.

(** buffer.py:21-41: the properties t, y, f ([x[-1]]) and the row 0 / row -2
    accesses used elsewhere ([ts[0]], [ts[-2]]). *)
Definition buf_t (b : buffer) : T := last (ts b) zero.
Definition buf_y (b : buffer) : vec := last (ys b) [].
Definition buf_f (b : buffer) : vec := last (fs b) [].
Definition buf_t0 (b : buffer) : T := hd zero (ts b).
Definition buf_y0 (b : buffer) : vec := hd [] (ys b).
Definition buf_f0 (b : buffer) : vec := hd [] (fs b).
Definition buf_tp (b : buffer) : T := nth (length (ts b) - 2) (ts b) zero.
Definition buf_yp (b : buffer) : vec := nth (length (ys b) - 2) (ys b) [].

(** A numpy array returned to a caller: its own memory, or a view of row [i] of
    the history buffer [cache.ys] (what [ys[-1]], [ys[-2]], [ys[0]] return). *)
Inductive arr : Type := Own (v : vec) | CacheRow (i : nat).
(** reading the array while the history buffer is [b] *)
Definition deref (b : buffer) (a : arr) : vec :=
  match a with Own v => v | CacheRow i => nth i (ys b) [] end.

(** explicit.py:354-369 / 406-449: state of RkInterpolator and
    DOP853Interpolator.  [iQ] is Q stored by columns (one vector per power),
    [iF] the rows of F, [iupd] is updated_t.  DOP853's K_extended is recomputed
    from scratch by every update and is therefore local. *)
Record itp : Type := mkitp { iQ : list vec; iF : list vec; iupd : T }.

(** The mutable part of a Solver instance: history buffer (core.py:141), step
    size h (core.py:135, core.py:706; a 0-d array mutated in place), stage
    storage K (runge_kutta/core.py:27) and interpolator. *)
Record st : Type := mkst { cache : buffer; hstep : T; stages : list vec; interp : itp }.

Definition set_cache (b : buffer) (s : st) : st := mkst b (hstep s) (stages s) (interp s).
Definition set_h (h : T) (s : st) : st := mkst (cache s) h (stages s) (interp s).
Definition set_stages (k : list vec) (s : st) : st := mkst (cache s) (hstep s) k (interp s).
Definition set_interp (i : itp) (s : st) : st := mkst (cache s) (hstep s) (stages s) i.

(** cache.push(t, y, f) on the instance *)
Definition push_st (t : T) (y f : vec) : M st unit :=
  fun s => (Ret tt, set_cache (push (cache s) t y f) s).
(** K[i] = v *)
Definition set_K (i : nat) (v : vec) : M st unit :=
  fun s => (Ret tt, set_stages (list_set (stages s) i v) s).

(** scalar division inside jitted code *)
Definition sdiv {E : Env} (a b : T) : outcome T :=
  if numba_mode && eqb b zero then Raise ZeroDivisionError else Ret (div a b).

(** right-hand sides and event functions may raise *)
Definition rhs_t : Type := T -> vec -> outcome vec.
End Buffer.
