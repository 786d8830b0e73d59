(** Vocabulary for the root finders, over the reals. *)
From Coq Require Import List ZArith Bool Arith Reals Lra.
From Verif Require Import Base Scalar Vec MBuffer MZeros.
Import ListNotations.
Open Scope R_scope.

(** The monadic function [fn] evaluates the mathematical function [g] at every
    point of [l, r], from every state satisfying [Inv], which it maintains. *)
Definition evaluates {St} (Inv : St -> Prop) (fn : R -> M St R) (g : R -> R) (l r : R) : Prop :=
  forall t s, l <= t <= r -> Inv s -> exists s', fn t s = (Ret (g t), s') /\ Inv s'.

(** a strict sign change of [g] between [a] and [b] *)
Definition sign_change (g : R -> R) (a b : R) : Prop := g a * g b < 0.

(** where the line through (a, g a) and (b, g b) meets the axis *)
Definition chord (g : R -> R) (a b : R) : R := b - g b * (b - a) / (g b - g a).

(** [secant_pair g x0 x1 k a b]: (a, b) are the two points of the secant method
    after k iterations from x0, x1; the one with the larger absolute value comes last at
    the start *)
Inductive secant_pair (g : R -> R) (x0 x1 : R) : nat -> R -> R -> Prop :=
| sec_swap : Rabs (g x1) < Rabs (g x0) -> secant_pair g x0 x1 0 x1 x0
| sec_keep : Rabs (g x0) <= Rabs (g x1) -> secant_pair g x0 x1 0 x0 x1
| sec_next k a b : secant_pair g x0 x1 k a b -> secant_pair g x0 x1 (S k) b (chord g a b).

(** one Newton or Halley correction; Halley's is used only when |adj| < 1 *)
Definition newton_next (g g1 : R -> R) (g2 : option (R -> R)) (p : R) : R :=
  let d := g p / g1 p in
  match g2 with
  | None => p - d
  | Some h => let adj := d * h p / g1 p / 2 in
              if Rlt_dec (Rabs adj) 1 then p - d / (1 - adj) else p - d
  end.

(** the k-th Newton iterate; every earlier one has a non-zero value and a
    non-zero derivative *)
Inductive newton_iter (g g1 : R -> R) (g2 : option (R -> R)) (x0 : R) : nat -> R -> Prop :=
| nit_O : newton_iter g g1 g2 x0 0 x0
| nit_S k p : newton_iter g g1 g2 x0 k p -> g p <> 0 -> g1 p <> 0 ->
    newton_iter g g1 g2 x0 (S k) (newton_next g g1 g2 p).

(** what bisect returns after [n] halvings of [a, b] *)
Definition bis_result (g : R -> R) (tol : R) (n : nat) (a b : R) (m : R) : Prop :=
  a <= m <= b /\
  (Rabs (g m) <= tol \/
   exists a' b', a <= a' < b' /\ b' <= b /\ a' <= m <= b' /\ b' - a' = (b - a) / 2 ^ n /\ sign_change g a' b').

(** how the secant method may end, from the k-th pair with [todo] iterations to
    go: converged, equal values at two points, or out of iterations *)
Definition sec_end (g : R -> R) (tol rtol : R) (x0 x1 : R) (k todo : nat) (r : @nres Rops * nflag) : Prop :=
  match snd r with
  | OK => exists j a b, secant_pair g x0 x1 j a b /\ (j < k + todo)%nat /\ g a <> g b /\
      root (fst r) = chord g a b /\ Rabs (chord g a b - b) <= tol + rtol * Rabs b /\
      iters (fst r) = (j + 1)%nat /\ funcalls (fst r) = (j + 2)%nat /\ conv (fst r) = true
  | TOLERANCE_REACHED => exists j a b, secant_pair g x0 x1 j a b /\ (j < k + todo)%nat /\ g a = g b /\ a <> b /\
      root (fst r) = (b + a) / 2 /\ iters (fst r) = (j + 1)%nat /\ funcalls (fst r) = (j + 2)%nat
  | NOT_CONVERGED => exists a b, secant_pair g x0 x1 (k + todo) a b /\
      tol + rtol * Rabs a < Rabs (b - a) /\
      root (fst r) = b /\ iters (fst r) = (k + todo)%nat /\ funcalls (fst r) = (k + todo + 2)%nat /\ conv (fst r) = false
  | DERIVATIVE_WAS_ZERO => False
  end.

(** the second point of the secant method; the default is x0 (1 + 1e-4) moved
    away from zero by another 1e-4 *)
Definition second (x0 : R) (x1 : option R) : R :=
  match x1 with
  | Some x => x
  | None => let p := x0 * (1 + 1 / 10000) in if Rle_dec 0 p then p + 1 / 10000 else p - 1 / 10000
  end.

(** evaluations per Newton / Halley iteration *)
Definition per_iter (g2 : option (R -> R)) : nat := match g2 with None => 2 | Some _ => 3 end.

(** how Newton's (Halley's) method may end *)
Definition nr_end (g g1 : R -> R) (g2 : option (R -> R)) (tol rtol : R) (x0 : R) (n : nat) (r : @nres Rops * nflag) : Prop :=
  match snd r with
  | OK => exists k p, newton_iter g g1 g2 x0 k p /\ (k < n)%nat /\ conv (fst r) = true /\
      ((g p = 0 /\ root (fst r) = p /\ iters (fst r) = k /\ funcalls (fst r) = (per_iter g2 * k + 1)%nat) \/
       (g p <> 0 /\ g1 p <> 0 /\ root (fst r) = newton_next g g1 g2 p /\ Rabs (root (fst r) - p) <= tol + rtol * Rabs p /\
        iters (fst r) = (k + 1)%nat /\ funcalls (fst r) = (per_iter g2 * (k + 1))%nat))
  | DERIVATIVE_WAS_ZERO => exists k p, newton_iter g g1 g2 x0 k p /\ (k < n)%nat /\ g p <> 0 /\ g1 p = 0 /\
      root (fst r) = p /\ conv (fst r) = false /\ iters (fst r) = (k + 1)%nat /\ funcalls (fst r) = (per_iter g2 * k + 2)%nat
  | NOT_CONVERGED => newton_iter g g1 g2 x0 n (root (fst r)) /\ conv (fst r) = false /\ iters (fst r) = n /\
      funcalls (fst r) = (per_iter g2 * n)%nat
  | TOLERANCE_REACHED => False
  end.

(** Euclidean norm *)
Definition norm2 (v : list R) : R := sqrt (fold_right (fun x a => x * x + a) 0 v).

(** np.linalg.solve(J, b), J given by its columns: what it returns solves the
    system *)
Definition solves_systems {E : @Env Rops} : Prop :=
  forall cols (b x : list R), @np_solve Rops E cols b = Ret x ->
    length x = length b /\ length x = length cols /\
    forall i, (i < length b)%nat ->
      fold_right Rplus 0 (map (fun j => nth j x 0 * nth i (nth j cols []) 0) (seq 0 (length x))) = nth i b 0.

(** J (given by columns) holds the central difference quotients of [func] at [y]
    with increment 1e-10 *)
Definition eps_jac : R := 1 / 10000000000.
Definition shifted (y : list R) (i : nat) (d : R) : list R :=
  map (fun j => if Nat.eqb j i then nth j y 0 + d else nth j y 0) (seq 0 (length y)).
Definition diff_quotients (func : list R -> outcome (list R)) (y : list R) (J : list (list R)) : Prop :=
  length J = length y /\
  forall i, (i < length y)%nat -> exists f1 f2,
    func (shifted y i eps_jac) = Ret f1 /\ func (shifted y i (- eps_jac)) = Ret f2 /\
    nth i J [] = map (fun p => (fst p - snd p) / (2 * eps_jac)) (combine f1 f2).

(** [hd_iter func atol y0 k y]: y is the k-th Newton iterate from y0; the
    residual of every earlier one exceeds [atol] *)
Inductive hd_iter {E : @Env Rops} (func : list R -> outcome (list R)) (atol : R) (y0 : list R) : nat -> list R -> Prop :=
| hdi_O : hd_iter func atol y0 0 y0
| hdi_S k y v J d : hd_iter func atol y0 k y -> func y = Ret v -> atol < norm2 v ->
    diff_quotients func y J -> @np_solve Rops E J (map Ropp v) = Ret d ->
    hd_iter func atol y0 (S k) (map (fun p => fst p + snd p) (combine y d)).

(** y -> M y + b in dimension n, M given by rows *)
Definition row_dot (r y : list R) : R := fold_right Rplus 0 (map (fun p => fst p * snd p) (combine r y)).
Definition affine_map (n : nat) (func : list R -> outcome (list R)) (M : list (list R)) (b : list R) : Prop :=
  length M = n /\ length b = n /\ Forall (fun r => length r = n) M /\
  forall y, length y = n -> func y = Ret (map (fun i => row_dot (nth i M []) y + nth i b 0) (seq 0 n)).
(** the columns of a matrix given by rows *)
Definition columns (n : nat) (M : list (list R)) : list (list R) := map (fun i => map (fun r => nth i r 0) M) (seq 0 n).
