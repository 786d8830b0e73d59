(** Exceptions as values, the state-and-exception monad, list helpers.
    Python raises; the model returns [Raise e].  A `while` loop whose fuel runs
    out returns [Loop], which is never confused with a normal answer. *)
From Coq Require Import List Arith ZArith Bool Lia.
Import ListNotations.

(** The exception classes that the modelled code can raise.  [DuplicateName] is
    the bare `Exception` of core.py:163; [UserError] stands for whatever the
    user's callables raise. *)
Inductive exn : Type :=
| ValueError | RuntimeError | IndexError | KeyError | AttributeError
| ZeroDivisionError | LinAlgError | UnboundLocalError | TypeError | DuplicateName
| UserError (code : nat).

Inductive outcome (A : Type) : Type :=
| Ret (a : A)
| Raise (e : exn)
| Loop.
Arguments Ret {A} a.
Arguments Raise {A} e.
Arguments Loop {A}.

Definition obind {A B} (m : outcome A) (k : A -> outcome B) : outcome B :=
  match m with Ret a => k a | Raise e => Raise e | Loop => Loop end.

(** Computations on a mutable object of type [S]: mutations made before an
    exception persist, as in Python. *)
Definition M (S A : Type) : Type := S -> outcome A * S.

Definition ret {S A} (a : A) : M S A := fun s => (Ret a, s).
Definition raise {S A} (e : exn) : M S A := fun s => (Raise e, s).
Definition bind {S A B} (m : M S A) (k : A -> M S B) : M S B :=
  fun s => match m s with
           | (Ret a, s') => k a s'
           | (Raise e, s') => (Raise e, s')
           | (Loop, s') => (Loop, s')
           end.
(** run an outcome (a call that does not touch the state) inside [M] *)
Definition lift {S A} (m : outcome A) : M S A := fun s => (m, s).
Definition get {S} : M S S := fun s => (Ret s, s).
Definition put {S} (s : S) : M S unit := fun _ => (Ret tt, s).

Notation "'let!' x := m 'in' k" := (obind m (fun x => k))
  (at level 200, x pattern, m at level 100, k at level 200, right associativity).
Notation "'do' x <- m ';;' k" := (bind m (fun x => k))
  (at level 200, x pattern, m at level 100, k at level 200, right associativity).

(** [a[i] = x] for a Python list / numpy array row; out of range leaves the
    list unchanged (callers are only used in range; see the length lemmas). *)
Fixpoint list_set {A} (l : list A) (i : nat) (x : A) : list A :=
  match l, i with
  | [], _ => []
  | _ :: l', O => x :: l'
  | a :: l', S i' => a :: list_set l' i' x
  end.

(** [[f(x) for x in l]] where f may raise *)
Fixpoint omapM {A B} (f : A -> outcome B) (l : list A) : outcome (list B) :=
  match l with
  | [] => Ret []
  | a :: l' => let! b := f a in let! bs := omapM f l' in Ret (b :: bs)
  end.

Fixpoint mapM {S A B} (f : A -> M S B) (l : list A) : M S (list B) :=
  match l with
  | [] => ret []
  | a :: l' => do b <- f a ;; do bs <- mapM f l' ;; ret (b :: bs)
  end.

(** n-fold iteration *)
Fixpoint iterate {A} (n : nat) (f : A -> A) (x : A) : A :=
  match n with O => x | S k => iterate k f (f x) end.

Definition last_opt {A} (l : list A) : option A :=
  match rev l with [] => None | x :: _ => Some x end.
