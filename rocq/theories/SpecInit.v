(** Vocabulary of C87 and C88. *)
From Coq Require Import List ZArith Bool Arith Reals Lra Floats.SpecFloat.
From Verif Require Import Base Scalar Vec MBuffer MZeros MSteps MApi MClasses Spec SpecInst.
Import ListNotations.
Open Scope sc_scope.

(** options the constructor of a variable step class is meant to accept *)
Definition valid_options {OT : Ops} (o : options) : Prop :=
  (forall x, max_step o = Fin x -> (x <=? zero) = false) /\ (atol o <? zero) = false.
(** the state of a new instance *)
Definition fresh {OT : Ops} (s : st) (t0 : T) (y0 f0 : vec) (h : T) : Prop :=
  now s = t0 /\ state s = y0 /\ deriv s = f0 /\ hstep s = h.
(** uninitialised memory for a state of dimension n *)
Definition garbage_dim {OT : Ops} (n : nat) (g : garbage) : Prop := Forall (fun k => length k = n) (g_K g).
