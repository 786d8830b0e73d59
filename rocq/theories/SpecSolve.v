(** Vocabulary of C86. *)
From Coq Require Import List ZArith Bool Arith Reals Lra.
From Verif Require Import Base Scalar Vec MBuffer MZeros MSteps MApi MClasses Spec SpecInst PVecR SpecConv.
Import ListNotations.
Open Scope R_scope.

(** run(t) returns one row for each of the asked times, within [eps] of the function y *)
Definition solved {E : @Env Rops} (sv : @solver Rops) (s : @st Rops) (t : list R) (eps : R) (y : R -> list R) : Prop :=
  exists N rows s', (forall fuel, (N <= fuel)%nat -> run (E := E) sv fuel t s = (Ret rows, s')) /\
    map fst rows = t /\ Forall (fun r => near eps (snd r) (y (fst r))) rows.
(** times an instance can be asked for: sorted, not before its oldest recorded row and
    not after [b] *)
Definition askable (s : @st Rops) (b : R) (t : list R) : Prop :=
  t <> [] /\ is_sorted (OT := Rops) t = true /\ forall x, In x t -> buf_t0 (cache s) <= x <= b.
