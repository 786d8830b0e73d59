(** The step of a non-FSAL adaptive class as it is meant, over the reals. *)
From Coq Require Import List ZArith Bool Arith Reals Lra.
From Verif Require Import Base Scalar Vec MBuffer MZeros MSteps MApi MClasses Spec SpecInst SpecRK PVecR SpecDense SpecCtl.
Import ListNotations.
Open Scope R_scope.

(** From (t, y), f = rhs(t, y) and step size h, the trials [l] (step size, error)
    are made; the last one gives y' and is the only one to be accepted, f' is
    rhs at the new point; afterwards the step size is h'. The error of a trial
    is the scaled norm of the difference of the results with weights B and B2. *)
Inductive trials (rhs : @rhs_t Rops) (A : list (list R)) (B C B2 : list R) (o : @options Rops) (order : Z)
  (t : R) (y f : list R) : R -> list (R * R) -> list R -> list R -> R -> Prop :=
| try_accept h K y' f' e : @rk_step Rops rhs A B C t y f h K y' ->
    e = scaled_rms o y y' (fun i => cmp i (@rk_combine Rops y h B K) - cmp i (@rk_combine Rops y h B2 K)) ->
    accepted e -> rhs (t + h) y' = Ret f' -> trials rhs A B C B2 o order t y f h [(h, e)] y' f' (h * factor o order e)
| try_reject h K y1 e l y' f' h' : @rk_step Rops rhs A B C t y f h K y1 ->
    e = scaled_rms o y y1 (fun i => cmp i (@rk_combine Rops y h B K) - cmp i (@rk_combine Rops y h B2 K)) ->
    ~ accepted e -> trials rhs A B C B2 o order t y f (h * factor o order e) l y' f' h' ->
    trials rhs A B C B2 o order t y f h ((h, e) :: l) y' f' h'.
(** the history has LEN_HISTORY = 2 entries *)
Definition two_entries (s : @st Rops) : Prop := length (ts (cache s)) = 2%nat /\ length (ys (cache s)) = 2%nat /\ length (fs (cache s)) = 2%nat.
