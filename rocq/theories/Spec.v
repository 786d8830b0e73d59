(** Vocabulary of the property statements: what a trajectory of a solver is,
    independently of the loops in the API functions. *)
From Coq Require Import List ZArith Bool Arith.
From Verif Require Import Base Scalar Vec MBuffer MZeros MSteps MApi.
Import ListNotations.

Section Spec.
Context {OT : Ops} {E : Env}.

(** current time, state and derivative of an instance *)
Definition now (s : st) : T := buf_t (cache s).
Definition state (s : st) : vec := buf_y (cache s).
Definition deriv (s : st) : vec := buf_f (cache s).
(** the (t, y) pair recorded after a step *)
Definition row (s : st) : T * vec := (now s, state s).

(** one more step of the current step size would go beyond [b] *)
Definition would_pass (b : ext) (s : st) : Prop := gt_ext (add (now s) (hstep s)) b = true.

(** one step of the method, allowed by [b] and completed *)
Definition completes (sv : solver) (b : ext) (s s' : st) : Prop :=
  ~ would_pass b s /\ s_core sv s = (Ret tt, s').

(** consecutive completed steps; the list holds the state after each step *)
Inductive chain (sv : solver) (b : ext) : st -> list st -> st -> Prop :=
| chain_nil s : chain sv b s [] s
| chain_cons s s1 l s2 : completes sv b s s1 -> chain sv b s1 l s2 -> chain sv b s (s1 :: l) s2.

(** the same outcome with the value forgotten *)
Definition forget {A} (o : outcome A) : outcome unit :=
  match o with Ret _ => Ret tt | Raise e => Raise e | Loop => Loop end.

(** ** Sequences of API calls *)
Inductive call : Type :=
| CStep (n : option Z) (upto_t : option ext)
| CSkip (n : option Z) (upto_t : option ext)
| CRun (t : list T)
| CRunEvents (t : list T) (events : list user_event)
| CInterpolate (t : T).

(** the effect of one call; [fuel] bounds its while loops *)
Definition exec_call (sv : solver) (fuel : nat) (c : call) (s : st) : outcome unit * st :=
  match c with
  | CStep n u => let '(o, s') := step sv fuel n u s in (forget o, s')
  | CSkip n u => skip sv fuel n u s
  | CRun t => let '(o, s') := run sv fuel t s in (forget o, s')
  | CRunEvents t e => let '(o, s') := run_events sv fuel t e s in (forget o, s')
  | CInterpolate t => let '(o, s') := interpolate sv t s in (forget o, s')
  end.

(** A client that performs the calls one after the other, catching exceptions.
    (A call that does not return has no successor: [Loop] stops the session.) *)
Fixpoint session (sv : solver) (fuel : nat) (cs : list call) (s : st) : st :=
  match cs with
  | [] => s
  | c :: cs' =>
      match exec_call sv fuel c s with
      | (Loop, s') => s'
      | (_, s') => session sv fuel cs' s'
      end
  end.
End Spec.
