(** Vocabulary about solver instances: how they are built, what a history is. *)
From Coq Require Import List ZArith Bool Arith Permutation.
From Verif Require Import Base Scalar Vec MBuffer MZeros MSteps MApi MClasses Spec.
Import ListNotations.

Section SpecInst.
Context {OT : Ops} {E : Env}.

(** the two families of classes *)
Definition is_multistep (m : meth) : Prop :=
  match m with ExplMS _ _ | ImplMS _ _ _ => True | _ => False end.
Definition is_erk (m : meth) : Prop := match m with Erk _ _ _ => True | _ => False end.
Definition is_fixed (m : meth) : bool :=
  match m with Fsal _ _ _ _ _ _ | Dop _ _ _ _ _ _ _ _ _ => false | _ => true end.

(** np.empty returns arrays of the requested shape with arbitrary contents *)
Definition garbage_ok (m : meth) (g : garbage) : Prop :=
  length (ts (g_buf g)) = len_history m /\ length (ys (g_buf g)) = len_history m /\
  length (fs (g_buf g)) = len_history m /\ length (g_K g) = n_stages_of m.

(** [built rhs m s]: [s] is what a constructor of class [m] returns for the
    right-hand side [rhs] (params already applied): Runge-Kutta, variable step,
    multistep without first stepper, with a fixed step one, or with a variable
    step one.  The first stepper instance is the one __init__ builds. *)
Inductive built (rhs : rhs_t) : meth -> st -> Prop :=
| built_rk m g t0 y0 h s :
    is_erk m -> garbage_ok m g -> init_rk m g rhs t0 y0 h = Ret s -> built rhs m s
| built_var m g t0 y0 o sel first s :
    is_fixed m = false -> garbage_ok m g ->
    init_var m g rhs t0 y0 o sel first = Ret s -> built rhs m s
| built_ms m g t0 y0 h fuel s :
    is_multistep m -> garbage_ok m g ->
    init_ms m g rhs t0 y0 h FSNone fuel = Ret s -> built rhs m s
| built_ms_fixed m g t0 y0 h fuel s m1 s1 fuel1 o1 :
    is_multistep m -> garbage_ok m g ->
    is_fixed m1 = true -> built rhs m1 s1 -> now s1 = t0 -> state s1 = y0 ->
    hstep s1 = match h with Some x => x | None => one end ->
    init_ms m g rhs t0 y0 h
      (FSFixed (fun _ _ _ => Ret (solver_of m1 fuel1 o1 rhs PInf, s1))) fuel = Ret s ->
    built rhs m s
| built_ms_var m g t0 y0 h fuel s m1 s1 fuel1 o1 :
    is_multistep m -> garbage_ok m g ->
    is_fixed m1 = false -> built rhs m1 s1 -> now s1 = t0 -> state s1 = y0 ->
    init_ms m g rhs t0 y0 h
      (FSVar (fun _ _ => Ret (solver_of m1 fuel1 o1 rhs PInf, s1))) fuel = Ret s ->
    built rhs m s.

(** every recorded derivative is the right-hand side at the recorded point *)
Definition recorded_ok (rhs : rhs_t) (b : buffer) : Prop :=
  length (ys b) = length (ts b) /\ length (fs b) = length (ts b) /\
  forall i, i < length (ts b) ->
    rhs (nth i (ts b) zero) (nth i (ys b) []) = Ret (nth i (fs b) []).

(** the last [n] elements *)
Definition lastn {A} (n : nat) (l : list A) : list A := skipn (length l - n) l.

(** [s'] is reached from [s] by completed steps of the method and by changes that
    leave the recorded history alone *)
Inductive follows (sv : solver) : st -> list st -> st -> Prop :=
| fol_nil s : follows sv s [] s
| fol_step s s1 l s2 : s_core sv s = (Ret tt, s1) -> follows sv s1 l s2 ->
    follows sv s (s1 :: l) s2
| fol_quiet s s1 l s2 : cache s1 = cache s -> follows sv s1 l s2 -> follows sv s l s2.

(** n-fold sum t + h + h + ... + h, each sum computed by [add] *)
Fixpoint grid (t h : T) (n : nat) : T :=
  match n with O => t | S n' => add (grid t h n') h end.

(** ** what run computes *)
(** [l] are consecutive steps from [s], every one of them starting before [ti] *)
Definition upto_target (sv : solver) (ti : T) (s : st) (l : list st) (s' : st) : Prop :=
  chain sv (s_bound sv) s l s' /\ Forall (fun x => ltb (now x) ti = true) (removelast (s :: l)).

(** for each requested time: the steps up to it, then the interpolant there *)
Inductive sampled (sv : solver) : st -> list T -> list vec -> st -> Prop :=
| smp_nil s : sampled sv s [] [] s
| smp_cons s ti l s1 a s2 ts vs s3 :
    upto_target sv ti s l s1 -> ltb (now s1) ti = false ->
    s_interp sv ti s1 = (Ret a, s2) ->
    sampled sv s2 ts vs s3 -> sampled sv s (ti :: ts) (deref (cache s2) a :: vs) s3.

(** the integration cannot get to [tj]: one more step would pass t_bound *)
Definition refused (sv : solver) (tj : T) (s s' : st) : Prop :=
  exists l, upto_target sv tj s l s' /\ ltb (now s') tj = true /\ would_pass (s_bound sv) s'.
(** np.argsort did its job on [t]: [t'] is [t] rearranged by it, in order *)
Definition argsorts (t t' : list T) : Prop :=
  Permutation (np_argsort t) (seq 0 (length t)) /\
  fancy t (np_argsort t) = Ret t' /\ is_sorted t' = true.
(** the list run works on: [t] itself when it is sorted, else rearranged *)
Definition ordered (t t' : list T) : Prop :=
  (is_sorted t = true /\ t' = t) \/ (is_sorted t = false /\ argsorts t t').

(** the instances a client can have in hand: built, then any calls *)
Definition reachable (rhs : rhs_t) (m : meth) (fuelc : nat) (o : options) (tb : ext) (s : st) : Prop :=
  exists s0 fuel cs, built rhs m s0 /\ s = session (solver_of m fuelc o rhs tb) fuel cs s0.

(** the calls [cs], made one after the other, all return *)
Inductive returns (sv : solver) (fuel : nat) : list call -> st -> st -> Prop :=
| rts_nil s : returns sv fuel [] s s
| rts_cons c cs s s1 s2 : exec_call sv fuel c s = (Ret tt, s1) -> returns sv fuel cs s1 s2 ->
    returns sv fuel (c :: cs) s s2.

(** the call's upto_t is not a NaN *)
Definition no_nan (c : call) : Prop :=
  match c with
  | CStep _ (Some (Fin u)) | CSkip _ (Some (Fin u)) => leb u u = true
  | _ => True
  end.

(** the recorded times are in order and the current one is not NaN *)
Definition in_order (s : st) : Prop :=
  is_sorted (ts (cache s)) = true /\ leb (now s) (now s) = true.

(** right-hand sides that never raise; classes without an implicit equation *)
Definition total (rhs : rhs_t) : Prop := forall t y, exists f, rhs t y = Ret f.
Definition explicit (m : meth) : Prop :=
  match m with ExplMS _ _ | Erk _ _ _ => True | _ => False end.
(** every step asked for below [b] returns *)
Definition steps_return (sv : solver) (b : ext) (s : st) : Prop :=
  forall l x, chain sv b s l x -> exists x', s_core sv x = (Ret tt, x').

(** no step of a run from [s] goes backwards in time *)
Definition forward (sv : solver) (s : st) : Prop :=
  forall l x x', chain sv (s_bound sv) s l x -> completes sv (s_bound sv) x x' ->
    leb (now x) (now x') = true.
End SpecInst.
