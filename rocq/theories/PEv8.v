(** Counterexamples for C45, C47, C48, C49; requests in the past (C47). *)
From Coq Require Import List ZArith QArith Qcanon Bool Arith Lia Permutation.
From Verif Require Import Base Scalar Vec MBuffer MZeros MSteps MApi MClasses Laws Spec SpecInst SpecEv PStep PRun PRun2 PRun3 Ex PRef1 PRef2 PEv1 PEv3.
Import ListNotations.
Open Scope nat_scope.

(** what a call returned, as rationals *)
Definition evQ (r : outcome (@run_ret QI) * @st QI) : option (list (Q * list Q) * list (list Q)) :=
  match fst r with Ret r => Some (map rowQ (rr_rows r), map (map this) (rr_tev r)) | _ => None end.
Definition errQ {A} (r : outcome A * @st QI) : option exn := match fst r with Raise e => Some e | _ => None end.
(** events at given times *)
Definition ev_at_time (c : Q) (term : option bool) : @user_event QI := mkuev (fun t _ => Ret (sub t (qq c))) term None.

(** ForwardEuler, y' = y, h = 1/2: both events are in the first step *)
Lemma C45_ref : evQ (run_events (E := EQ) (sv_fe PInf) 5 [qq 1] [ev_at_time (1 # 8) (Some true); ev_at_time (3 # 8) (Some true)] ex_fe)
  = Some ([((3 # 8)%Q, [343 # 256]%Q)], [[1 # 8]%Q; [3 # 8]%Q]).
Proof. vm_compute. reflexivity. Qed.
Lemma C48_ref : evQ (run_events (E := EQ) (sv_fe PInf) 5 [qq 1] [ev_at_time (1 # 8) (Some true); ev_at_time (3 # 8) None] ex_fe)
  = Some ([((1 # 8)%Q, [285 # 256]%Q)], [[1 # 8]%Q; [3 # 8]%Q]).
Proof. vm_compute. reflexivity. Qed.
Lemma C47_ref : errQ (run_events (E := EQ) (sv_fe PInf) 5 [qq 0; qq 1] [ev_at_time (1 # 8) None] ex_fe) = Some AttributeError /\
  rowsQ (run (E := EQ) (sv_fe PInf) 5 [qq 0; qq 1] ex_fe) = Some [(0%Q, [1%Q]); (1%Q, [9 # 4]%Q)].
Proof. split; vm_compute; reflexivity. Qed.
(** AdamsBashforth3, y' = y: the event function goes from about -0.22 to 1.36 *)
Definition ev_tilt : @user_event QI :=
  mkuev (fun t y => Ret (add (sub (qq (5 # 2)) (hd (qq 0) y)) (mul (qq 4) (sub t (qq 1))))) None None.
Lemma C49_ref : errQ (run_events (E := EQ) (sv_ab3 PInf) 5 [qq (3 # 2)] [ev_tilt] ex_ab3) = Some ValueError.
Proof. vm_compute. reflexivity. Qed.

(** C50: an unsorted request that is not fully answered raises *)
Lemma fancy_short {A} (l : list A) idx n : Permutation idx (seq 0 n) -> length l < n -> fancy l idx = Raise IndexError.
Proof.
  intros Hp Hl. assert (Hi : In (length l) idx) by (eapply Permutation_in; [apply Permutation_sym; exact Hp|]; apply in_seq; lia).
  unfold fancy. clear Hp. induction idx as [|k idx IH]; [destruct Hi|]. cbn [omapM].
  destruct (nth_error l k) eqn:e; cbn [obind]; auto.
  destruct Hi as [->|Hi]; [assert (K : nth_error l (length l) = None) by (apply nth_error_None; lia); congruence|].
  rewrite IH by auto. reflexivity.
Qed.
Section G.
Context {OT : Ops} {L : OrdLaws OT} {E : Env}.
Variables (m : meth) (fuelc : nat) (o : options) (rhs : rhs_t) (tb : ext).
Let sv := solver_of m fuelc o rhs tb.
Lemma C50_always fuel t t' s rows s' : is_sorted t = false -> argsorts t t' ->
  run sv fuel t' s = (Ret rows, s') -> length rows < length t -> run sv fuel t s = (Raise IndexError, s').
Proof.
  intros Hs Ha Hr Hl. pose proof Ha as (Hp & _).
  pose proof (run_unsorted m fuelc o rhs tb fuel t t' s Hs Ha) as K. fold sv in K. rewrite K, Hr.
  rewrite (fancy_short _ _ (length t)); auto. now apply inv_perm_perm.
Qed.
(** C47: with events, a request at or before the current time never returns *)
Lemma C47_never fuel t t' evs s x r s' : ordered t t' -> evs <> [] -> In x t -> leb x (now s) = true ->
  run_events sv fuel t evs s <> (Ret r, s').
Proof.
  intros Ho He Hx Hle H. destruct (ordered_perm _ _ Ho) as (Hp & _).
  apply (run_events_inv m fuelc o rhs tb fuel t t') in H as (es & rows & es' & last' & _ & HF & _); auto.
  rewrite Forall_forall in HF. rewrite (HF x) in Hle; [discriminate|]. eapply Permutation_in; [apply Permutation_sym; exact Hp|exact Hx].
Qed.
(** C46, fixed step classes *)
Lemma C46_fixed fuel t t' evs s r s' : is_fixed m = true -> ordered t t' -> evs <> [] ->
  (forall u, In u evs -> ue_terminal u <> Some true) ->
  run_events sv fuel t evs s = (Ret r, s') ->
  exists s1, run sv fuel t s = (Ret (rr_rows r), s1) /\ cache s1 = cache s' /\ hstep s1 = hstep s' /\ stages s1 = stages s'.
Proof.
  intros Hf Ho He Ht H.
  refine (quiet_lemma m fuelc o rhs tb (fun _ => True) (fun _ _ => True) _ _ _ _ _ _ _ fuel t t' evs s r s' I Ho He _ Ht H); auto.
  intros t0 x s0 _ _ S _. apply sim_iff in S as (S & _).
  clear -S Hf. destruct m; try discriminate; cbn [solver_of s_interp interp_of]; unfold interp_default; cbn [fst]; now rewrite S.
Qed.
End G.

(** the signs in the counterexample for C49 *)
Definition ex_ab3_1 : @st QI := snd (s_core (sv_ab3 PInf) ex_ab3).
Lemma ab3_1_ok : s_core (sv_ab3 PInf) ex_ab3 = (Ret tt, ex_ab3_1).
Proof.
  assert (K : match fst (s_core (sv_ab3 PInf) ex_ab3) with Ret tt => true | _ => false end = true) by (vm_compute; reflexivity).
  unfold ex_ab3_1. destruct (s_core (sv_ab3 PInf) ex_ab3) as [o x]. cbn [fst snd] in *. destruct o as [[]| |]; try discriminate K. reflexivity.
Qed.
Definition tilt (t : @T QI) (y : @vec QI) : @T QI := add (sub (qq (5 # 2)) (hd (qq 0) y)) (mul (qq 4) (sub t (qq 1))).
Lemma tilt_value s : value ev_tilt s (tilt (now s) (state s)).
Proof. unfold value, ev_tilt, tilt. cbn [ue_fun]. reflexivity. Qed.
Lemma C49_signs : exists v v1 x1, completes (sv_ab3 PInf) PInf ex_ab3 x1 /\ value ev_tilt ex_ab3 v /\ value ev_tilt x1 v1 /\
  ltb v zero = true /\ ltb zero v1 = true.
Proof.
  exists (tilt (now ex_ab3) (state ex_ab3)), (tilt (now ex_ab3_1) (state ex_ab3_1)), ex_ab3_1.
  split; [split; [unfold would_pass; cbn [gt_ext]; discriminate|exact ab3_1_ok]|].
  split; [apply tilt_value|]. split; [apply tilt_value|]. split; vm_compute; reflexivity.
Qed.
