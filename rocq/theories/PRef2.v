(** Counterexamples for C20, C24, C25. *)
From Coq Require Import List ZArith QArith Qcanon Bool Arith Lia.
From Verif Require Import Base Scalar Vec MBuffer MZeros MSteps MApi MClasses Laws Spec SpecInst PStep PTerm Ex PRef1.
Import ListNotations.

(** an array read through the current history buffer *)
Definition arrQ (s : @st QI) (a : arr) : list Q := map this (deref (cache s) a).
Definition interpQ (r : outcome (@arr QI) * @st QI) : option (list Q) :=
  match fst r with Ret a => Some (arrQ (snd r) a) | _ => None end.

(** C20: AB3 with h = 1/2 has recorded (1/2, y1); interpolate(1/2) is not y1 *)
Lemma C20_lemma :
  map this (ts (cache ex_ab3)) = [0; 1 # 2; 1]%Q /\
  interpQ (interpolate (sv_ab3 PInf) (qq (1 # 2)) ex_ab3) <>
  Some (map this (nth 1 (ys (cache ex_ab3)) [])).
Proof. split; [vm_compute; reflexivity | vm_compute; discriminate]. Qed.

(** C24: RungeKutta23 for y' = 2 t, whose right-hand side raises for t > 1 *)
Definition rhs_2t : @rhs_t QI := fun t _ => if ltb (qq 1) t then Raise (UserError 1) else Ret [mul (qq 2) t].
Definition ex_2t : @st QI :=
  of_outcome (init_var (RungeKutta23 (OT := QI)) (garb RungeKutta23) rhs_2t (qq 0) [qq 0] default_options
    (fun _ _ _ => Ret one) (Some (qq (1 # 2)))).
Definition sv_2t (tb : ext) : @solver QI := solver_of (E := EQ) RungeKutta23 5 default_options rhs_2t tb.
Lemma ex_2t_built : built (E := EQ) rhs_2t RungeKutta23 ex_2t.
Proof.
  refine (built_var (E := EQ) _ RungeKutta23 (garb RungeKutta23) (qq 0) [qq 0] default_options
    (fun _ _ _ => Ret one) (Some (qq (1 # 2))) _ eq_refl (garb_ok _) _).
  apply of_outcome_ok. vm_compute. reflexivity.
Qed.
(** one step from 0 to 1/2, then one that raises *)
Definition ex_2t_1 : @st QI := session (E := EQ) (sv_2t PInf) 5 [CStep None None] ex_2t.
Definition ex_2t_2 : @st QI := session (E := EQ) (sv_2t PInf) 5 [CStep None None; CStep None None] ex_2t.
Definition bufQ (b : @buffer QI) : list Q * list (list Q) * list (list Q) :=
  (map this (ts b), map (map this) (ys b), map (map this) (fs b)).
Lemma C24_lemma :
  bufQ (cache ex_2t_2) = bufQ (cache ex_2t_1) /\
  interpQ (interpolate (sv_2t PInf) (qq (1 # 4)) ex_2t_1) = Some [1 # 16]%Q /\
  interpQ (interpolate (sv_2t PInf) (qq (1 # 4)) ex_2t_2) <> Some [1 # 16]%Q.
Proof. split; [|split]; [vm_compute; reflexivity .. | vm_compute; discriminate]. Qed.

(** C25: the array returned by step() *)
Definition one_view (r : outcome (@step_ret QI) * @st QI) : option (@arr QI) :=
  match fst r with Ret (ROne _ a) => Some a | _ => None end.
Lemma C25_step_lemma : exists t a s1, step (sv_rk4 PInf) 5 None None ex_rk4 = (Ret (ROne t a), s1) /\
  arrQ (session (E := EQ) (sv_rk4 PInf) 5 [CStep None None] s1) a <> arrQ s1 a.
Proof.
  destruct (step (sv_rk4 PInf) 5 None None ex_rk4) as [o s1] eqn:e.
  assert (K : match step (sv_rk4 PInf) 5 None None ex_rk4 with (Ret (ROne t a), s1) =>
     negb (forallb (fun p => Qeq_bool (fst p) (snd p)) (combine (arrQ (session (E := EQ) (sv_rk4 PInf) 5 [CStep None None] s1) a) (arrQ s1 a))) | _ => false end = true)
    by (vm_compute; reflexivity).
  rewrite e in K. destruct o as [[|t a|]| |]; try discriminate. exists t, a, s1. split; auto.
  intros He. rewrite He in K. clear - K. induction (arrQ s1 a) as [|q l IH]; cbn in *; try discriminate.
  rewrite (proj2 (Qeq_bool_iff q q) (Qeq_refl q)) in K. cbn in K. auto.
Qed.
(** C25: y_events.  y' = 1 from 1 at t = 0, event t - 1/2: zero at the end of the first step *)
Definition ev_half : @user_event QI := mkuev (fun t _ => Ret (sub t (qq (1 # 2)))) None None.
Lemma C25_events_lemma : exists r s1 a, run_events (E := EQ) (sv_rk23 PInf) 5 [qq (1 # 2)] [ev_half] ex_rk23 = (Ret r, s1) /\
  map (map this) (rr_tev r) = [[1 # 2]%Q] /\ rr_yev r = [[a]] /\
  arrQ (session (E := EQ) (sv_rk23 PInf) 5 [CStep None None] s1) a <> arrQ s1 a.
Proof.
  destruct (run_events (E := EQ) (sv_rk23 PInf) 5 [qq (1 # 2)] [ev_half] ex_rk23) as [o s1] eqn:e.
  assert (K : match run_events (E := EQ) (sv_rk23 PInf) 5 [qq (1 # 2)] [ev_half] ex_rk23 with (Ret r, s1) =>
     match rr_yev r with [[a]] =>
       match rr_tev r with [[t]] => if Qc_eq_dec t (qq (1 # 2)) then
     negb (forallb (fun p => Qeq_bool (fst p) (snd p)) (combine (arrQ (session (E := EQ) (sv_rk23 PInf) 5 [CStep None None] s1) a) (arrQ s1 a))) else false | _ => false end | _ => false end | _ => false end = true)
    by (vm_compute; reflexivity).
  rewrite e in K. destruct o as [r| |]; try discriminate. destruct (rr_yev r) as [|[|a []] []] eqn:ey; try discriminate.
  destruct (rr_tev r) as [|[|t []] []] eqn:et; try discriminate. destruct (Qc_eq_dec t (qq (1 # 2))) as [->|]; try discriminate.
  exists r, s1, a. rewrite et. repeat split; auto.
  intros He. rewrite He in K. clear - K. induction (arrQ s1 a) as [|q l IH]; cbn in *; try discriminate.
  rewrite (proj2 (Qeq_bool_iff q q) (Qeq_refl q)) in K. cbn in K. auto.
Qed.
