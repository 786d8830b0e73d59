(** Counterexamples for C03, C04, C05, C12, C14, C50. *)
From Coq Require Import List ZArith QArith Qcanon Bool Arith Lia Floats.SpecFloat.
From Verif Require Import Base Scalar Vec MBuffer MZeros MSteps MApi MClasses Laws Spec SpecInst PStep PTerm Ex.
Import ListNotations.

(** ** binary64 *)
Section F.
Variable pw : spec_float -> spec_float -> spec_float.
Let FI := SFops pw.
Let EF : @Env FI := @env0 FI true.
Definition ff (q : Q) : @T FI := sf_of_Q q.
Definition f_nan : @T FI := S754_nan.

(** ForwardEuler for y' = 1 from t0, y0 = 0, step h *)
Definition f_euler (t0 h : @T FI) : @st FI :=
  of_outcome (init_ms (OT := FI) (E := EF) ForwardEuler (garb ForwardEuler) rhs_one t0 [ff 0] (Some h) FSNone 0).
Definition f_sv (tb : @ext FI) : @solver FI := solver_of (OT := FI) (E := EF) ForwardEuler 0 default_options rhs_one tb.

Lemma f_built t0 h : built (OT := FI) (E := EF) rhs_one ForwardEuler (f_euler t0 h).
Proof.
  refine (built_ms (OT := FI) (E := EF) _ ForwardEuler (garb ForwardEuler) t0 [ff 0] (Some h) 0 _ I (garb_ok _) _).
  apply of_outcome_ok. reflexivity.
Qed.

Lemma C04_nan_lemma :
  gt_ext (OT := FI) (now (session (E := EF) (f_sv (Fin (ff 2))) 0
     [CStep (Some 5%Z) (Some (Fin f_nan))] (f_euler (ff 0) (ff 1)))) (Fin (ff 2)) = true
  /\ gt_ext (OT := FI) (now (f_euler (ff 0) (ff 1))) (Fin (ff 2)) = false.
Proof. vm_compute. auto. Qed.

(** h = 1 is lost in 2^53 + 1 *)
Definition big : @T FI := ff (inject_Z (2 ^ 53)).
Definition f_zero_rhs : @rhs_t FI := fun _ y => Ret (map (fun _ => ff 0) y).
Definition f_big : @st FI :=
  of_outcome (init_ms (OT := FI) (E := EF) ForwardEuler (garb ForwardEuler) f_zero_rhs big [ff 0] (Some (ff 1)) FSNone 0).
Definition f_svz (tb : @ext FI) : @solver FI := solver_of (OT := FI) (E := EF) ForwardEuler 0 default_options f_zero_rhs tb.
Lemma f_big_built : built (OT := FI) (E := EF) f_zero_rhs ForwardEuler f_big.
Proof.
  refine (built_ms (OT := FI) (E := EF) _ ForwardEuler (garb ForwardEuler) big [ff 0] (Some (ff 1)) 0 _ I (garb_ok _) _).
  apply of_outcome_ok. reflexivity.
Qed.
Lemma f_big_fix : s_core (f_svz PInf) f_big = (Ret tt, f_big).
Proof. vm_cast_no_check (eq_refl (Ret tt, f_big)). Qed.
Lemma C12_f_lemma fuel :
  @ltb FI zero (hstep f_big) = true /\
  fst (step (f_svz PInf) fuel None (Some (Fin (ff (inject_Z (2 ^ 53 + 2))))) f_big) = Loop.
Proof.
  split; [vm_compute; reflexivity|].
  rewrite (not_lt_upto (f_svz PInf)) by (vm_compute; reflexivity). cbn [ext_gt gt_ext s_bound f_svz solver_of].
  pose proof (steps_loop (f_svz PInf) (Fin (ff (inject_Z (2 ^ 53 + 2)))) (fun s => s = f_big)) as K.
  specialize (K ltac:(intros s -> Hw; assert (N : gt_ext (OT := FI) (add (now f_big) (hstep f_big)) (Fin (ff (inject_Z (2 ^ 53 + 2)))) = false) by (vm_compute; reflexivity); unfold would_pass in Hw; rewrite N in Hw; discriminate)
               ltac:(intros s ->; exists f_big; split; [apply f_big_fix | reflexivity]) fuel f_big eq_refl).
  destruct (steps_ _ fuel _ _) as [[| |] ?]; cbn in *; congruence.
Qed.
End F.

(** ** rationals *)
(** AdamsBashforth3 started with the variable step RungeKutta23 *)
Definition rk23_at (t : @T QI) (y : vec) : outcome (@solver QI * @st QI) :=
  let! s := init_var (RungeKutta23 (OT := QI)) (garb RungeKutta23) rhs_one t y default_options
              (fun _ _ _ => Ret one) (Some (qq (1 # 2))) in
  Ret (solver_of (E := EQ) RungeKutta23 5 default_options rhs_one PInf, s).
Definition ab3_var (t0 h : Q) : outcome (@st QI) :=
  init_ms (E := EQ) (AB3 (OT := QI)) (garb AB3) rhs_one (qq t0) [qq 0] (Some (qq h)) (FSVar rk23_at) 20.

Lemma C05_var_grid_lemma : exists s, ab3_var (-1 # 1) 1 = Ret s /\
  map this (ts (cache s)) = [-1 # 1; 1; 2]%Q.
Proof.
  destruct (ab3_var (-1 # 1) 1) as [s| |] eqn:e.
  - exists s. split; auto. 
    assert (K : match ab3_var (-1 # 1) 1 with Ret s => map this (ts (cache s)) | _ => [] end = [-1 # 1; 1; 2]%Q)
      by (vm_compute; reflexivity).
    rewrite e in K. exact K.
  - exfalso. assert (K : match ab3_var (-1 # 1) 1 with Ret s => true | _ => false end = true) by (vm_compute; reflexivity).
    rewrite e in K. discriminate.
  - exfalso. assert (K : match ab3_var (-1 # 1) 1 with Ret s => true | _ => false end = true) by (vm_compute; reflexivity).
    rewrite e in K. discriminate.
Qed.
Lemma C05_var_raise_lemma : ab3_var 10 1 = Raise ValueError.
Proof.
  assert (K : match ab3_var 10 1 with Raise ValueError => true | _ => false end = true) by (vm_compute; reflexivity).
  destruct (ab3_var 10 1) as [|[]|]; try discriminate. reflexivity.
Qed.
Lemma C05_bound_lemma : gt_ext (OT := QI) (now ex_ab3) (Fin (qq (1 # 2))) = true.
Proof. vm_compute. reflexivity. Qed.

(** C14: h = 1/2, t_bound = 3/4, run([1/4, 3/5]) *)
Definition rowsQ (r : outcome (list (@T QI * @vec QI)) * @st QI) : option (list (Q * list Q)) :=
  match fst r with Ret rows => Some (map rowQ rows) | _ => None end.
Lemma C14_lemma : rowsQ (run (E := EQ) (sv_rk4 (Fin (qq (3 # 4)))) 20 [qq (1 # 4); qq (3 # 5)] ex_rk4)
  = rowsQ (run (E := EQ) (sv_rk4 (Fin (qq (3 # 4)))) 20 [qq (1 # 4)] ex_rk4) /\
  option_map (@length _) (rowsQ (run (E := EQ) (sv_rk4 (Fin (qq (3 # 4)))) 20 [qq (1 # 4); qq (3 # 5)] ex_rk4)) = Some 1%nat.
Proof. vm_compute. auto. Qed.
(** C50: the same request in the other order *)
Lemma C50_lemma : fst (run (E := EQ) (sv_rk4 (Fin (qq (3 # 4)))) 20 [qq (3 # 5); qq (1 # 4)] ex_rk4)
  = Raise IndexError.
Proof.
  match goal with |- ?x = _ => assert (K : match x with Raise IndexError => true | _ => false end = true) by (vm_compute; reflexivity);
    destruct x as [|[]|] end; try discriminate. reflexivity.
Qed.
