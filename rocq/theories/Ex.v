(** Concrete instances used by the examples and counterexamples beside the
    property theorems.  Exact rationals; square root and power are irrelevant
    placeholders (identity / first argument) unless an example says otherwise. *)
From Coq Require Import List ZArith QArith Qcanon Bool Arith Floats.SpecFloat.
From Verif Require Import Base Scalar Vec MBuffer MZeros MSteps MApi MClasses Spec SpecInst.
Import ListNotations.

Definition QI : Ops := Qcops (fun x => x) (fun x _ => x).

(** insertion sort of indices *)
Section Sort.
Context {OT : Ops}.
Fixpoint ins_idx (l : list T) (i : nat) (a : list nat) : list nat :=
  match a with
  | [] => [i]
  | j :: a' => if leb (nth i l zero) (nth j l zero) then i :: a else j :: ins_idx l i a'
  end.
Definition isort (l : list T) : list nat := fold_right (ins_idx l) [] (seq 0 (length l)).
(** numba mode; np.linalg.solve of a 1x1 or diagonal system is not needed *)
Definition env0 (numba : bool) : Env := {|
  numba_mode := numba;
  np_solve := fun _ b => Ret b;
  np_argsort := isort |}.
End Sort.

Definition EQ : @Env QI := @env0 QI true.

Definition qq (x : Q) : @T QI := Q2Qc x.
(** y' = y *)
Definition rhs_exp {OT : Ops} : rhs_t := fun _ y => Ret y.
(** y' = 1 *)
Definition rhs_one {OT : Ops} : rhs_t := fun _ y => Ret (map (fun _ => one) y).
(** uninitialised memory, some contents *)
Definition garb {OT : Ops} (m : meth) : garbage :=
  mkgarb (mkbuf (repeat (lit 77) (len_history m)) (repeat [lit 88] (len_history m))
                (repeat [lit 99] (len_history m)))
         (repeat [lit 55] (n_stages_of m)).

Definition dummy {OT : Ops} : st := mkst (mkbuf [] [] []) zero [] (mkitp [] [] zero).
Definition of_outcome {OT : Ops} (o : outcome st) : st := match o with Ret s => s | _ => dummy end.

(** RungeKutta4 for y' = y from (0, [1]) with h = 1/2 *)
Definition ex_rk4 : @st QI :=
  of_outcome (init_rk (RungeKutta4 (OT := QI)) (garb RungeKutta4) rhs_exp (qq 0) [qq 1] (Some (qq (1 # 2)))).
(** ForwardEuler, same problem *)
Definition ex_fe : @st QI :=
  of_outcome (init_ms (E := EQ) (ForwardEuler (OT := QI)) (garb ForwardEuler) rhs_exp (qq 0) [qq 1] (Some (qq (1 # 2))) FSNone 0).
(** AdamsBashforth3 started by RungeKutta4 *)
Definition ex_ab3 : @st QI :=
  of_outcome (init_ms (E := EQ) (AB3 (OT := QI)) (garb AB3) rhs_exp (qq 0) [qq 1] (Some (qq (1 # 2)))
    (FSFixed (fun _ _ _ => Ret (solver_of (E := EQ) RungeKutta4 0 default_options rhs_exp PInf, ex_rk4))) 0).
(** RungeKutta23 for y' = 1, first_step = 1/2 *)
Definition ex_rk23 : @st QI :=
  of_outcome (init_var (RungeKutta23 (OT := QI)) (garb RungeKutta23) rhs_one (qq 0) [qq 1] default_options
    (fun _ _ _ => Ret one) (Some (qq (1 # 2)))).

(** the solvers with a bound *)
Definition sv_rk4 (tb : ext) : @solver QI := solver_of (E := EQ) RungeKutta4 0 default_options rhs_exp tb.
Definition sv_fe (tb : ext) : @solver QI := solver_of (E := EQ) ForwardEuler 0 default_options rhs_exp tb.
Definition sv_ab3 (tb : ext) : @solver QI := solver_of (E := EQ) AB3 0 default_options rhs_exp tb.
Definition sv_rk23 (tb : ext) : @solver QI := solver_of (E := EQ) RungeKutta23 5 default_options rhs_one tb.

Lemma garb_ok {OT : Ops} m : garbage_ok m (garb m).
Proof. unfold garbage_ok, garb. cbn [g_buf ts ys fs g_K]. rewrite !repeat_length. auto. Qed.

(** the constructor returned *)
Lemma of_outcome_ok {OT : Ops} (o : outcome st) :
  match o with Ret _ => true | _ => false end = true -> o = Ret (of_outcome o).
Proof. destruct o; intros H; [reflexivity | discriminate | discriminate]. Qed.

Lemma ex_rk4_built : built (E := EQ) rhs_exp RungeKutta4 ex_rk4.
Proof.
  refine (built_rk (E := EQ) _ RungeKutta4 (garb RungeKutta4) (qq 0) [qq 1] (Some (qq (1 # 2))) _ I (garb_ok _) _).
  apply of_outcome_ok. vm_compute. reflexivity.
Qed.
Lemma ex_fe_built : built (E := EQ) rhs_exp ForwardEuler ex_fe.
Proof.
  refine (built_ms (E := EQ) _ ForwardEuler (garb ForwardEuler) (qq 0) [qq 1] (Some (qq (1 # 2))) 0 _ I (garb_ok _) _).
  apply of_outcome_ok. vm_compute. reflexivity.
Qed.
Lemma ex_ab3_built : built (E := EQ) rhs_exp AB3 ex_ab3.
Proof.
  refine (built_ms_fixed (E := EQ) _ AB3 (garb AB3) (qq 0) [qq 1] (Some (qq (1 # 2))) 0 _
    RungeKutta4 ex_rk4 0 default_options I (garb_ok _) eq_refl ex_rk4_built _ _ _ _).
  1-3: reflexivity.
  apply of_outcome_ok. vm_compute. reflexivity.
Qed.
Lemma ex_rk23_built : built (E := EQ) rhs_one RungeKutta23 ex_rk23.
Proof.
  refine (built_var (E := EQ) _ RungeKutta23 (garb RungeKutta23) (qq 0) [qq 1] default_options
    (fun _ _ _ => Ret one) (Some (qq (1 # 2))) _ eq_refl (garb_ok _) _).
  apply of_outcome_ok. vm_compute. reflexivity.
Qed.

(** reading results as rationals *)
Definition rowQ (r : @T QI * list (@T QI)) : Q * list Q := (this (fst r), map this (snd r)).
Definition stepQ (r : outcome (@step_ret QI) * @st QI) : option (list (Q * list Q)) :=
  match fst r with Ret (RMany rows) => Some (map rowQ rows) | _ => None end.
