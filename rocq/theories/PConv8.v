(** Instances for the examples of C33: y' = y, y(0) = 1. *)
From Coq Require Import List ZArith QArith Bool Arith Lia Reals Lra.
From Verif Require Import Base Scalar Vec MBuffer MZeros MSteps MApi MDop853 MClasses Laws Spec SpecInst
  PStep PCore PHist PBound PVecR SpecRK PDim PFwd PTerm SpecMS PMS PMS2 PTop1 PMS6 PMS7 Ex SpecOrder POrd4 SpecConv PConv1.
Import ListNotations.
Open Scope R_scope.

Definition sol_exp (t : R) : list R := [exp t].
Lemma exp_lipschitz : lipschitz 1 1 rhs_exp.
Proof.
  split; [lra|]. split.
  - intros t y f H E. injection E as <-. exact H.
  - intros t y z u v e _ _ H E1 E2. injection E1 as <-. injection E2 as <-. now rewrite Rmult_1_l.
Qed.
Lemma exp_solution t0 te : C2_solution rhs_exp 1 t0 te sol_exp.
Proof.
  exists sol_exp, sol_exp. intros t _. split; [reflexivity|]. split; [reflexivity|].
  intros i Hi. destruct i as [|i]; [|lia]. cbn. split; [apply derivable_pt_lim_exp|]. split; [apply derivable_pt_lim_exp|].
  apply derivable_continuous_pt. apply derivable_pt_exp.
Qed.
Lemma sol_exp_0 : sol_exp 0 = [1]. Proof. unfold sol_exp. now rewrite exp_0. Qed.

Lemma exp_rk4 h : init_rk (RungeKutta4 (OT := Rops)) (garb RungeKutta4) rhs_exp 0 (sol_exp 0) (Some h) = Ret (r_rk4 h).
Proof. rewrite sol_exp_0. reflexivity. Qed.
Lemma exp_rk4_props h : now (r_rk4 h) = 0 /\ state (r_rk4 h) = [1] /\ hstep (r_rk4 h) = h.
Proof. split; [|split]; reflexivity. Qed.

Lemma exp_rk4_step h : exists s, session (E := ER) (solver_of (E := ER) RungeKutta4 0 default_options rhs_exp PInf) 0 [CStep None None] (r_rk4 h) = s /\ now s = h.
Proof.
  destruct (exp_rk4_props h) as (N & _ & H).
  destruct (core_total (E := ER) RungeKutta4 0 default_options rhs_exp (r_rk4 h) total_exp I) as (s' & Hc).
  exists s'. split.
  - cbn [session exec_call]. rewrite step_none by reflexivity. cbn [s_core solver_of]. rewrite Hc. reflexivity.
  - destruct (core_fixed_now (E := ER) RungeKutta4 0 default_options rhs_exp (r_rk4 h) s') as (E1 & _); auto.
    + exact (proj1 (built_good _ _ _ (r_rk4_built h))).
    + rewrite N, H in E1. refine (eq_trans E1 _). exact (Rplus_0_l h).
Qed.

(** AB3 started with RungeKutta4 *)
Lemma exp_ab3 h : exists fs s, starts (E := ER) rhs_exp 0 (sol_exp 0) h (Some RungeKutta4) fs /\
  init_ms (E := ER) AB3 (garb AB3) rhs_exp 0 (sol_exp 0) (Some h) fs 0 = Ret s /\ now s = h + h.
Proof.
  exists (FSFixed (fun _ _ _ => Ret (solver_of (E := ER) RungeKutta4 0 default_options rhs_exp PInf, r_rk4 h))).
  assert (Ex : exists s, init_ms (E := ER) AB3 (garb AB3) rhs_exp 0 (sol_exp 0) (Some h)
     (FSFixed (fun _ _ _ => Ret (solver_of (E := ER) RungeKutta4 0 default_options rhs_exp PInf, r_rk4 h))) 0 = Ret s /\ hstep s = h).
  { unfold init_ms. cbn [init_base obind rhs_exp]. destruct (Nat.eqb _ 1); [eexists; split; reflexivity|]. cbn [fst snd].
    match goal with |- context [fs_fixed_loop ?a ?b ?c ?d] => 
      destruct (fs_loop_returns (E := ER) RungeKutta4 0 default_options rhs_exp a total_exp I c d) as (c' & e);
      replace (fs_fixed_loop a b c d) with (@Ret (@buffer Rops) c') by (symmetry; exact e) end.
    cbn [obind]. eexists. split; reflexivity. }
  destruct Ex as (s & Hs & Hh). exists s.
  assert (St : starts (E := ER) rhs_exp 0 (sol_exp 0) h (Some RungeKutta4) (FSFixed (fun _ _ _ => Ret (solver_of (E := ER) RungeKutta4 0 default_options rhs_exp PInf, r_rk4 h)))).
  { apply (starts_fixed (E := ER) rhs_exp 0 (sol_exp 0) h RungeKutta4 (garb RungeKutta4) (r_rk4 h)); [apply garb_ok|apply exp_rk4]. }
  split; [exact St|]. split; [exact Hs|].
  destruct (exp_rk4_props h) as (N & Y & H).
  assert (Y' : state (r_rk4 h) = sol_exp 0) by (rewrite sol_exp_0; exact Y).
  pose proof (C05_fixed (OT := Rops) (E := ER) AB3 rhs_exp (garb AB3) 0 (sol_exp 0) (Some h) RungeKutta4 (r_rk4 h) 0%nat default_options 0%nat s (garb_ok _) I (le_S 2 2 (le_n 2)) eq_refl (r_rk4_built h) N Y' H Hs) as T.
  unfold now, buf_t. rewrite T, Hh. cbn. rewrite Rplus_0_l. reflexivity.
Qed.
