(** Instances for the examples of C72. *)
From Coq Require Import List ZArith QArith Bool Arith Lia Reals Lra.
From Verif Require Import Base Scalar Vec MBuffer MZeros MSteps MApi MDop853 MClasses Laws Spec SpecInst
  PStep PCore PHist PBound PVecR SpecRK PDim PTerm SpecMS PMS PMS2 PMS3 PTop1 Ex SpecStab PStab.
Import ListNotations.
Open Scope R_scope.

Section G.
Context {E : @Env Rops}.
Definition one_step_cls (m : @meth Rops) : Prop := m = ForwardEuler \/ m = BackwardEuler.
Lemma ms_start lam m : one_step_cls m -> exists s0, built (E := E) (test_equation lam) m s0 /\ dims 1 s0 /\ hstep s0 = 1 /\ state s0 = [1].
Proof.
  intros Hm.
  assert (Ex : exists s0, init_ms (E := E) m (garb m) (test_equation lam) 0 [1] (Some 1) FSNone 0 = Ret s0 /\ dims 1 s0 /\ hstep s0 = 1 /\ state s0 = [1]).
  { destruct Hm as [-> | ->]; unfold init_ms; cbn [init_base obind test_equation]; eexists; (split; [reflexivity|]); (split; [repeat constructor|]); split; reflexivity. }
  destruct Ex as (s0 & H0 & H1 & H2 & H3). exists s0. split; auto.
  eapply built_ms; [|apply garb_ok|exact H0]. destruct Hm as [-> | ->]; exact I.
Qed.
Lemma fe_ex : exists s0 s, built (E := E) (test_equation (-3)) ForwardEuler s0 /\ dims 1 s0 /\ hstep s0 = 1 /\ state s0 = [1] /\
    1 < Rabs (1 + hstep s0 * -3) /\ took_step (solver_of (E := E) ForwardEuler 0 default_options (test_equation (-3)) PInf) s0 s /\ state s = [-2].
Proof.
  destruct (ms_start (-3) ForwardEuler (or_introl eq_refl)) as (s0 & H1 & H2 & H3 & H4).
  destruct (core_total (E := E) ForwardEuler 0 default_options (test_equation (-3)) s0) as (s & Hc); [intros t y; eexists; reflexivity|exact I|].
  exists s0, s. split; [exact H1|]. split; [exact H2|]. split; [exact H3|]. split; [exact H4|].
  split; [rewrite H3, Rabs_left; lra|]. split; [apply core_took; exact Hc|].
  destruct (growth (E := E) (-3) ForwardEuler (fun z => 1 + z) 1 0 default_options s0 s) as (h & _ & G2 & G3); auto.
  - left. reflexivity.
  - eapply built_good; eauto.
  - rewrite G2, G3, H3, H4 by reflexivity. cbn [times map]. f_equal. lra.
Qed.
Lemma be_ex : exists s0 s, built (E := E) (test_equation (-3)) BackwardEuler s0 /\ dims 1 s0 /\ hstep s0 * -3 <= 0 /\
    took_step (solver_of (E := E) BackwardEuler 0 default_options (test_equation (-3)) PInf) s0 s /\ state s = [1 / 4].
Proof.
  destruct (ms_start (-3) BackwardEuler (or_intror eq_refl)) as (s0 & H1 & H2 & H3 & H4).
  assert (Af : affine1 (test_equation (-3)) (fun _ => -3) (fun _ => 0)) by (intros t y; unfold test_equation; cbn [map]; do 2 f_equal; lra).
  destruct (implicit_affine_runs (E := E) [@lit Rops (-1 # 1)] [@lit Rops 0] (@lit Rops 1) 0 default_options (test_equation (-3)) s0 (fun _ => -3) (fun _ => 0)) as (s & St); auto.
  - exact (proj1 (built_good _ _ _ H1)).
  - rewrite H3, lit_R. cbn [Qnum Qden]. lra.
  - exists s0, s. split; [exact H1|]. split; [exact H2|]. split; [rewrite H3; lra|]. split; [exact St|].
    destruct (growth_implicit (E := E) (-3) BackwardEuler 1 (fun z => 1 / (1 - z)) 0 default_options s0 s) as (_ & G2).
    + left. reflexivity.
    + exact (built_good _ _ _ H1).
    + exact H2.
    + rewrite H3. lra.
    + apply took_core in St. exact St.
    + rewrite G2, H3, H4. cbn [times map]. f_equal. field.
Qed.
Lemma rk4_ex : exists s0 s, built (E := E) (test_equation (-1)) RungeKutta4 s0 /\ dims 2 s0 /\ - (278 / 100) <= hstep s0 * -1 <= 0 /\
    took_step (solver_of (E := E) RungeKutta4 0 default_options (test_equation (-1)) PInf) s0 s /\ state s = [3 / 8; 3 / 4].
Proof.
  set (s0 := of_outcome (init_rk (RungeKutta4 (OT := Rops)) (garb RungeKutta4) (test_equation (-1)) (0 : @T Rops) [1; 2] (Some (1 : @T Rops)))).
  assert (Hi : init_rk (RungeKutta4 (OT := Rops)) (garb RungeKutta4) (test_equation (-1)) 0 [1; 2] (Some 1) = Ret s0) by reflexivity.
  assert (H1 : built (E := E) (test_equation (-1)) RungeKutta4 s0) by (exact (built_rk (OT := Rops) (E := E) _ RungeKutta4 (garb RungeKutta4) 0 [1; 2] (Some 1) _ I (garb_ok _) Hi)).
  assert (H2 : dims 2 s0) by (repeat constructor).
  destruct (core_total (E := E) RungeKutta4 0 default_options (test_equation (-1)) s0) as (s & Hc); [intros t y; eexists; reflexivity|exact I|].
  exists s0, s. split; [exact H1|]. split; [exact H2|]. change (hstep s0) with 1. split; [lra|]. split; [apply core_took; exact Hc|].
  destruct (growth (E := E) (-1) RungeKutta4 (fun z => 1 + z + z ^ 2 / 2 + z ^ 3 / 6 + z ^ 4 / 24) 2 0 default_options s0 s) as (h & _ & G2 & G3); auto.
  - do 5 right. left. reflexivity.
  - eapply built_good; eauto.
  - rewrite G2, G3 by reflexivity. change (hstep s0) with 1. change (state s0) with [1; 2]. cbn [times map]. f_equal; [|f_equal]; lra.
Qed.
End G.
