(** Instances for the example of C86. *)
From Coq Require Import List ZArith QArith Bool Arith Lia Reals Lra.
From Verif Require Import Base Scalar Vec MBuffer MZeros MSteps MApi MClasses Laws Spec SpecInst
  PStep PCore PHist PBound PVecR SpecRK PTerm SpecMS PTop1 PVar1 Ex SpecOrder SpecConv SpecConv3 PConv8 PExHi PExR PC3 PC5 PConv9 PExVar SpecVar SpecSolve.
Import ListNotations.
Open Scope R_scope.

(** no step from time 0 to a time <= te is longer than te *)
Lemma exp_steps_at h te fuelc tb : 0 <= h -> steps_at_most te te (solver_of (E := ER) RungeKutta23 fuelc default_options rhs_exp tb) (r_rk23 h).
Proof.
  intros Hh. destruct default_sane as (So & _).
  assert (Hinv : forall x, stepped (solver_of (E := ER) RungeKutta23 fuelc default_options rhs_exp tb) (r_rk23 h) x ->
      wf RungeKutta23 x /\ 0 <= hstep x /\ 0 <= now x).
  { induction 1 as [|x Hx (W & Hs & Hn) _].
    - destruct (r_rk23_data h) as (D1 & D2 & D3 & D4 & D5). rewrite D1, D3. split; [|lra].
      exact (proj1 (built_good rhs_exp RungeKutta23 _ (r_rk23_built h))).
    - split; [exact (core_wf (E := ER) RungeKutta23 fuelc default_options rhs_exp x W)|].
      cbn [s_core solver_of]. destruct (core_of RungeKutta23 fuelc default_options rhs_exp x) as [r x'] eqn:e. cbn [snd].
      destruct W as (W & _). cbn [core_of RungeKutta23] in e.
      pose proof (core_fsal_R _ _ _ _ _ _ _ _ _ _ _ 1 So (error_exponent_pos _) W e Hs). lra. }
  intros x x' Hx _ Hle. destruct (Hinv x Hx) as (_ & _ & Hn). lra.
Qed.
Lemma cat_askable h : 0 < h <= 1 / 10 -> now (r_cat h) = 0 /\ askable (r_cat h) (2 - h) [0; 1 / 2; 3 / 2].
Proof.
  intros Hh. split; [reflexivity|]. split; [discriminate|]. split.
  - cbn [is_sorted]. rewrite !andb_true_iff. repeat split; apply Rleb_true; lra.
  - intros x Hx. change (0 <= x <= 2 - h). destruct Hx as [<-|[<-|[<-|[]]]]; lra.
Qed.
