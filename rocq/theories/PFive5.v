(** C86 for RungeKutta45 with order five. *)
From Coq Require Import List ZArith QArith Bool Arith Lia Reals Lra.
From Verif Require Import Base Scalar Vec MBuffer MZeros MSteps MApi MDop853 MClasses Laws Spec SpecInst SpecRK PVecR PBound PTop1
  SpecCtl SpecMS SpecOrder SpecConv SpecConv2 SpecConv3 SpecLive SpecVar PVar3 SpecVL SpecSolve PSolve4 SpecFive PFive3 PFive4.
Import ListNotations.
Open Scope R_scope.

Lemma C86_five_lemma {E : @Env Rops} rhs n L t0 te y : lipschitz n L rhs -> defined_on n rhs -> t0 <= te ->
  Ck_solution 6 rhs n t0 te y -> smooth_along3 rhs n t0 te y -> (1 <= n)%nat ->
  exists K, forall (o : @options Rops) h0, tolerances o -> shrinking o -> (forall x : R, max_step o = @Fin Rops x -> 0 < x) -> 0 < h0 ->
  exists N, forall g sel, garbage_ok (@RungeKutta45 Rops) g -> exists s0, init_var (@RungeKutta45 Rops) g rhs t0 (y t0) o sel (Some h0) = Ret s0 /\ now s0 = t0 /\ buf_t0 (cache s0) = t0 /\
    forall H fuelc fuel cs s t, 0 < H <= 1 -> (N <= fuelc)%nat ->
    steps_at_most H te (solver_of (E := E) RungeKutta45 fuelc o rhs (@Fin Rops te)) s0 ->
    returns (E := E) (solver_of (E := E) RungeKutta45 fuelc o rhs (@Fin Rops te)) fuel cs s0 s -> now s <= te -> askable s te t ->
    exists N' rows s', (forall fuel', (N' <= fuel')%nat -> run (E := E) (solver_of (E := E) RungeKutta45 fuelc o rhs (@Fin Rops te)) fuel' t s = (Ret rows, s')) /\
      (map fst rows = t \/ would_pass (@Fin Rops te) s' /\ now s' < last t 0) /\ Forall (fun r => near (K * H ^ 5) (snd r) (y (fst r))) rows.
Proof.
  intros HL Hd Hte HC HJ Hn. destruct (C71_five_run_lemma (E := E) rhs n L t0 te y HL Hte HC HJ) as (K & HK). exists K.
  refine (var_accurate (E := E) rhs n L t0 te y HL Hd Hte 6 _ (fun H => K * H ^ 5) ltac:(lia) HC _ Hn HK). cbn; auto.
Qed.
