(** C84 with order five: the events reported by RungeKutta45. *)
From Coq Require Import List ZArith QArith Bool Arith Lia Reals Lra.
From Verif Require Import Base Scalar Vec MBuffer MZeros MSteps MApi MDop853 MClasses Laws Spec SpecInst
  PBound SpecRK SpecMS SpecConv SpecConv3 SpecVar SpecEv SpecEvC PEvC3 PLmm7 SpecFive PVar1 PFive2 PFive3.
Import ListNotations.
Open Scope R_scope.
Lemma C84_five_lemma {E : @Env Rops} rhs n L t0 te y : lipschitz n L rhs -> t0 <= te -> Ck_solution 6 rhs n t0 te y -> smooth_along3 rhs n t0 te y ->
  exists K, 0 <= K /\ forall H g o sel first s0 fuelc tb fuel cs s, 0 < H <= 1 -> sane o -> garbage_ok (@RungeKutta45 Rops) g ->
    init_var (@RungeKutta45 Rops) g rhs t0 (y t0) o sel first = Ret s0 -> 0 <= hstep s0 ->
    steps_at_most H te (solver_of (E := E) RungeKutta45 fuelc o rhs tb) s0 ->
    returns (E := E) (solver_of (E := E) RungeKutta45 fuelc o rhs tb) fuel cs s0 s ->
    event_times (E := E) n te y (solver_of (E := E) RungeKutta45 fuelc o rhs tb) s (K * H ^ 5) H /\
    event_stops (E := E) n te y (solver_of (E := E) RungeKutta45 fuelc o rhs tb) s (K * H ^ 5) H.
Proof.
  intros HL Hte HC HJ. assert (HC5 : Ck_solution 5 rhs n t0 te y) by (apply (Ck_mono _ 6); auto; lia).
  assert (Hin : In (@RungeKutta45 Rops) [@RungeKutta23 Rops; @RungeKutta45 Rops; @DOP853 Rops]) by (right; left; reflexivity).
  pose proof (smooth3_smooth _ _ _ _ _ HJ) as HJ2. pose proof tabd_rk45 as T4. pose proof tab5_rk45 as T5. unfold RungeKutta45 in *.
  exact (var_events rhs n L t0 te y HL Hte HC5 HJ2 _ _ _ _ _ _ 5 4 Hin (proj2 T4) ltac:(lia) (rk_step_five rhs n L t0 te y _ _ _ HL Hte HC HJ T5)).
Qed.
