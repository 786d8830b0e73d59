(** C91: the tolerances do not control the error of the variable step classes. *)
From Coq Require Import List ZArith QArith Bool Arith Lia Reals Lra.
From Verif Require Import Base Scalar Vec MBuffer MZeros MSteps MApi MClasses Laws Spec SpecInst SpecInit PVecR SpecRK SpecVar SpecConv SpecConv2 SpecConv3
  PBound PTop1 Ex PSolve9.
Import ListNotations.
Open Scope R_scope.

(** * C91  As atol and rtol go to zero with first_step fixed, the states of
    RungeKutta23 and RungeKutta45 tend to the solution.
    Refuted: for every first_step H there is a right-hand side, smooth and
    independent of y, all of whose stages vanish in a step of size H.  The error
    estimate is then zero and the step is accepted whatever the options: step()
    returns (H, [0]) where the solution is H/2 *)
Theorem C91_refuted {E : @Env Rops} : forall H, 0 < H -> exists rhs y, lipschitz 1 0 rhs /\ (forall k te, Ck_solution k rhs 1 0 te y) /\ y 0 = [0] /\ y H = [H / 2] /\
  forall m p (o : @options Rops) g sel fuelc fuel, In (m, p) var_table -> valid_options o -> (0 : R) < atol o -> garbage_ok m g -> (0 < fuelc)%nat ->
  exists s0 s1 a, @init_var Rops m g rhs 0 (y 0) o sel (Some H) = Ret s0 /\
    step (solver_of (E := E) m fuelc o rhs PInf) fuel None None s0 = (Ret (@ROne Rops H a), s1) /\ deref (cache s1) a = [0].
Proof. exact C91_refuted_lemma. Qed.
Print Assumptions C91_refuted.
(** any tolerances of the caller are allowed options; RungeKutta45 is in the table *)
Example C91_ex : In (@RungeKutta45 Rops, 4%nat) var_table /\ (forall a r, 0 < a -> 0 < r ->
  valid_options (@mkopts Rops a r (min_step default_options) (max_step default_options) (min_factor default_options) (max_factor default_options) (safety_factor default_options))) /\
  garbage_ok (@RungeKutta45 Rops) (garb RungeKutta45) /\ wave_sol (2 * INR 180 * PI / 1) 1 = [1 / 2].
Proof.
  split; [cbn; auto|]. split; [|split; [apply garb_ok|apply wave_end; lra]]. intros a r Ha Hr. split; [discriminate|]. cbn [atol]. apply Rltb_false. rewrite zero_R. lra.
Qed.
