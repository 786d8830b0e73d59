(** An instance for the conservation theorems: exchange between two reservoirs. *)
From Coq Require Import List ZArith QArith Bool Arith Lia Reals Lra.
From Verif Require Import Base Scalar Vec MBuffer MZeros MSteps MApi MDop853 MClasses Laws Spec SpecInst SpecRK SpecDense PBound PVecR PCore PKeeps PHist PMS PRK PTop1 Ex SpecInv PInv1.
Import ListNotations.
Open Scope R_scope.

Definition exchange : @rhs_t Rops := fun _ y => Ret [cmp 1 y - cmp 0 y; cmp 0 y - cmp 1 y].
Lemma exchange_tangent c : tangent 2 [1; 1] c exchange.
Proof.
  split.
  - intros t y f _ H. injection H as <-. reflexivity.
  - intros t y f _ _ H. injection H as <-. cbn [dot]. lra.
Qed.
Definition ex_rk4 (h : R) : @st Rops := of_outcome (init_rk (RungeKutta4 (OT := Rops)) (garb RungeKutta4) exchange (0%R : @T Rops) [1; 0] (Some h)).
Lemma ex_rk4_ok h : init_rk (RungeKutta4 (OT := Rops)) (garb RungeKutta4) exchange (0%R : @T Rops) [1; 0] (Some h) = Ret (ex_rk4 h).
Proof. reflexivity. Qed.
Lemma ex_rk4_instance {E : @Env Rops} h : explicit_instance (E := E) exchange [1; 0] RungeKutta4 (ex_rk4 h).
Proof. exact (ei_rk (E := E) exchange [1; 0] RungeKutta4 _ 0 (Some h) _ I (garb_ok _) (ex_rk4_ok h)). Qed.
Lemma ex_rk4_moves {E : @Env Rops} : exists s, s_core (solver_of (E := E) RungeKutta4 0 default_options exchange PInf) (ex_rk4 1) = (Ret tt, s) /\
  state s = [2/3; 1/3].
Proof.
  cbv -[Rplus Rmult Rdiv Rminus Ropp Rinv IZR]. eexists. split; [reflexivity|]. cbn. f_equal; [|f_equal]; lra.
Qed.
