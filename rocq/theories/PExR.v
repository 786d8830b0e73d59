(** A completed variable step over the reals (for the examples). *)
From Coq Require Import List ZArith QArith Qcanon Bool Arith Lia Reals Lra.
From Verif Require Import Base Scalar Vec MBuffer MZeros MSteps MApi MClasses Laws Spec SpecInst SpecRK SpecDense PBound PVecR Ex PTop1.
Import ListNotations.
Open Scope nat_scope.

(** RungeKutta23 for y' = 1 from (0, 1) *)
Definition r_one (h : R) : @st Rops :=
  of_outcome (init_var (RungeKutta23 (OT := Rops)) (garb RungeKutta23) rhs_one (0%R : @T Rops) [1%R] default_options
    (fun _ _ _ => Ret one) (Some h)).
Definition sv_one : @solver Rops := solver_of (E := ER) RungeKutta23 5 default_options rhs_one PInf.
Lemma tol_pos : @ltb Rops (atol default_options) zero = false.
Proof. apply Rltb_false. rewrite zero_R. cbn [atol default_options]. rewrite lit_R. cbn. lra. Qed.
Lemma r_one_built h : built (OT := Rops) (E := ER) rhs_one RungeKutta23 (r_one h).
Proof.
  refine (built_var (OT := Rops) (E := ER) _ RungeKutta23 (garb RungeKutta23) 0%R [1%R] default_options
    (fun _ _ _ => Ret one) (Some h) _ eq_refl (garb_ok _) _).
  apply of_outcome_ok. unfold init_var. cbn [obind init_base rhs_one max_step default_options].
  rewrite tol_pos. reflexivity.
Qed.
Lemma r_one_h h : hstep (r_one h) = h /\ state (r_one h) = [1%R] /\ now (r_one h) = 0%R.
Proof.
  unfold r_one, init_var. cbn [obind init_base rhs_one max_step default_options]. rewrite tol_pos.
  repeat split; reflexivity.
Qed.
Lemma r_one_step h : exists s', s_core sv_one (r_one h) = (Ret tt, s') /\ prev_t s' = 0%R /\ now s' = h.
Proof.
  unfold r_one, init_var. cbn [obind init_base rhs_one max_step default_options]. rewrite tol_pos.
  cbn [of_outcome]. cbv -[Rplus Rmult Rdiv Rminus Ropp sqrt Rabs Reqb Rltb Rleb Rpower IZR Rinv].
  match goal with |- context [Reqb (sqrt ?a) ?b] => replace (Reqb (sqrt a) b) with true end.
  - eexists. split; [reflexivity|]. cbn. split; lra.
  - symmetry. apply Reqb_true.
    replace (0 / 1 + (- (7 / 24) + 2 / 9) * (1 / 1) + (- (1 / 4) + 1 / 3) * (1 / 1) +
      (- (1 / 3) + 4 / 9) * (1 / 1) + - (1 / 8) * (1 / 1))%R with 0%R by lra.
    match goal with |- sqrt ?x = _ => replace x with 0%R end; [rewrite sqrt_0; lra |].
    unfold Rdiv. rewrite ?Rmult_0_r, ?Rmult_0_l, ?Rplus_0_r, ?Rmult_0_l. reflexivity.
Qed.
