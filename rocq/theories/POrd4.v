(** Instances for the examples of C31. *)
From Coq Require Import List ZArith QArith Bool Arith Lia Reals Lra.
From Verif Require Import Base Scalar Vec MBuffer MZeros MSteps MApi MDop853 MClasses Laws Spec SpecInst
  PStep PCore PHist PBound PVecR SpecRK PDim PFwd PTerm SpecMS PMS PMS2 PTop1 PMS6 PMS7 Ex SpecOrder.
Import ListNotations.
Open Scope R_scope.

Lemma explicit_took {E : @Env Rops} m fuelc o rhs (s : @st Rops) : total rhs -> explicit m ->
  exists s', took_step (solver_of (E := E) m fuelc o rhs PInf) s s'.
Proof.
  intros Ht Hm. destruct (core_total (E := E) m fuelc o rhs s Ht Hm) as (s' & H).
  exists s', 0%nat. eexists. eexists. rewrite step_none by reflexivity. cbn [s_core solver_of]. rewrite H. reflexivity.
Qed.
Lemma linear_exp : linear rhs_exp 1.
Proof. intros t y. unfold rhs_exp. f_equal. unfold vscale. rewrite <- (map_id y) at 1. apply map_ext. intros x. symmetry. apply Rmult_1_l. Qed.
