(** Instances for the theorems on corresponding problems. *)
From Coq Require Import List ZArith QArith Bool Arith Lia Reals Lra.
From Verif Require Import Base Scalar Vec MBuffer MZeros MSteps MApi MDop853 MClasses Laws Spec SpecInst SpecRK SpecEqv SpecEqv2 PBound PVecR PCore PHist PRK PTop1 Ex PExInv SpecInv PEqv6.
Import ListNotations.

(** the sort of the examples does not look at the origin of time *)
Lemma ins_map {OT : Ops} (f : T -> T) (Hf : forall a b, leb (f a) (f b) = leb a b) l i : (i < length l)%nat -> forall a, Forall (fun j => (j < length l)%nat) a ->
  ins_idx (map f l) i a = ins_idx l i a /\ Forall (fun j => (j < length l)%nat) (ins_idx l i a).
Proof.
  intros Hi. induction a as [|j a IH]; intros Ha; cbn [ins_idx]; [auto|]. apply Forall_cons_iff in Ha as (Hj & Ha). destruct (IH Ha) as (I1 & I2).
  rewrite (nth_indep (map f l) zero (f zero)) by (rewrite map_length; exact Hi).
  rewrite (nth_indep (map f l) zero (f zero) (n := j)) by (rewrite map_length; exact Hj).
  rewrite !map_nth, Hf. destruct (leb _ _); [auto|]. rewrite I1. auto.
Qed.
Lemma isort_map {OT : Ops} (f : T -> T) (Hf : forall a b, leb (f a) (f b) = leb a b) l : isort (map f l) = isort l.
Proof.
  unfold isort. rewrite map_length.
  assert (K : forall q, Forall (fun j => (j < length l)%nat) q ->
    fold_right (ins_idx (map f l)) [] q = fold_right (ins_idx l) [] q /\ Forall (fun j => (j < length l)%nat) (fold_right (ins_idx l) [] q)).
  { induction q as [|i q IH]; intros Hq; cbn [fold_right]; [auto|]. apply Forall_cons_iff in Hq as (Hi & Hq). destruct (IH Hq) as (I1 & I2).
    rewrite I1. now apply ins_map. }
  apply K. apply Forall_forall. intros j Hj. apply in_seq in Hj. lia.
Qed.

(** y' = t y, and the same thing five units later *)
Open Scope R_scope.
Definition ty : @rhs_t Rops := fun t y => Ret (@vscale Rops t y).
Definition ty5 : @rhs_t Rops := fun t y => Ret (@vscale Rops (t - 5) y).
Lemma ty_corr t y : ty5 (t + 5) y = ty t y.
Proof. unfold ty5, ty. replace (t + 5 - 5) with t by lra. reflexivity. Qed.
Definition e_ty (h : R) : @st Rops := of_outcome (init_rk (RungeKutta4 (OT := Rops)) (garb RungeKutta4) ty (0%R : @T Rops) [1] (Some h)).
Definition e_ty5 (h : R) : @st Rops := of_outcome (init_rk (RungeKutta4 (OT := Rops)) (garb RungeKutta4) ty5 (later 5 0 : @T Rops) [1] (Some h)).
Lemma ty_twin {E : @Env Rops} h : twin (E := E) (later 5 : @T Rops -> @T Rops) same any any_class ty ty5 RungeKutta4 (e_ty h) (e_ty5 h).
Proof.
  apply (twin_rk (OT := Rops) (later 5) same any any_class ty ty5 RungeKutta4 (garb RungeKutta4) (garb RungeKutta4) (0 : @T Rops) [1] (Some h)); try exact I; try apply garb_ok; try reflexivity.
  split; [reflexivity|discriminate].
Qed.
Lemma ty_moves {E : @Env Rops} : exists s, s_core (solver_of (E := E) RungeKutta4 0 default_options ty PInf) (e_ty 1) = (Ret tt, s) /\ state s = [79/48].
Proof.
  cbv -[Rplus Rmult Rdiv Rminus Ropp Rinv IZR]. eexists. split; [reflexivity|]. cbn. f_equal; lra.
Qed.

(** sum and difference of the two reservoirs *)
Definition sum_diff : @rhs_t Rops := fun _ v => Ret [0; (-2) * cmp 1 v].
Definition SD : list (list R) := [[1; 1]; [1; -1]].
Lemma sd_corr t y : length y = 2%nat -> sum_diff t (matvec SD y) = omap (matvec SD) (exchange t y).
Proof.
  intros H. destruct y as [|a [|b [|? ?]]]; try discriminate. unfold sum_diff, exchange, matvec, SD, cmp, omap. cbn [map dot nth].
  apply (f_equal Ret). f_equal; [lra|f_equal; lra].
Qed.
Definition e_sd (h : R) : @st Rops := of_outcome (init_rk (RungeKutta4 (OT := Rops)) (garb RungeKutta4) sum_diff (0%R : @T Rops) (matvec SD [1; 0]) (Some h)).
Lemma sd_twin {E : @Env Rops} h : twin (OT := Rops) (E := E) now_as_is (matvec SD) (has_dim 2) explicit exchange sum_diff RungeKutta4 (ex_rk4 h) (e_sd h).
Proof.
  apply (twin_rk (OT := Rops) now_as_is (matvec SD) (has_dim 2) explicit exchange sum_diff RungeKutta4 (garb RungeKutta4) (garb RungeKutta4) (0 : @T Rops) [1; 0] (Some h)); try exact I; try apply garb_ok; try reflexivity.
  split; [reflexivity|discriminate].
Qed.

(** two independent equations, y1' = t y1 and y2' = y2 y2 *)
Section Two.
Context {OT : Ops} {E : Env}.
Definition two_eqs : rhs_t := fun t y => Ret [mul t (nth 0 y zero); mul (nth 1 y zero) (nth 1 y zero)].
Definition second_eq : rhs_t := fun t y => Ret [mul (nth 0 y zero) (nth 0 y zero)].
Lemma two_corr t y : length y = 2%nat -> second_eq t (pick [1%nat] y) = omap (pick [1%nat]) (two_eqs t y).
Proof. reflexivity. Qed.
Lemma two_dim : keeps_dim 2 two_eqs.
Proof. intros t y f _ H. injection H as <-. reflexivity. Qed.
Lemma two_twin gb gb' t0 a b h : garbage_ok RungeKutta4 gb -> garbage_ok RungeKutta4 gb' ->
  exists s s', init_rk RungeKutta4 gb two_eqs t0 [a; b] h = Ret s /\ init_rk RungeKutta4 gb' second_eq t0 [b] h = Ret s' /\
    twin now_as_is (pick [1%nat]) (has_dim 2) explicit two_eqs second_eq RungeKutta4 s s'.
Proof.
  intros G G'. eexists. eexists. split; [reflexivity|]. split; [reflexivity|].
  apply (twin_rk now_as_is (pick [1%nat]) (has_dim 2) explicit two_eqs second_eq RungeKutta4 gb gb' t0 [a; b] h); auto; try exact I; try reflexivity.
  split; [reflexivity|discriminate].
Qed.
End Two.
