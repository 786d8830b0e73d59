(** C89: what the default first stepper does to the order of a multistep class. *)
From Coq Require Import List ZArith QArith Bool Arith Lia Reals Lra.
From Verif Require Import Base Scalar Vec MBuffer MZeros MSteps MApi MClasses Laws Spec SpecInst PVecR SpecRK SpecMS SpecConv SpecConv2 SpecConv3 SpecLmm
  PTop1 Ex PLmm2 PLmm8 PConv10 PSolve8.
Import ListNotations.
Open Scope R_scope.

(** * C89  The default first stepper keeps the order of the class
    ([starts_default]: a RungeKutta45 instance whose first step size H0 does not
    depend on h).  Refuted for every class of order 3 or more: the first rows come
    from the dense output of steps of size about H0, so they are off by c h^2
    however small h is.  The right-hand side is smooth and does not depend on y *)
Theorem C89_refuted {E : @Env Rops} : forall H0, 0 < H0 -> exists rhs te y c h0, 0 < te /\ 0 < c /\ 0 < h0 /\
  lipschitz 1 0 rhs /\ (forall k, Ck_solution k rhs 1 0 te y) /\ smooth_along rhs 1 0 te y /\
  forall k m h, In (k, m) (am_table ++ bdf_table) -> (3 <= k)%nat -> 0 < h <= h0 ->
  exists g fs s0 fuel0, garbage_ok m g /\ starts_default (E := E) rhs 0 (y 0) H0 fs /\ init_ms (E := E) m g rhs 0 (y 0) (Some h) fs fuel0 = Ret s0 /\
    now s0 <= te /\ ~ near (c * h ^ 2) (state s0) (y (now s0)).
Proof. exact C89_refuted_lemma. Qed.
Print Assumptions C89_refuted.
(** What remains true: the rows are within C h^2 of the solution ([recorded]) *)
Theorem C89_partial {E : @Env Rops} : forall rhs n L te y, lipschitz n L rhs -> 0 <= te -> C2_solution rhs n 0 te y -> forall k m H0, In (k, m) (am_table ++ bdf_table) -> 0 < H0 ->
  exists C hmax, 0 < hmax /\ forall h g fs fuel0 s0, 0 < h <= hmax -> garbage_ok m g -> starts_default (E := E) rhs 0 (y 0) H0 fs ->
    init_ms (E := E) m g rhs 0 (y 0) (Some h) fs fuel0 = Ret s0 -> now s0 <= te -> recorded (ms_order m) rhs y 0 (C * h ^ 2) s0.
Proof. exact C89_partial_lemma. Qed.
Print Assumptions C89_partial.
(** BDF3 starts with three rows; sin(90 pi t) with H0 = 1 *)
Example C89_ex : In (3%nat, @BDF3 Rops) (am_table ++ bdf_table) /\ lipschitz 1 0 (ripple (90 * PI)) /\ (forall k, Ck_solution k (ripple (90 * PI)) 1 0 1 (ripple_sol (90 * PI))) /\
  forall h, 0 < h < 1 / 8 -> exists fs s0, starts_default (E := ER) (ripple (90 * PI)) 0 [0] 1 fs /\
    init_ms (E := ER) BDF3 (garb BDF3) (ripple (90 * PI)) 0 [0] (Some h) fs 1 = Ret s0 /\ now s0 = 2 * h /\ state s0 = [0].
Proof.
  pose proof PI_RGT_0. split; [cbn; auto 20|]. split; [apply ripple_lip|]. split; [intros; apply ripple_solution; lra|]. intros h Hh.
  destruct (zero_startup (E := ER) (ripple (90 * PI)) 0 1 BDF3 h eq_refl) as (fs & s0 & S1 & S2 & S3 & S4); try lra.
  - apply ripple_lip.
  - intros t u. eexists. reflexivity.
  - intros q u. unfold ripple. do 2 f_equal. replace (90 * PI * (0 + 1 * (INR q / 90))) with (INR q * PI) by field. rewrite INR_IZR_INZ. apply sin_eq_0_1. now exists (Z.of_nat q).
  - cbn. lia.
  - exists fs, s0. repeat split; auto.
Qed.
