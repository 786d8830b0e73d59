(** C86 for the implicit multistep classes with the default first stepper. *)
From Coq Require Import List ZArith QArith Bool Arith Lia Reals Lra Classical.
From Verif Require Import Base Scalar Vec MBuffer MZeros MSteps MApi MClasses Laws Spec SpecInst
  PStep PKeeps PCore PHist PBound PVecR SpecRK PRK PDim PRun PRun2 PRun3 PFwd PTerm SpecMS PMS PMS2 PMS3 SpecDense PDense PC1 PC2 PTop2 SpecOrder SpecConv SpecConv2 SpecConv3 SpecLmm SpecLive
  PConv1 PConv2 PHi1 PHi3 PLmm2 PLmm4 PLmm5 PLmm6 PLmm7 PLmm9 PLive3 SpecCtl SpecVar SpecVL PConv9 PVL5 SpecSolve PSolve1 PSolve2 PSolve3 PSolve5 PSolve6.
Import ListNotations.
Open Scope R_scope.

Section D.
Context {E : @Env Rops}.
Variables (rhs : @rhs_t Rops) (n : nat) (L te : R) (y : R -> list R).
Hypothesis HL : lipschitz n L rhs.
Hypothesis Hd : defined_on n rhs.
Hypothesis Hte : 0 <= te.
Let Hk : keeps_dim (OT := Rops) n rhs := proj1 (proj2 HL).

Lemma C86_default_implicit_lemma k m M H0 : Ck_solution (Nat.max 5 (k + 1)) rhs n 0 te y -> In (k, m) (am_table ++ bdf_table) ->
  solve_dim (E := E) -> (1 <= n)%nat -> n = 1%nat \/ solves_regular (E := E) n -> 0 < H0 -> bounded_at_zero n M 0 (@Fin Rops H0) rhs ->
  exists K hmax N, 0 < hmax /\ forall h g g1 sel s1 fuel1, 0 < h <= hmax -> garbage_ok m g -> garbage_ok RungeKutta45 g1 ->
    init_var RungeKutta45 g1 rhs 0 (y 0) default_options sel None = Ret s1 -> hstep s1 = H0 -> (N <= fuel1)%nat ->
    exists N0 s0, (forall fuel0, (N0 <= fuel0)%nat -> init_ms (E := E) m g rhs 0 (y 0) (Some h) (FSVar (fun _ _ => Ret (solver_of (E := E) RungeKutta45 fuel1 default_options rhs PInf, s1))) fuel0 = Ret s0) /\
      now s0 <= INR (ms_order m) * h /\
      (now s0 <= te -> forall rho fuelc o tb fuel cs s t, 0 <= rho -> leaves_at_most rho te m (solver_of (E := E) m fuelc o rhs PInf) s0 ->
      s = session (E := E) (solver_of (E := E) m fuelc o rhs tb) fuel cs s0 -> now s <= te -> @gt_ext Rops te tb = false ->
      askable s (te - h) t -> solved (E := E) (solver_of (E := E) m fuelc o rhs tb) s t (K * (h ^ Nat.min k 2 + rho / h)) y).
Proof.
  intros HC Hm Sd Hn Sol HH HM.
  assert (HCk : Ck_solution (k + 1) rhs n 0 te y) by (apply (Ck_mono _ (Nat.max 5 (k + 1))); auto; lia).
  assert (HC2 : C2_solution rhs n 0 te y) by (apply (Ck_C2 (Nat.max 5 (k + 1))); auto; lia).
  destruct (C83_inv_lemma (E := E) rhs n L 0 te y HL Hd Hte k m HCk Hm Sd Hn Sol) as (h2 & Ph2 & H2).
  destruct (implicit_stable k m Hm) as (A & B & Bn & Em & ZS). pose proof ZS as (Hk1 & HA & LAB & _).
  assert (LA : (0 < length A)%nat) by (destruct A; [contradiction|cbn; lia]).
  destruct (default_rec (E := E) rhs n L te y HL Hte HC2 A B Bn H0 HH LA) as (C & hr & PC & Phr & HS).
  destruct (started_gen (E := E) rhs n L 0 te y HL Hte k m 2 (fun _ fs => starts_default (E := E) rhs 0 (y 0) H0 fs) C hr HC Hm ltac:(lia) PC Phr) as (D & Bd & K & h1 & T4 & _ & Ph1 & Fx & Hint & H1).
  { intros A' B' Bn' h g fs fuel s0 E' Hh Hg Hst Hi. rewrite Em in E'. injection E' as <- <- <-. rewrite Em in *. exact (HS h g fs fuel s0 Hh Hg Hst Hi). }
  rewrite Em in *. set (Mm := @ImplMS Rops A B Bn) in *.
  destruct (init_default (E := E) rhs n L HL Hd te y Hte HC2 Mm M H0 I LA Hn HH HM) as (N & h3 & Ph3 & H3).
  assert (PiC : 0 < / (C + 1)) by (apply Rinv_0_lt_compat; lra).
  set (hm := Rmin (Rmin h1 h2) (Rmin (Rmin h3 hr) (Rmin 1 (/ (C + 1))))).
  assert (Mn : 0 < hm /\ hm <= h1 /\ hm <= h2 /\ hm <= h3 /\ hm <= hr /\ hm <= 1 /\ hm <= / (C + 1)).
  { unfold hm. pose proof (Rmin_l (Rmin h1 h2) (Rmin (Rmin h3 hr) (Rmin 1 (/ (C + 1))))). pose proof (Rmin_r (Rmin h1 h2) (Rmin (Rmin h3 hr) (Rmin 1 (/ (C + 1))))).
    pose proof (Rmin_l h1 h2). pose proof (Rmin_r h1 h2). pose proof (Rmin_l (Rmin h3 hr) (Rmin 1 (/ (C + 1)))). pose proof (Rmin_r (Rmin h3 hr) (Rmin 1 (/ (C + 1)))).
    pose proof (Rmin_l h3 hr). pose proof (Rmin_r h3 hr). pose proof (Rmin_l 1 (/ (C + 1))). pose proof (Rmin_r 1 (/ (C + 1))).
    split; [repeat apply Rmin_glb_lt; lra|]. repeat split; lra. }
  clearbody hm. destruct Mn as (M0 & M1 & M2 & M3 & M4 & M5 & M6).
  exists K, hm, N. split; [exact M0|]. intros h g g1 sel s1 fuel1 Hh Hg Hg1 Hi1 Hh1 Hfu.
  destruct (H3 h g g1 sel s1 fuel1 ltac:(lra) Hg Hg1 Hi1 Hh1 Hfu) as (N0 & s0 & I0 & S0 & T0).
  pose proof (starts_rk45 (E := E) rhs 0 (y 0) H0 g1 sel s1 fuel1 Hg1 Hi1 Hh1) as Hst.
  exists N0, s0. split; [exact I0|]. split; [exact T0|]. intros Hn0 rho fuelc o tb fuel cs s t Hrho Lv Es Hnow Hg' Ht.
  destruct (HS h g _ N0 s0 ltac:(lra) Hg Hst (I0 N0 (le_n _))) as (G0 & Hs0 & Rec). destruct (Rec Hn0) as (D0 & Rec0).
  assert (Hd1 : 0 <= C * h ^ 2 <= 1).
  { assert (Q1 : 0 <= h ^ 2 <= h) by (cbn [pow]; nra). split; [apply Rmult_le_pos; lra|].
    apply Rle_trans with ((C + 1) * / (C + 1)); [apply Rmult_le_compat; lra|]. rewrite Rinv_r by lra. lra. }
  destruct (H2 h (C * h ^ 2) fuelc o s0 ltac:(lra) Hd1 G0 D0 Hs0 Rec0) as (I1 & J1 & J2 & J0 & J3).
  assert (Is : I1 s). { rewrite Es. apply session_inv; [|exact J2|exact J0]. intros b x _ _ Hx. exact (J1 x Hx). }
  assert (Ss : steady rhs n Mm h s). { rewrite Es. apply (steady_session (E := E) rhs n Hk); auto; try exact I; lra. }
  pose proof Ht as (T1 & T2 & T3).
  destruct (fixed_solves (E := E) Mm fuelc o rhs tb h te (fun x => steady rhs n Mm h x /\ I1 x)) with (s := s) (t := t) as (N' & rows & s' & R1 & R2 & R3); auto.
  - lra.
  - intros x ((G & _ & O & Hx) & _). auto.
  - intros x (Sx & Ix) Hx Hw. destruct (J3 tb x Ix Hx Hw) as (x' & (f & tt0 & a & St) & _).
    assert (C1 : core_of (E := E) Mm fuelc o rhs x = (Ret tt, x')).
    { assert (St' : took_step (solver_of (E := E) Mm fuelc o rhs tb) x x') by (exists f, tt0, a; exact St). apply took_core in St'. exact St'. }
    exists x'. split; [exact C1|]. split.
    + eapply (steady_core (E := E) rhs n Hk Mm fuelc o tb); eauto; try exact I; lra.
    + pose proof (J1 x Ix) as Ix'. rewrite C1 in Ix'. exact Ix'.
  - exists N', rows, s'. split; [exact R1|]. split; [exact R2|].
    destruct (H1 h rho g _ N0 fuelc o tb fuel cs s0 s ltac:(lra) Hg Hst (I0 N0 (le_n _)) Hrho (leaves_solves (E := E) rhs n L te HL k Mm h rho fuelc o s0 Hm Sd (proj1 Hh) Lv) Es) as (e & J & Kp & Js & Hw).
    pose proof (kept_run (E := E) rhs n L 0 te y HL D Bd Mm fuelc o tb h e J N' t rows s s' T4 Fx Hint (proj1 Hh) Kp Js T2 (R1 N' (le_n _)) R3) as Q.
    eapply Forall_impl; [|exact Q]. intros r Hr. eapply near_mono; [exact Hw|exact Hr].
Qed.
End D.
