(** Instance for the example of C84: y' = y, y(0) = 1 with RungeKutta4, event y = 2. *)
From Coq Require Import List ZArith QArith Bool Arith Lia Reals Lra.
From Verif Require Import Base Scalar Vec MBuffer MZeros MSteps MApi MDop853 MClasses Laws Spec SpecInst
  PStep PCore PHist PBound PVecR SpecRK PDim PFwd PTerm PRun PTop1 Ex SpecConv SpecConv3 PConv8 PExVar PLmm9 SpecEv SpecEvC PEv7 PEv9 PEvC1 PEvC2.
Import ListNotations.
Open Scope R_scope.

Definition ev_two : eventR := mkuev (OT := Rops) (fun _ a => Ret (nth 0 a 0 - 2)) None None.
Definition G_two (_ : R) (a : list R) : R := nth 0 a 0 - 2.
Lemma two_fun : event_fun 1 1 ev_two G_two.
Proof.
  split; [lra|]. split; [reflexivity|]. intros t a b e La Lb (Hl & H). specialize (H 0%nat (eq_ind_r (fun q => (0 < q)%nat) Nat.lt_0_1 La)). unfold G_two.
  replace (nth 0 a 0 - 2 - (nth 0 b 0 - 2)) with (nth 0 a 0 - nth 0 b 0) by ring. rewrite Rmult_1_l. exact H.
Qed.
Lemma exp_low x : 1 + x <= exp x.
Proof. destruct (Req_dec x 0) as [->|H]; [rewrite exp_0; lra|]. left. now apply exp_ineq1. Qed.
Lemma two_zero : simple_zero 1 1 (1 / 2) (fun t => G_two t (sol_exp t)) (ln 2).
Proof.
  split; [now left|]. split; [lra|]. intros x Hx. unfold G_two, sol_exp. cbn [nth].
  replace (ln 2 - x) with (ln 2 + - x) by ring. rewrite !exp_plus, exp_ln by lra. pose proof (exp_low x) as Q1. pose proof (exp_low (- x)) as Q2. split; [lra|].
  assert (Ei : exp (- x) * exp x = 1) by (rewrite <- exp_plus; replace (- x + x) with 0 by ring; apply exp_0).
  pose proof (exp_pos (- x)) as P.
  assert (exp (- x) * (1 + x) <= 1) by (rewrite <- Ei; apply Rmult_le_compat_l; lra).
  assert (exp (- x) <= 1 - x / 2).
  { apply Rmult_le_reg_r with (1 + x); [lra|]. assert (x * x <= 1 * x) by (apply Rmult_le_compat_r; lra). lra. }
  lra.
Qed.
Lemma ln2_bounds : 1 / 2 <= ln 2 <= 1.
Proof.
  split.
  - rewrite <- (ln_exp (1 / 2)). destruct (Rle_lt_or_eq_dec (exp (1 / 2)) 2) as [H|H].
    + assert (Q : exp (1 / 2) * exp (- (1 / 2)) = 1) by (rewrite <- exp_plus; replace (1 / 2 + - (1 / 2)) with 0 by ring; apply exp_0).
      pose proof (exp_low (- (1 / 2))). pose proof (exp_pos (1 / 2)).
      assert (exp (1 / 2) * (1 / 2) <= exp (1 / 2) * exp (- (1 / 2))) by (apply Rmult_le_compat_l; lra). lra.
    + left. apply ln_increasing; [apply exp_pos|exact H].
    + rewrite H. lra.
  - rewrite <- (ln_exp 1). destruct (Rle_lt_or_eq_dec 2 (exp 1)) as [H|H].
    + pose proof (exp_low 1). lra.
    + left. apply ln_increasing; lra.
    + rewrite <- H. lra.
Qed.

Notation sv4 := (solver_of (E := ER) RungeKutta4 0 default_options rhs_exp PInf).
Lemma two_times h l s1 : 0 < h -> chain sv4 PInf (r_rk4 h) l s1 -> Forall (fun x => @ltb Rops (now x) 2 = true) (removelast (r_rk4 h :: l)) -> now s1 <= 2 + h.
Proof.
  intros Hh Hch. assert (G0 : PHist.good rhs_exp RungeKutta4 (r_rk4 h) /\ hstep (r_rk4 h) = h).
  { split; [|reflexivity]. eapply (built_good (E := ER)). apply r_rk4_built. }
  assert (N0 : now (r_rk4 h) <= 2 + h) by (destruct (exp_rk4_props h) as (-> & _); lra).
  remember (r_rk4 h) as s eqn:es. clear es. revert G0 N0. induction Hch as [|x x1 l x2 (_ & Hc) Hch IH]; intros G0 N0 F; [exact N0|].
  cbn [s_core solver_of] in Hc. set (J := fun x : stR => PHist.good rhs_exp RungeKutta4 x /\ hstep x = h).
  destruct (inv_push (E := ER) rhs_exp RungeKutta4 h 0 default_options J eq_refl (fun _ q => q) x x1 G0 Hc) as (Hn & _).
  change (removelast (x :: x1 :: l)) with (x :: removelast (x1 :: l)) in F. inversion F as [|? ? F1 F2]; subst. apply Rltb_true in F1.
  apply IH; auto.
  - pose proof (good_core (E := ER) rhs_exp RungeKutta4 0 default_options x (proj1 G0)) as G1. rewrite Hc in G1. split; [exact G1|].
    apply core_of_ok in Hc; [|discriminate]. destruct Hc as (_ & _ & E1 & _). destruct G0 as (_ & <-). apply E1. reflexivity.
  - change (now x1 <= 2 + h). rewrite Hn. lra.
Qed.
Lemma two_call h : 0 < h -> exists fuel r s', run_events (E := ER) sv4 fuel [2] [ev_two] (r_rk4 h) = (Ret r, s') /\ 2 <= now s' <= 2 + h.
Proof.
  intros Hh. destruct (C49_two_lemma (E := ER) RungeKutta4 0 default_options rhs_exp PInf 1) with (s := r_rk4 h) (ta := 2) (tr := @nil R) (evs := [ev_two]) as (N & r & s' & H).
  all: try exact I; try reflexivity; try exact rk4_keeps; try exact total_exp; try discriminate.
  - split; [reflexivity|discriminate].
  - split; [eapply reachable_wf; apply (r_rk4_reach h 0 default_options PInf)|]. split; [|exact Hh]. split; cbn; repeat constructor.
  - intros x [<-|[]]. split; [|reflexivity]. destruct (exp_rk4_props h) as (-> & _). lra.
  - cbn. lra.
  - intros u [<-|[]] t y. eexists. reflexivity.
  - exists N, r, s'. specialize (H N (le_n N)). split; [exact H|].
    destruct (C44_lemma (E := ER) RungeKutta4 0 default_options rhs_exp PInf N [2] [ev_two] (r_rk4 h) r s') as (l & s1 & Hch & Ec & _ & D); auto.
    + left. split; [reflexivity|]. split; [apply r_rk4_reach|]. change (0 <= h). lra.
    + discriminate.
    + destruct D as [(_ & z' & Hr & Ez & _)|(x & u & tau & y & rows0 & z & tk & _ & _ & [<-|[]] & Ht & _)]; [|discriminate].
      assert (En : now s' = now z') by (unfold now; rewrite Ec, Ez; reflexivity). rewrite En.
      destruct (C13_lemma (E := ER) RungeKutta4 0 default_options rhs_exp PInf N [2] (r_rk4 h) (rr_rows r) z' eq_refl Hr) as (w & R1 & R2 & [(R3 & ->)|(tj & _ & l' & _ & R4)]).
      * destruct (rr_rows r) as [|[t1 v1] [|]]; try discriminate. cbn [map length firstn fst] in R1. injection R1 as ->. cbn [map fst snd] in R2.
        inversion R2 as [|? ? l' w1 a w2 ? ? ? (U1 & U2) U3 U4 U5]; subst. inversion U5; subst.
        assert (Ew : now w = now w1). { cbn [s_interp solver_of interp_of RungeKutta4] in U4. unfold interp_default in U4. injection U4 as _ <-. reflexivity. }
        rewrite Ew. apply Rltb_false in U3. split; [exact U3|]. exact (two_times h l' w1 Hh U1 U2).
      * exfalso. unfold would_pass in R4. destruct R4 as (_ & R4). cbn in R4. discriminate.
Qed.
Lemma C84_example : exists K h0, 0 <= K /\ 0 < h0 /\ forall h, 0 < h <= h0 -> exists fuel r s' tau a,
  run_events (E := ER) sv4 fuel [2] [ev_two] (r_rk4 h) = (Ret r, s') /\ reports r 0 tau a /\
  Rabs (tau - ln 2) <= K * h ^ 4 + ev_tol + h / 2 ^ 50.
Proof.
  destruct (C84_lemma (E := ER) rhs_exp 1 1 0 3 sol_exp exp_lipschitz ltac:(lra) RungeKutta4 4) as (K & HK & H).
  { apply exp_Ck. } { apply exp_smooth. } { cbn; auto 10. }
  exists K, (Rmin (1 / 8) (/ (8 * (K + 1)))). split; [exact HK|].
  assert (P8 : 0 < / (8 * (K + 1))) by (apply Rinv_0_lt_compat; lra).
  split; [apply Rmin_pos; lra|]. intros h Hh.
  assert (H1 : h <= 1 / 8) by (eapply Rle_trans; [apply Hh|apply Rmin_l]). assert (H2 : h <= / (8 * (K + 1))) by (eapply Rle_trans; [apply Hh|apply Rmin_r]).
  destruct (two_call h ltac:(lra)) as (fuel & r & s' & Hc & Hn).
  destruct (H h (garb RungeKutta4) (r_rk4 h) 0%nat default_options PInf 0%nat [] (r_rk4 h) ltac:(lra) (garb_ok _) (exp_rk4 h) eq_refl) as (Ht & _).
  assert (N0 : now (r_rk4 h) = 0) by apply (exp_rk4_props h). pose proof ln2_bounds as Hln.
  destruct (Ht fuel [2] [2] [ev_two] r s' (or_introl (conj eq_refl eq_refl)) Hc ltac:(lra) 0%nat ev_two G_two 1 eq_refl two_fun) as (_ & Q).
  destruct (Q 1 1 (1 / 2) (ln 2) two_zero) as (_ & Q2); try lra.
  assert (Hs : K * h ^ 4 <= 1 / 8).
  { assert (h ^ 4 <= h). { replace h with (h * 1) at 2 by ring. change (h ^ 4) with (h * h ^ 3). apply Rmult_le_compat_l; [lra|]. rewrite <- (pow1 3). apply pow_incr. lra. }
    assert (K * h ^ 4 <= (K + 1) * / (8 * (K + 1))) by (apply Rmult_le_compat; try lra; apply pow_le; lra).
    replace ((K + 1) * / (8 * (K + 1))) with (1 / 8) in * by (field; lra). lra. }
  destruct Q2 as (tau & a & Hrep & Hb); [unfold ue_dir; cbn; lra|lra|].
  exists fuel, r, s', tau, a. split; [exact Hc|]. split; [exact Hrep|]. replace ((1 * (K * h ^ 4) + ev_tol) / 1) with (K * h ^ 4 + ev_tol) in Hb by field. exact Hb.
Qed.
