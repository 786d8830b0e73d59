(** C90 *)
From Coq Require Import List ZArith QArith Bool Arith Lia Reals Lra SpecFloat.
From Verif Require Import Base Scalar Vec MBuffer MZeros MSteps MApi MDop853 MClasses Spec SpecInst PVecR SpecRK SpecConv SpecConv3 PConv8 PExVar Ex SpecFl PFl1 PFl4 PFl5 PFl6 PFl7 PFl11 PExFl.
Import ListNotations.
Open Scope R_scope.

(** * C90  run with rounding errors *)
(** For every fixed step Runge-Kutta class of order p and a problem with a smooth
    solution there is K such that in every floating point format, with a right-hand
    side evaluated up to eps and a step with K (h + eps/h) <= 1: the constructor
    returns, and after any calls on the object, run with sorted finite times from the
    oldest recorded time to te - 2 h returns a row for each of them, finite and within
    K (h^p + eps/h) of the solution. *)
Theorem C90 : forall rhs n L X F t0 te y, tame rhs n L X F -> t0 <= te -> Rabs t0 <= X -> Rabs te <= X ->
  Ck_solution 5 rhs n t0 (te + 1) y -> smooth_along rhs n t0 (te + 1) y -> (forall t, t0 <= t <= te + 1 -> within X (y t)) ->
  forall m p, In (m, p) rk_classes -> exists K, 0 < K /\
  forall prec emax pw (E : @Env (SFops_at prec emax pw)) eps rhsF h tF yF g,
    roomy prec emax X F eps -> computed prec emax pw rhsF rhs n X eps ->
    fin prec emax h -> 0 < val h -> K * (val h + eps / val h) <= 1 ->
    fin prec emax tF -> val tF = t0 -> Forall (fin prec emax) yF -> near eps (map val yF) (y t0) ->
    garbage_ok (m (SFops_at prec emax pw)) g ->
    exists s0, init_rk (m (SFops_at prec emax pw)) g rhsF tF yF (Some h) = Ret s0 /\
    forall fuelc o tb fuel cs s t,
    s = session (E := E) (solver_of (E := E) (m (SFops_at prec emax pw)) fuelc o rhsF tb) fuel cs s0 ->
    fin prec emax (now s) -> val (now s) <= te ->
    (forall x, fin prec emax x -> val x <= te -> @gt_ext (SFops_at prec emax pw) x tb = false) ->
    t <> [] -> Forall (fin prec emax) t -> is_sorted (OT := SFops_at prec emax pw) t = true ->
    (forall x, In x t -> val (buf_t0 (cache s)) <= val x <= te - 2 * val h) ->
    exists N rows s', (forall fuel', (N <= fuel')%nat ->
      run (E := E) (solver_of (E := E) (m (SFops_at prec emax pw)) fuelc o rhsF tb) fuel' t s = (Ret rows, s')) /\
      map fst rows = t /\
      Forall (fun r => Forall (fin prec emax) (snd r) /\ near (K * (val h ^ p + eps / val h)) (map val (snd r)) (y (val (fst r)))) rows.
Proof. exact C90_lemma. Qed.
Print Assumptions C90.
(** y' = y on [0, 1], the times 0 and 1/2 *)
Example C90_ex : tame (@rhs_exp Rops) 1 1 9 10 /\ Ck_solution 5 (@rhs_exp Rops) 1 0 (1 + 1) sol_exp /\ smooth_along (@rhs_exp Rops) 1 0 (1 + 1) sol_exp /\
  (forall t, 0 <= t <= 1 + 1 -> within 9 (sol_exp t)) /\
  (forall prec emax pw eps, 0 <= eps -> computed prec emax pw (@rhs_exp (SFops_at prec emax pw)) (@rhs_exp Rops) 1 9 eps) /\
  (forall K, 0 < K -> exists prec emax h, roomy prec emax 9 10 (uro prec) /\ fin prec emax h /\ 0 < val h /\ K * (val h + uro prec / val h) <= 1 /\
    Forall (fin prec emax) [S754_zero false; two_to prec 1] /\ (forall pw, is_sorted (OT := SFops_at prec emax pw) [S754_zero false; two_to prec 1] = true) /\
    0 <= val (S754_zero false) <= 1 - 2 * val h /\ 0 < val (two_to prec 1) <= 1 - 2 * val h) /\
  near 0 (map val [sf_one]) (sol_exp 0).
Proof.
  split; [exact exp_tame|]. split; [apply exp_Ck|]. split; [apply exp_smooth|]. split; [exact exp_in|]. split; [exact exp_computed|]. split.
  - intros K HK. destruct (exp_room (K + 4) ltac:(lra)) as (prec & emax & h & Hr & Fh & Hh & Hs). exists prec, emax, h.
    pose proof Hr as ((P1 & P2) & P3 & _). pose proof (uro_pos prec P1) as Pu. assert (Pq : 0 < uro prec / val h) by (apply Rdiv_lt_0_compat; lra).
    assert (0 <= K * (val h + uro prec / val h)) by (apply Rmult_le_pos; lra).
    assert (Pe : (4 <= emax)%Z). { destruct (Z.le_gt_cases 4 emax) as [Q|Q]; auto. assert (emax = 3%Z) by lia. subst emax. change (3 - 1)%Z with (Z.of_nat 2) in P3. rewrite <- pow_powerRZ in P3. cbn in P3. lra. }
    destruct (two_to_fin prec emax 1 P1 P2 ltac:(lia)) as (F1 & V1). change (- Z.of_nat 1)%Z with (- Z.of_nat 1)%Z in V1. rewrite powerRZ_neg', <- pow_powerRZ in V1. cbn [pow] in V1.
    destruct (zero_fin prec emax) as (F0 & V0). rewrite V1, V0.
    split; [exact Hr|]. split; [exact Fh|]. split; [exact Hh|]. split; [lra|]. split; [auto|]. split; [|split; lra].
    intros pw. cbn [is_sorted]. rewrite andb_true_r. apply (fl_leb prec emax); auto. rewrite V0, V1. lra.
  - cbn [map]. rewrite (proj2 sf_one_ok), sol_exp_0. split; [reflexivity|]. intros i Hi. rewrite Rminus_eq_0, Rabs_R0. lra.
Qed.
