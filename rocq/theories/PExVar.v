(** Instances for the examples of C71: y' = y, y(0) = 1 with RungeKutta23. *)
From Coq Require Import List ZArith QArith Bool Arith Lia Reals Lra.
From Verif Require Import Base Scalar Vec MBuffer MZeros MSteps MApi MDop853 MClasses Laws Spec SpecInst
  PStep PCore PHist PBound PVecR SpecRK PDim PFwd PTerm SpecMS PMS PMS2 PTop1 PMS6 PMS7 Ex SpecOrder SpecDense PDense SpecCtl PCtl PC5
  SpecConv SpecConv3 PConv1 PConv8 PExR PC3 PConv9 SpecVar.
Import ListNotations.
Open Scope R_scope.

Lemma exp_Ck t0 te k : Ck_solution k (@rhs_exp Rops) 1 t0 te sol_exp.
Proof.
  exists (fun _ => sol_exp). split; [reflexivity|]. intros t _. split; [reflexivity|]. split; [reflexivity|].
  intros i Hi. destruct i as [|i]; [|lia]. split.
  - intros j _. cbn [sol_exp cmp nth]. apply derivable_pt_lim_exp.
  - cbn [sol_exp cmp nth]. apply derivable_continuous_pt, derivable_pt_exp.
Qed.
Lemma exp_smooth t0 te : smooth_along (@rhs_exp Rops) 1 t0 te sol_exp.
Proof.
  exists (fun _ _ _ => 1), (fun _ _ _ => 0), (fun _ _ _ => 0), 0. intros t _. split.
  - intros i j _ _. split; [apply (derivable_pt_lim_const 1)|]. split; [apply (derivable_pt_lim_const 0)|].
    apply continuity_pt_const. now intros ? ?.
  - intros z f g e i (Hl & H) E1 E2 Hi. injection E1 as <-. injection E2 as <-. destruct i as [|i]; [|lia].
    unfold sol_exp in *. destruct z as [|a [|? ?]]; try discriminate. cbn [map seq cmp nth vsub map2 dot].
    change (@sub Rops a (exp t)) with (a - exp t). match goal with |- Rabs ?u <= _ => replace u with 0 by (cbn; lra) end. rewrite Rabs_R0. lra.
Qed.
Lemma r_rk23_ok h : init_var (RungeKutta23 (OT := Rops)) (garb RungeKutta23) rhs_exp 0 (sol_exp 0) default_options
    (fun _ _ _ => Ret one) (Some h) = Ret (r_rk23 h).
Proof.
  unfold sol_exp. rewrite exp_0. unfold r_rk23, init_var. cbn [obind init_base rhs_exp max_step default_options]. rewrite tol_pos. reflexivity.
Qed.
Lemma r_rk23_data h : hstep (r_rk23 h) = h /\ state (r_rk23 h) = [1] /\ now (r_rk23 h) = 0 /\ deriv (r_rk23 h) = [1] /\ dims 1 (r_rk23 h).
Proof.
  unfold r_rk23, init_var. cbn [obind init_base rhs_exp max_step default_options]. rewrite tol_pos. repeat split; try reflexivity; repeat constructor.
Qed.
Lemma exp_trial : match @RungeKutta23 Rops with Fsal A B C Ew order _ =>
    exists e h', attempts rhs_exp A B C (fsal_error default_options Ew) default_options order 0 [1] [1] (1 / 10) [(1 / 10, e)] [6631 / 6000] [6631 / 6000] h'
  | _ => False end.
Proof.
  unfold RungeKutta23. eexists. eexists.
  apply att_accept with (K := [[1]; [21 / 20]; [863 / 800]]).
  - split.
    + cbn [skipn litm map lits]. eapply stg_cons with (k := [21 / 20] : @vec Rops).
      * unfold rhs_exp. f_equal. zs. cbn. f_equal. field.
      * eapply stg_cons with (k := [863 / 800] : @vec Rops); [unfold rhs_exp; f_equal; zs; cbn; f_equal; field|]. constructor.
    + unfold rk_combine, rk23_B. zs. cbn. f_equal. field.
  - reflexivity.
  - reflexivity.
  - right. unfold scaled_rms, weighted, Rsum. cbn. rewrite Rmax_left by (rewrite !Rabs_right; lra). rewrite Rabs_right by lra.
    refine (Rlt_le_trans _ _ _ _ (Req_le _ _ sqrt_1)). apply sqrt_lt_1_alt. lra.
Qed.
Lemma exp_var_step : exists s', took_step (solver_of (E := ER) RungeKutta23 1 default_options rhs_exp PInf) (r_rk23 (1 / 10)) s' /\
  now s' = 1 / 10 /\ state s' = [6631 / 6000].
Proof.
  destruct (r_rk23_data (1 / 10)) as (D1 & D2 & D3 & D4 & D5). destruct exp_trial as (e & h' & Ht).
  destruct (C36_converse (E := ER) (@RungeKutta23 Rops) 1 default_options rhs_exp PInf 1 _ _ _ _ _ (r_rk23 (1 / 10)) [(1 / 10, e)] [6631 / 6000] [6631 / 6000] h' (var_fsal _ _ _ _ _ _ _)) as (s' & H1 & H2 & H4 & _ & H3).
  - split; [reflexivity|discriminate].
  - lia.
  - intros t y f Hl H. injection H as <-. exact Hl.
  - apply reach_built, r_rk23_built.
  - exact D5.
  - intros H. discriminate.
  - rewrite D1, D2, D3, D4. exact Ht.
  - cbn. lia.
  - exists s'. split; [exact H1|]. rewrite H2, D3. unfold last_h. cbn [last fst]. split; [lra|exact H4].
Qed.
(** no step from time 0 to a time <= te is longer than te *)
Lemma exp_steps h te : 0 <= h -> steps_at_most te te (solver_of (E := ER) RungeKutta23 1 default_options rhs_exp PInf) (r_rk23 h).
Proof.
  intros Hh. destruct default_sane as (So & _).
  assert (Hinv : forall x, stepped (solver_of (E := ER) RungeKutta23 1 default_options rhs_exp PInf) (r_rk23 h) x ->
      wf RungeKutta23 x /\ 0 <= hstep x /\ 0 <= now x).
  { induction 1 as [|x Hx (W & Hs & Hn) _].
    - destruct (r_rk23_data h) as (D1 & D2 & D3 & D4 & D5). rewrite D1, D3. split; [|lra].
      exact (proj1 (built_good rhs_exp RungeKutta23 _ (r_rk23_built h))).
    - split; [exact (core_wf (E := ER) RungeKutta23 1 default_options rhs_exp x W)|].
      cbn [s_core solver_of]. destruct (core_of RungeKutta23 1 default_options rhs_exp x) as [r x'] eqn:e. cbn [snd].
      destruct W as (W & _). cbn [core_of RungeKutta23] in e.
      pose proof (core_fsal_R _ _ _ _ _ _ _ _ _ _ _ 1 So (error_exponent_pos _) W e Hs). lra. }
  intros x x' Hx _ Hle. destruct (Hinv x Hx) as (_ & _ & Hn). lra.
Qed.
