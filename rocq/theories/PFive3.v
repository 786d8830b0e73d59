(** RungeKutta45 has order five in the largest step; the instance of the example. *)
From Coq Require Import List ZArith QArith Bool Arith Lia Reals Lra.
From Verif Require Import Base Scalar Vec MBuffer MZeros MSteps MApi MDop853 MClasses Laws Spec SpecInst
  PStep PCore PHist PBound PVecR SpecRK PDim PFwd PTerm SpecMS PMS PMS2 PTop1 PMS6 PMS7 Ex SpecOrder SpecDense PDense SpecCtl PCtl PC5
  SpecConv SpecConv3 PConv1 PConv8 PExR PC3 PConv9 SpecVar PExVar PVar1 PVar3 PLmm7 SpecFive PFive2.
Import ListNotations.
Open Scope R_scope.

Section Thm.
Context {E : @Env Rops}.
Lemma C71_five_lemma rhs n L t0 te y : lipschitz n L rhs -> t0 <= te -> Ck_solution 6 rhs n t0 te y -> smooth_along3 rhs n t0 te y ->
  exists K, forall H g o sel first s0 fuelc tb fuel cs s, 0 < H <= 1 -> sane o -> garbage_ok RungeKutta45 g ->
    init_var RungeKutta45 g rhs t0 (y t0) o sel first = Ret s0 -> 0 <= hstep s0 ->
    steps_at_most H te (solver_of (E := E) RungeKutta45 fuelc o rhs tb) s0 ->
    s = session (E := E) (solver_of (E := E) RungeKutta45 fuelc o rhs tb) fuel cs s0 -> now s <= te ->
    near (K * H ^ 5) (state s) (y (now s)).
Proof.
  intros HL Hte HC HJ. assert (HC5 : Ck_solution 5 rhs n t0 te y) by (apply (Ck_mono _ 6); auto; lia).
  pose proof (smooth3_smooth _ _ _ _ _ HJ) as HJ2. pose proof tabd_rk45 as T4. pose proof tab5_rk45 as T5. unfold RungeKutta45 in *.
  exact (var_session rhs n L t0 te y HL Hte HC5 HJ2 _ _ _ _ _ _ 5 4 (proj2 T4) ltac:(lia) (rk_step_five rhs n L t0 te y _ _ _ HL Hte HC HJ T5)).
Qed.
Lemma C71_five_run_lemma rhs n L t0 te y : lipschitz n L rhs -> t0 <= te -> Ck_solution 6 rhs n t0 te y -> smooth_along3 rhs n t0 te y ->
  exists K, forall H g o sel first s0 fuelc tb fuel cs s fuel' t rows s', 0 < H <= 1 -> sane o -> garbage_ok RungeKutta45 g ->
    init_var RungeKutta45 g rhs t0 (y t0) o sel first = Ret s0 -> 0 <= hstep s0 ->
    steps_at_most H te (solver_of (E := E) RungeKutta45 fuelc o rhs tb) s0 ->
    returns (E := E) (solver_of (E := E) RungeKutta45 fuelc o rhs tb) fuel cs s0 s ->
    is_sorted t = true -> run (E := E) (solver_of (E := E) RungeKutta45 fuelc o rhs tb) fuel' t s = (Ret rows, s') -> now s' <= te ->
    Forall (fun r => near (K * H ^ 5) (snd r) (y (fst r))) rows.
Proof.
  intros HL Hte HC HJ. assert (HC5 : Ck_solution 5 rhs n t0 te y) by (apply (Ck_mono _ 6); auto; lia).
  pose proof (smooth3_smooth _ _ _ _ _ HJ) as HJ2. pose proof tabd_rk45 as T4. pose proof tab5_rk45 as T5. unfold RungeKutta45 in *.
  exact (var_run rhs n L t0 te y HL Hte HC5 HJ2 _ _ _ _ _ _ 5 4 (proj2 T4) ltac:(lia) (rk_step_five rhs n L t0 te y _ _ _ HL Hte HC HJ T5)).
Qed.
End Thm.

(** * y' = y, y(0) = 1 *)
Lemma exp_smooth3 t0 te : smooth_along3 (@rhs_exp Rops) 1 t0 te sol_exp.
Proof.
  exists (fun _ _ _ => 1), (fun _ _ _ => 0), (fun _ _ _ => 0), (fun _ _ _ => 0), 0. intros t _. split.
  - intros i j _ _. split; [apply (derivable_pt_lim_const 1)|]. split; [apply (derivable_pt_lim_const 0)|]. split; [apply (derivable_pt_lim_const 0)|].
    apply continuity_pt_const. now intros ? ?.
  - intros z f g e i (Hl & H) E1 E2 Hi. injection E1 as <-. injection E2 as <-. destruct i as [|i]; [|lia].
    unfold sol_exp in *. destruct z as [|a [|? ?]]; try discriminate. cbn [map seq cmp nth vsub map2 dot].
    change (@sub Rops a (exp t)) with (a - exp t). match goal with |- Rabs ?u <= _ => replace u with 0 by (cbn; lra) end. rewrite Rabs_R0. lra.
Qed.
Definition r_rk45 (h : R) : @st Rops :=
  of_outcome (init_var (RungeKutta45 (OT := Rops)) (garb RungeKutta45) rhs_exp (0%R : @T Rops) [1%R] default_options
    (fun _ _ _ => Ret one) (Some h)).
Lemma r_rk45_built h : built (OT := Rops) (E := ER) rhs_exp RungeKutta45 (r_rk45 h).
Proof.
  refine (built_var (OT := Rops) (E := ER) _ RungeKutta45 (garb RungeKutta45) 0%R [1%R] default_options
    (fun _ _ _ => Ret one) (Some h) _ eq_refl (garb_ok _) _).
  apply of_outcome_ok. unfold init_var. cbn [obind init_base rhs_exp max_step default_options]. rewrite tol_pos. reflexivity.
Qed.
Lemma r_rk45_ok h : init_var (RungeKutta45 (OT := Rops)) (garb RungeKutta45) rhs_exp 0 (sol_exp 0) default_options
    (fun _ _ _ => Ret one) (Some h) = Ret (r_rk45 h).
Proof.
  unfold sol_exp. rewrite exp_0. unfold r_rk45, init_var. cbn [obind init_base rhs_exp max_step default_options]. rewrite tol_pos. reflexivity.
Qed.
Lemma r_rk45_data h : hstep (r_rk45 h) = h /\ state (r_rk45 h) = [1] /\ now (r_rk45 h) = 0 /\ deriv (r_rk45 h) = [1] /\ dims 1 (r_rk45 h).
Proof.
  unfold r_rk45, init_var. cbn [obind init_base rhs_exp max_step default_options]. rewrite tol_pos. repeat split; try reflexivity; repeat constructor.
Qed.
Lemma exp_trial45 : match @RungeKutta45 Rops with Fsal A B C Ew order _ =>
    exists e h', attempts rhs_exp A B C (fsal_error default_options Ew) default_options order 0 [1] [1] (1 / 10) [(1 / 10, e)]
      [663102551 / 600000000] [663102551 / 600000000] h'
  | _ => False end.
Proof.
  unfold RungeKutta45. eexists. eexists.
  apply att_accept with (K := [[1]; [51 / 50]; [20609 / 20000]; [6771 / 6250]; [12452047 / 11390625]; [60795727 / 55000000]]).
  - split.
    + cbn [skipn litm map lits].
      eapply stg_cons with (k := [51 / 50] : @vec Rops); [unfold rhs_exp; f_equal; zs; cbn; f_equal; field|].
      eapply stg_cons with (k := [20609 / 20000] : @vec Rops); [unfold rhs_exp; f_equal; zs; cbn; f_equal; field|].
      eapply stg_cons with (k := [6771 / 6250] : @vec Rops); [unfold rhs_exp; f_equal; zs; cbn; f_equal; field|].
      eapply stg_cons with (k := [12452047 / 11390625] : @vec Rops); [unfold rhs_exp; f_equal; zs; cbn; f_equal; field|].
      eapply stg_cons with (k := [60795727 / 55000000] : @vec Rops); [unfold rhs_exp; f_equal; zs; cbn; f_equal; field|]. constructor.
    + unfold rk_combine. zs. cbn. f_equal. field.
  - reflexivity.
  - reflexivity.
  - right. unfold scaled_rms, weighted, Rsum. cbn. rewrite Rmax_left by (rewrite !Rabs_right; lra). rewrite Rabs_right by lra.
    refine (Rlt_le_trans _ _ _ _ (Req_le _ _ sqrt_1)). apply sqrt_lt_1_alt. lra.
Qed.
Lemma exp_var_step45 : exists s', took_step (solver_of (E := ER) RungeKutta45 1 default_options rhs_exp PInf) (r_rk45 (1 / 10)) s' /\
  now s' = 1 / 10 /\ state s' = [663102551 / 600000000].
Proof.
  destruct (r_rk45_data (1 / 10)) as (D1 & D2 & D3 & D4 & D5). destruct exp_trial45 as (e & h' & Ht).
  destruct (C36_converse (E := ER) (@RungeKutta45 Rops) 1 default_options rhs_exp PInf 1 _ _ _ _ _ (r_rk45 (1 / 10)) [(1 / 10, e)] [663102551 / 600000000] [663102551 / 600000000] h' (var_fsal _ _ _ _ _ _ _)) as (s' & H1 & H2 & H4 & _ & H3).
  - split; [reflexivity|discriminate].
  - lia.
  - intros t y f Hl H. injection H as <-. exact Hl.
  - apply reach_built, r_rk45_built.
  - exact D5.
  - intros H. discriminate.
  - rewrite D1, D2, D3, D4. exact Ht.
  - cbn. lia.
  - exists s'. split; [exact H1|]. rewrite H2, D3. unfold last_h. cbn [last fst]. split; [lra|exact H4].
Qed.
Lemma exp_steps45_at h te fuelc tb : 0 <= h -> steps_at_most te te (solver_of (E := ER) RungeKutta45 fuelc default_options rhs_exp tb) (r_rk45 h).
Proof.
  intros Hh. destruct default_sane as (So & _).
  assert (Hinv : forall x, stepped (solver_of (E := ER) RungeKutta45 fuelc default_options rhs_exp tb) (r_rk45 h) x ->
      wf RungeKutta45 x /\ 0 <= hstep x /\ 0 <= now x).
  { induction 1 as [|x Hx (W & Hs & Hn) _].
    - destruct (r_rk45_data h) as (D1 & D2 & D3 & D4 & D5). rewrite D1, D3. split; [|lra].
      exact (proj1 (built_good rhs_exp RungeKutta45 _ (r_rk45_built h))).
    - split; [exact (core_wf (E := ER) RungeKutta45 fuelc default_options rhs_exp x W)|].
      cbn [s_core solver_of]. destruct (core_of RungeKutta45 fuelc default_options rhs_exp x) as [r x'] eqn:e. cbn [snd].
      destruct W as (W & _). cbn [core_of RungeKutta45] in e.
      pose proof (core_fsal_R _ _ _ _ _ _ _ _ _ _ _ 1 So (error_exponent_pos _) W e Hs). lra. }
  intros x x' Hx _ Hle. destruct (Hinv x Hx) as (_ & _ & Hn). lra.
Qed.
Lemma exp_steps45 h te : 0 <= h -> steps_at_most te te (solver_of (E := ER) RungeKutta45 1 default_options rhs_exp PInf) (r_rk45 h).
Proof. apply exp_steps45_at. Qed.
