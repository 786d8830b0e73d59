(** C36 to C40: the variable step classes.

    [attempts … h l y' f' h']: the trials of one step (SpecCtl); [joins s g]: g
    connects the last two recorded rows with their slopes (SpecDense). *)
From Coq Require Import List ZArith QArith Qcanon Bool Arith Lia Reals Lra Floats.SpecFloat.
From Verif Require Import Base Scalar Vec MBuffer MZeros MSteps MApi MDop853 MClasses Laws Spec SpecInst SpecRK SpecDense SpecMS SpecCtl
  PVecR PBound PHist PInterp PDim Ex PTop1 PTop2 PMS7 PC3 PC4 PC5 PRef1 PExR.
Import ListNotations.
Open Scope R_scope.

(** * C36  the step size controller
    A step is a sequence of trials; the one recorded is the last. *)
Theorem C36 {E : @Env Rops} : forall m fuelc (o : @options Rops) rhs tb n A B C order err (s s' : @st Rops),
  variable_step (E := E) o m A B C order err -> tolerances o -> shaped m -> (0 <= order)%Z -> keeps_dim (OT := Rops) n rhs ->
  reachable (E := E) rhs m fuelc o tb s -> dims n s -> took_step (solver_of (E := E) m fuelc o rhs tb) s s' ->
  exists l, attempts rhs A B C err o order (now s) (state s) (deriv s) (hstep s) l (state s') (deriv s') (hstep s') /\
    (length l <= fuelc)%nat /\ now s' = now s + last_h l.
Proof. intros m fuelc o rhs tb n A B C order err s s' H _. exact (C36_lemma m fuelc o rhs tb n A B C order err s s' H). Qed.
Print Assumptions C36.
(** Conversely such a sequence of trials is what step() does. *)
Theorem C36_converse {E : @Env Rops} : forall m fuelc (o : @options Rops) rhs tb n A B C order err (s : @st Rops) l y' f' h',
  variable_step (E := E) o m A B C order err -> tolerances o -> shaped m -> (0 <= order)%Z -> keeps_dim (OT := Rops) n rhs ->
  reachable (E := E) rhs m fuelc o tb s -> dims n s -> ~ would_pass tb s ->
  attempts rhs A B C err o order (now s) (state s) (deriv s) (hstep s) l y' f' h' -> (length l <= fuelc)%nat ->
  exists s', took_step (solver_of (E := E) m fuelc o rhs tb) s s' /\ now s' = now s + last_h l /\ state s' = y' /\ deriv s' = f' /\ hstep s' = h'.
Proof. intros m fuelc o rhs tb n A B C order err s l y' f' h' H _. exact (PC3.C36_converse m fuelc o rhs tb n A B C order err s l y' f' h' H). Qed.
Print Assumptions C36_converse.
(** Of the trials exactly the last is accepted; after trial i the step size is
    multiplied by a factor within [min_factor, max_factor], and not enlarged if
    the trial was rejected and safety_factor <= 1. *)
Theorem C36_trials : forall rhs A B C err (o : @options Rops) order t y f h l y' f' h', (0 <= order)%Z ->
  min_factor o <= max_factor o -> attempts rhs A B C err o order t y f h l y' f' h' ->
  forall i h1 e1, nth_error l i = Some (h1, e1) ->
    (accepted e1 <-> i = (length l - 1)%nat) /\
    exists q, nth_error (map fst l ++ [h']) (S i) = Some (h1 * q) /\ min_factor o <= q <= max_factor o /\
      (~ accepted e1 -> min_factor o <= 1 -> safety_factor o <= 1 -> q <= 1).
Proof. exact C36_trials_lemma. Qed.
Print Assumptions C36_trials.
(** RungeKutta23, y' = 0 before t = 1 and 1 after: the trial h = 1 has error
    125000 and is rejected, h = 1/5 is accepted, the next step size is 2 *)
Example C36_ex :
  tolerances default_options /\ min_factor (OT := Rops) default_options <= max_factor (OT := Rops) default_options /\
  built (OT := Rops) (E := ER) rhs_jump RungeKutta23 r_jump /\ dims 1 r_jump /\ keeps_dim (OT := Rops) 1 rhs_jump /\
  (match @RungeKutta23 Rops with Fsal A B C Ew order P =>
    variable_step (E := ER) default_options RungeKutta23 A B C order (fsal_error default_options Ew) /\ (0 <= order)%Z /\
    attempts rhs_jump A B C (fsal_error default_options Ew) default_options order 0 [0] [0] 1 [(1, 125000); (1 / 5, 0)] [0] [0] 2
  | _ => False end) /\
  exists s', took_step (solver_of (E := ER) RungeKutta23 5 default_options rhs_jump PInf) r_jump s' /\ now s' = 1 / 5 /\ hstep s' = 2.
Proof.
  split; [unfold tolerances; cbn [atol rtol default_options]; rewrite !lit_R; cbn; lra|].
  split; [cbn [min_factor max_factor default_options]; rewrite !lit_R; cbn; lra|].
  split; [exact r_jump_built|]. split; [exact (proj2 (proj2 (proj2 (proj2 r_jump_data))))|].
  split; [intros t y f _ H; injection H as <-; reflexivity|].
  split; [|apply r_jump_step; lia]. split; [constructor|]. split; [lia|]. exact jump_trials.
Qed.

(** * C37  max_step and min_step
    Refuted: RungeKutta23, y' = 1, max_step = 1/4, takes a step of 1/2; with
    min_step = 1 too. *)
Theorem C37_refuted : exists o1 o2 s1 s2, max_step o1 = Fin (qq (1 # 4)) /\ min_step o2 = qq 1 /\
  init_var (RungeKutta23 (OT := QI)) (garb RungeKutta23) rhs_one (qq 0) [qq 1] o1 (fun _ _ _ => Ret one) (Some (qq (1 # 2))) = Ret s1 /\
  init_var (RungeKutta23 (OT := QI)) (garb RungeKutta23) rhs_one (qq 0) [qq 1] o2 (fun _ _ _ => Ret one) (Some (qq (1 # 2))) = Ret s2 /\
  stepQ (step (solver_of (E := EQ) RungeKutta23 5 o1 rhs_one PInf) 5 (Some 1%Z) None s1) = Some [(1 # 2, [3 # 2])]%Q /\
  stepQ (step (solver_of (E := EQ) RungeKutta23 5 o2 rhs_one PInf) 5 (Some 1%Z) None s2) = Some [(1 # 2, [3 # 2])]%Q.
Proof.
  exists (o_steps (1 # 1000) (1 # 4)), (o_steps 1 2), (of_outcome (ex_steps (1 # 1000) (1 # 4))), (of_outcome (ex_steps 1 2)).
  repeat split; try reflexivity; vm_compute; reflexivity.
Qed.
Print Assumptions C37_refuted.
(** In fact neither option has any effect on an instance. *)
Theorem C37_ignored {OT : Ops} {E : Env} : forall m fuelc o o' rhs tb fuel, same_but_steps o o' ->
    let sv := solver_of m fuelc o rhs tb in
    let sv' := solver_of m fuelc o' rhs tb in
    (forall n u s, step sv fuel n u s = step sv' fuel n u s) /\
    (forall n u s, skip sv fuel n u s = skip sv' fuel n u s) /\
    (forall t s, run sv fuel t s = run sv' fuel t s) /\
    (forall t e s, run_events sv fuel t e s = run_events sv' fuel t e s) /\
    (forall cs s, session sv fuel cs s = session sv' fuel cs s).
Proof. exact C37_lemma. Qed.
Print Assumptions C37_ignored.
Example C37_ex : same_but_steps (o_steps 0 (1 # 4)) (o_steps 0 3) /\ max_step (o_steps 0 (1 # 4)) <> max_step (o_steps 0 3).
Proof. split; [repeat split|]. vm_compute. intros H. discriminate. Qed.

(** * C38  DOP853 with vanishing error estimates
    Refuted.  With numba, whenever the order 5 estimate of the first trial is 0
    the step raises ZeroDivisionError, any tableau, any dimension ... *)
Theorem C38_raises {E : @Env Rops} : forall A B C E5 E3 order D Af Cf fuelc (o : @options Rops) rhs tb n (s : @st Rops) K y' f',
  @numba_mode Rops E = true ->
  let m := @Dop Rops A B C E5 E3 order D Af Cf in
  tolerances o -> shaped m -> keeps_dim (OT := Rops) n rhs -> reachable (E := E) rhs m (S fuelc) o tb s -> dims n s -> ~ would_pass tb s ->
  rk_step rhs A B C (now s) (state s) (deriv s) (hstep s) K y' -> rhs (now s + hstep s) y' = Ret f' ->
  scaled_rms o (state s) y' (weighted E5 (hstep s) (K ++ [f'])) = 0 ->
  forall fuel, exists s', step (solver_of (E := E) m (S fuelc) o rhs tb) fuel None None s = (Raise ZeroDivisionError, s') /\ cache s' = cache s.
Proof. intros A B C E5 E3 order D Af Cf fuelc o rhs tb n s K y' f' Hm m _. exact (PC4.C38_raises A B C E5 E3 order D Af Cf fuelc o rhs tb n s K y' f' Hm). Qed.
Print Assumptions C38_raises.
(** ... in particular for y' = 0 ... *)
Theorem C38_refuted {E : @Env Rops} : forall fuelc (o : @options Rops) tb n (s : @st Rops), @numba_mode Rops E = true -> tolerances o ->
  reachable (E := E) rhs_zero DOP853 (S fuelc) o tb s -> dims n s -> ~ would_pass tb s ->
  forall fuel, exists s', step (solver_of (E := E) DOP853 (S fuelc) o rhs_zero tb) fuel None None s = (Raise ZeroDivisionError, s') /\ cache s' = cache s.
Proof.
  intros fuelc o tb n s Hm _ Hr Hd Hp. refine (C38_zero _ _ _ _ _ _ _ _ _ fuelc o tb n s Hm _ Hr Hd Hp).
  split; [vm_compute; reflexivity|]. intros e. apply (f_equal (@length _)) in e. vm_compute in e. discriminate.
Qed.
Print Assumptions C38_refuted.
(** ... and without numba (binary64, division by zero gives NaN) the same step
    never returns: every trial is rejected. *)
Theorem C38_numpy_refuted : forall pw (E : @Env (SFops pw)) (o : @options (SFops pw)) rhs tb fuelc (s : @st (SFops pw)),
  @numba_mode (SFops pw) E = false -> vanishing pw rhs ->
  reachable (E := E) rhs DOP853 fuelc o tb s -> ~ would_pass tb s ->
  forall fuelc' fuel, exists s', step (solver_of (E := E) DOP853 fuelc' o rhs tb) fuel None None s = (Loop, s') /\ cache s' = cache s.
Proof.
  intros pw E o rhs tb fuelc s Hm Hv Hr Hp. refine (C38_never pw _ _ _ _ _ _ _ _ _ o rhs tb fuelc s Hm _ Hv Hr Hp).
  split; [rewrite map_length, !firstn_length; unfold litm, lits; rewrite !map_length; vm_compute; reflexivity|].
  intros e. apply (f_equal (@length _)) in e. rewrite map_length, firstn_length in e. unfold litm in e. rewrite map_length in e. vm_compute in e. discriminate.
Qed.
Print Assumptions C38_numpy_refuted.

(** both modes reach such a state, by construction alone *)
Example C38_ex : exists s : @st Rops, reachable (E := ER) rhs_zero DOP853 5 default_options PInf s /\ dims 2 s /\
  tolerances default_options /\ @numba_mode Rops ER = true /\ ~ would_pass PInf s.
Proof.
  pose (r := init_var (DOP853 (OT := Rops)) (garb DOP853) rhs_zero (0 : @T Rops) [1; 2] default_options (fun _ _ _ => Ret one) (Some (1 : @T Rops))).
  assert (H : exists s, r = Ret s /\ dims 2 s).
  { unfold r, init_var, init_base. cbn [obind rhs_zero max_step default_options]. rewrite tol_pos. eexists. split; [reflexivity|].
    split; repeat constructor. }
  destruct H as (s & H & D). exists s. split.
  - apply reach_built. exact (built_var (OT := Rops) (E := ER) _ DOP853 (garb DOP853) 0 [1; 2] default_options (fun _ _ _ => Ret one) (Some (1 : @T Rops)) s eq_refl (garb_ok _) H).
  - split; [exact D|]. split; [unfold tolerances; cbn [atol rtol default_options]; rewrite !lit_R; cbn; lra|]. split; [reflexivity|]. discriminate.
Qed.
Example C38_numpy_ex : forall pw, let FI := SFops pw in let EN := @env0 FI false in
  exists s : @st FI, reachable (OT := FI) (E := EN) rhs_zero DOP853 5 default_options PInf s /\
  vanishing pw (@rhs_zero FI) /\ @numba_mode FI EN = false /\ ~ would_pass (OT := FI) PInf s.
Proof.
  intros pw FI EN.
  pose (r := init_var (DOP853 (OT := FI)) (garb DOP853) rhs_zero (@zero FI) [@one FI] default_options (fun _ _ _ => Ret one) (Some (@one FI))).
  assert (H : exists s, r = Ret s).
  { unfold r, init_var, init_base. cbn [obind rhs_zero max_step default_options]. eexists. reflexivity. }
  destruct H as (s & H). exists s. split.
  - exists s, 0%nat, []. split; [|reflexivity]. exact (built_var (OT := FI) (E := EN) _ DOP853 (garb DOP853) (@zero FI) [@one FI] default_options (fun _ _ _ => Ret one) (Some (@one FI)) s eq_refl (garb_ok _) H).
  - split; [|split; [reflexivity|discriminate]]. intros t y. eexists. split; [reflexivity|].
    apply Forall_forall. intros x Hx. apply in_map_iff in Hx as (z & <- & _). exists false. reflexivity.
Qed.

(** * C39  the end of an integration
    Refuted: RungeKutta23, y' = 1, first_step = 1/2, t_bound = 3/4: step() goes to
    1/2, all further calls return None there. *)
Theorem C39_refuted : exists s1 : @st QI, let sv := sv_rk23 (Fin (qq (3 # 4))) in
  built (E := EQ) rhs_one RungeKutta23 ex_rk23 /\
  (exists t a, step sv 5 None None ex_rk23 = (Ret (ROne t a), s1)) /\ this (now s1) = (1 # 2)%Q /\
  step sv 5 None None s1 = (Ret RNone, s1) /\ rowsQ (run (E := EQ) sv 5 [qq (3 # 4)] s1) = Some [].
Proof. exact C39_refuted_lemma. Qed.
Print Assumptions C39_refuted.
(** What holds: when step() has returned None the time is in (t_bound - h,
    t_bound], h being the current step size, and the instance is unchanged.
    Missing: that it equals t_bound. *)
Theorem C39_partial {E : @Env Rops} : forall m fuelc (o : @options Rops) rhs (tb : R) fuel cs (s0 : @st Rops) x s',
  built (E := E) rhs m s0 -> (0 <= min_factor o <= 1) -> 0 <= max_factor o -> safety_factor o <= 1 ->
  is_fixed m = false -> 0 <= hstep s0 -> now s0 <= tb ->
  let sv := solver_of (E := E) m fuelc o rhs (@Fin Rops tb) in
  let s := session (E := E) sv fuel cs s0 in
  step sv x None None s = (Ret RNone, s') -> s' = s /\ now s <= tb < now s + hstep s.
Proof. exact C39_lemma. Qed.
Print Assumptions C39_partial.
Example C39_ex : let sv := solver_of (E := ER) RungeKutta23 5 default_options rhs_one (@Fin Rops (3 / 4)) in
  built (OT := Rops) (E := ER) rhs_one RungeKutta23 (r_one 1) /\ hstep (r_one 1) = 1 /\ now (r_one 1) = 0 /\
  step sv 0 None None (r_one 1) = (Ret RNone, r_one 1).
Proof.
  destruct (r_one_h 1) as (H1 & _ & H2). split; [apply r_one_built|]. split; [exact H1|]. split; [exact H2|].
  unfold step, bind. cbn [s_bound solver_of]. unfold step_. change (buf_t (cache (r_one 1))) with (now (r_one 1)). rewrite H1, H2. cbn [gt_ext add Rops ltb].
  replace (Rltb (3 / 4) (0 + 1)) with true; [reflexivity|]. symmetry. apply Rltb_true. lra.
Qed.

(** * C40  dense output is continuously differentiable
    After any calls that returned, the interpolant between the last two recorded
    rows is one curve that meets both rows with the recorded derivatives as
    slopes, and is differentiable. *)
Theorem C40 {E : @Env Rops} : forall m fuelc o rhs tb n fuel cs (s0 s : @st Rops),
  In m [@RungeKutta23 Rops; @RungeKutta45 Rops; @DOP853 Rops] -> (is_dop m = true -> total rhs) ->
  keeps_dim (OT := Rops) n rhs -> sane o ->
  let sv := solver_of (E := E) m fuelc o rhs tb in
  built (E := E) rhs m s0 -> length (state s0) = n -> 0 <= hstep s0 ->
  returns (E := E) sv fuel cs s0 s -> prev_t s < now s ->
  exists g, joins s g /\ forall t, prev_t s < t < now s -> exists s', interpolate sv t s = (Ret (@Own Rops (g t)), s').
Proof. exact C40_lemma. Qed.
Print Assumptions C40.
Example C40_ex : sane (@default_options Rops) /\ keeps_dim 1 (@rhs_one Rops) /\ total (@rhs_one Rops) /\
  built (OT := Rops) (E := ER) rhs_one RungeKutta23 (r_one (1 / 2)) /\
  exists s, returns (E := ER) sv_one 0 [CStep None None] (r_one (1 / 2)) s /\ prev_t s < now s.
Proof.
  split; [unfold sane; cbn [min_factor max_factor safety_factor default_options]; rewrite !lit_R; cbn; lra|].
  split; [intros t y f Hy H; injection H as <-; now rewrite map_length|]. split; [intros t y; eexists; reflexivity|].
  split; [apply r_one_built|]. destruct (r_one_step (1 / 2)) as (s' & H1 & H2 & H3).
  exists s'. split; [|rewrite H2, H3; lra]. econstructor; [|constructor].
  cbn [exec_call]. unfold step, bind. cbn [s_bound sv_one solver_of]. unfold step_. cbn [gt_ext bind]. unfold bind. 
  change (solver_of (E := ER) RungeKutta23 5 default_options rhs_one PInf) with sv_one. rewrite H1. reflexivity.
Qed.
