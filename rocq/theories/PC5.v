(** C37, C39: counterexamples; C40 for the three registered classes. *)
From Coq Require Import List ZArith QArith Qcanon Bool Arith Lia Reals Lra.
From Verif Require Import Base Scalar Vec MBuffer MZeros MSteps MApi MDop853 MClasses Laws Spec SpecInst SpecRK SpecDense SpecMS SpecCtl
  PStep PKeeps PClean PCore PHist PBound PVecR PRun PFwd PInterp PRK PDim PTop1 PTop2 PMS PMS7 PCtl PC1 PC2 PC3 PC4 Ex PRef1 PExR.
Import ListNotations.

(** RungeKutta23 for y' = 1 with options *)
Definition o_steps (lo hi : Q) : @options QI :=
  mkopts (lit (1 # 1000000)) (lit (1 # 1000)) (qq lo) (Fin (qq hi)) (lit (1 # 5)) (lit 10) (lit (9 # 10)).
Definition ex_steps (lo hi : Q) : outcome (@st QI) :=
  init_var (RungeKutta23 (OT := QI)) (garb RungeKutta23) rhs_one (qq 0) [qq 1] (o_steps lo hi) (fun _ _ _ => Ret one) (Some (qq (1 # 2))).

Section C40.
Context {E : @Env Rops}.
Open Scope R_scope.
Lemma C40_lemma m fuelc o rhs tb n fuel cs (s0 s : @st Rops) :
  In m [@RungeKutta23 Rops; @RungeKutta45 Rops; @DOP853 Rops] -> (is_dop m = true -> total rhs) ->
  keeps_dim (OT := Rops) n rhs -> sane o ->
  let sv := solver_of (E := E) m fuelc o rhs tb in
  built (E := E) rhs m s0 -> length (state s0) = n -> 0 <= hstep s0 ->
  returns (E := E) sv fuel cs s0 s -> prev_t s < now s ->
  exists g, joins s g /\ forall t, prev_t s < t < now s -> exists s', interpolate sv t s = (Ret (@Own Rops (g t)), s').
Proof.
  intros [<-|[<-|[<-|[]]]] Ht Hk Ho sv.
  - refine (C40_rk _ _ _ _ _ _ _ _ _ _ n fuel cs s0 s P_ok_23 _ _ Hk Ho); [reflexivity|split; [reflexivity|discriminate]].
  - refine (C40_rk _ _ _ _ _ _ _ _ _ _ n fuel cs s0 s P_ok_45 _ _ Hk Ho); [reflexivity|split; [reflexivity|discriminate]].
  - assert (HD : Nat.even (length (@litm Rops dop_D)) = true) by (vm_compute; reflexivity).
    assert (HA : length (@map (list R) (list R) (firstn 12) (firstn 12 (@litm Rops dop_A))) = dop_n_stages) by (vm_compute; reflexivity).
    refine (C40_dop _ _ _ _ _ _ _ _ _ fuelc o rhs tb n fuel cs s0 s HD _ Hk Ho HA _ (Ht eq_refl)).
    + split; [vm_compute; reflexivity|]. intros e. rewrite e in HA. discriminate.
    + vm_compute. reflexivity.
Qed.
Lemma C39_lemma m fuelc (o : @options Rops) rhs tb fuel cs (s0 : @st Rops) x s' :
  built (E := E) rhs m s0 -> (0 <= min_factor o <= 1) -> 0 <= max_factor o -> safety_factor o <= 1 ->
  is_fixed m = false -> 0 <= hstep s0 -> now s0 <= tb ->
  let sv := solver_of (E := E) m fuelc o rhs (@Fin Rops tb) in
  let s := session (E := E) sv fuel cs s0 in
  step sv x None None s = (Ret RNone, s') -> s' = s /\ now s <= tb < now s + hstep s.
Proof.
  intros Hb H1 H2 H3 Hf Hh Hn sv s H.
  assert (K : gt_ext (now s) (@Fin Rops tb) = false).
  { apply C04_var'; auto. cbn [gt_ext]. apply Rltb_false. exact Hn. }
  unfold step, bind in H. destruct (step_cases sv (s_bound sv) s) as [(W & K1)|(W & K1)]; rewrite K1 in H.
  - injection H as <-. split; [reflexivity|]. cbn in W, K. apply Rltb_true in W. apply Rltb_false in K. split; [exact K|exact W].
  - destruct (s_core sv s) as [[[]| |] s1]; cbn in H; discriminate.
Qed.
End C40.

Open Scope R_scope.
(** a right-hand side that jumps at t = 1: the first trial with h = 1 is rejected *)
Definition rhs_jump : @rhs_t Rops := fun t _ => Ret [if Rlt_dec t 1 then 0 else 1].
Lemma jump_lo t y : t < 1 -> rhs_jump t y = Ret [0].
Proof. intros H. unfold rhs_jump. destruct (Rlt_dec t 1); [reflexivity|contradiction]. Qed.
Lemma jump_hi t y : 1 <= t -> rhs_jump t y = Ret [1].
Proof. intros H. unfold rhs_jump. destruct (Rlt_dec t 1); [lra|reflexivity]. Qed.
Lemma Rpower_125000 : Rpower 125000 (1 / 3) = 50.
Proof.
  replace 125000 with (Rpower 50 3).
  - rewrite Rpower_mult. replace (3 * (1 / 3)) with 1 by lra. apply Rpower_1. lra.
  - replace 3 with (INR 3) by (cbn; lra). rewrite Rpower_pow by lra. cbn. lra.
Qed.
Ltac zs := unfold vadd, vscale, lincomb, lits, over; cbn [map map2 lincomb_acc vzero repeat length firstn app vadd vscale lits litm hd]; rewrite ?zero_R, ?lit_R; cbn [Qnum Qden].
Lemma jump_trials : match @RungeKutta23 Rops with Fsal A B C Ew order _ =>
    attempts rhs_jump A B C (fsal_error default_options Ew) default_options order 0 [0] [0] 1 [(1, 125000); (1 / 5, 0)] [0] [0] 2
  | _ => False end.
Proof.
  unfold RungeKutta23.
  eapply att_reject with (K := [[0]; [0]; [0]]) (y1 := [0]) (f1 := [1]).
  - split.
    + cbn [skipn litm map lits]. econstructor; [apply jump_lo; rewrite ?lit_R; cbn; lra|].
      econstructor; [apply jump_lo; rewrite ?lit_R; cbn; lra|]. constructor.
    + unfold rk_combine, rk23_B. zs. cbn. f_equal. field.
  - apply jump_hi. lra.
  - unfold fsal_error, scaled_rms, weighted, Rsum. cbn. rewrite Rmax_left, Rabs_R0 by lra.
    match goal with |- _ = sqrt ?x => replace x with (125000 * 125000) by field end. rewrite sqrt_square; lra.
  - unfold accepted. lra.
  - assert (F1 : factor default_options 2 125000 = 1 / 5).
    { unfold factor. destruct (Req_EM_T 125000 0); [lra|]. replace (1 / IZR (2 + 1)) with (1 / 3) by (cbn; lra). rewrite Rpower_125000.
      cbn [max_factor min_factor safety_factor default_options]. rewrite !lit_R. cbn [Qnum Qden].
      rewrite Rmax_left by lra. rewrite Rmin_right by lra. reflexivity. }
    rewrite F1. replace (1 * (1 / 5)) with (1 / 5) by lra.
    assert (F2 : factor default_options 2 0 = 10).
    { unfold factor. destruct (Req_EM_T 0 0); [|lra]. cbn [max_factor default_options]. rewrite lit_R. cbn. lra. }
    replace 2 with (1 / 5 * factor default_options 2 0) by (rewrite F2; lra).
    apply att_accept with (K := [[0]; [0]; [0]]).
    + split.
      * cbn [skipn litm map lits]. econstructor; [apply jump_lo; rewrite ?lit_R; cbn; lra|].
        econstructor; [apply jump_lo; rewrite ?lit_R; cbn; lra|]. constructor.
      * unfold rk_combine, rk23_B. zs. cbn. f_equal. field.
    + apply jump_lo. lra.
    + unfold fsal_error, scaled_rms, weighted, Rsum. cbn. rewrite Rmax_left, Rabs_R0 by lra.
      match goal with |- _ = sqrt ?x => replace x with 0 by field end. now rewrite sqrt_0.
    + now left.
Qed.

Definition r_jump : @st Rops :=
  of_outcome (init_var (RungeKutta23 (OT := Rops)) (garb RungeKutta23) rhs_jump (0 : @T Rops) [0] default_options
    (fun _ _ _ => Ret one) (Some (1 : @T Rops))).
Lemma r_jump_ok : init_var (RungeKutta23 (OT := Rops)) (garb RungeKutta23) rhs_jump (0 : @T Rops) [0] default_options
    (fun _ _ _ => Ret one) (Some (1 : @T Rops)) = Ret r_jump.
Proof.
  unfold r_jump, init_var, init_base. rewrite jump_lo by lra. cbn [obind max_step default_options]. rewrite tol_pos. reflexivity.
Qed.
Lemma r_jump_built : built (OT := Rops) (E := ER) rhs_jump RungeKutta23 r_jump.
Proof. exact (built_var (OT := Rops) (E := ER) _ RungeKutta23 (garb RungeKutta23) 0 [0] default_options _ (Some (1 : @T Rops)) _ eq_refl (garb_ok _) r_jump_ok). Qed.
Lemma r_jump_data : hstep r_jump = 1 /\ state r_jump = [0] /\ now r_jump = 0 /\ deriv r_jump = [0] /\ dims 1 r_jump.
Proof.
  pose proof r_jump_ok as H. unfold init_var, init_base in H. rewrite jump_lo in H by lra. cbn [obind max_step default_options] in H. rewrite tol_pos in H.
  cbn [obind] in H. injection H as <-. repeat split; try reflexivity; repeat constructor.
Qed.
Lemma r_jump_step fuelc : (2 <= fuelc)%nat -> exists s', took_step (solver_of (E := ER) RungeKutta23 fuelc default_options rhs_jump PInf) r_jump s' /\
  now s' = 1 / 5 /\ hstep s' = 2.
Proof.
  intros Hf. destruct r_jump_data as (D1 & D2 & D3 & D4 & D5).
  destruct (C36_converse (E := ER) (@RungeKutta23 Rops) fuelc default_options rhs_jump PInf 1 _ _ _ _ _ r_jump [(1, 125000); (1 / 5, 0)] [0] [0] 2 (var_fsal _ _ _ _ _ _ _)) as (s' & H1 & H2 & _ & _ & H3).
  - split; [reflexivity|discriminate].
  - lia.
  - intros t y f _ H. injection H as <-. reflexivity.
  - apply reach_built, r_jump_built.
  - exact D5.
  - intros H. discriminate.
  - rewrite D1, D2, D3, D4. exact jump_trials.
  - exact Hf.
  - exists s'. split; [exact H1|]. split; [|exact H3]. rewrite H2, D3. unfold last_h. cbn. lra.
Qed.

Lemma C39_refuted_lemma : exists s1 : @st QI, let sv := sv_rk23 (Fin (qq (3 # 4))) in
  built (E := EQ) rhs_one RungeKutta23 ex_rk23 /\
  (exists t a, step sv 5 None None ex_rk23 = (Ret (ROne t a), s1)) /\ this (now s1) = (1 # 2)%Q /\
  step sv 5 None None s1 = (Ret RNone, s1) /\ rowsQ (run (E := EQ) sv 5 [qq (3 # 4)] s1) = Some [].
Proof.
  pose (sv := sv_rk23 (Fin (qq (3 # 4)))). pose (r := step sv 5 None None ex_rk23).
  assert (H1 : match fst r with Ret (ROne _ _) => true | _ => false end = true) by (vm_compute; reflexivity).
  assert (H2 : this (now (snd r)) = (1 # 2)%Q) by (vm_compute; reflexivity).
  assert (H3 : would_pass (s_bound sv) (snd r)) by (vm_compute; reflexivity).
  assert (H4 : rowsQ (run (E := EQ) sv 5 [qq (3 # 4)] (snd r)) = Some []) by (vm_compute; reflexivity).
  exists (snd r). split; [exact ex_rk23_built|]. split; [|split; [exact H2|split; [|exact H4]]].
  - fold sv. change (step sv 5 None None ex_rk23) with r. destruct r as [[[| |]| |] s1]; try discriminate. cbn [snd]. eauto.
  - fold sv. unfold step, bind. destruct (step_cases sv (s_bound sv) (snd r)) as [(_ & K)|(K & _)]; [|contradiction].
    rewrite K. reflexivity.
Qed.
