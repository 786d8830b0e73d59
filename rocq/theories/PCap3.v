(** C94: run and run_events with max_factor 1. *)
From Coq Require Import List ZArith QArith Bool Arith Lia Reals Lra.
From Verif Require Import Base Scalar Vec MBuffer MZeros MSteps MApi MDop853 MClasses Laws Spec SpecInst SpecRK SpecEv PVecR PBound PTop1 Ex
  SpecCtl SpecMS SpecOrder SpecConv SpecConv2 SpecConv3 SpecLive PConv8 PConv9 PExVar SpecVar PVar3 SpecVL SpecSolve PSolve4 SpecEvC PEvC3 PExEvC SpecEvD PEvD2 PExEvD SpecFive PFive3 PFive4 PCap2.
Import ListNotations.
Open Scope R_scope.

Section S.
Context {E : @Env Rops}.
Variables (rhs : @rhs_t Rops) (n : nat) (L t0 te : R) (y : R -> list R).
Hypothesis HL : lipschitz n L rhs.
Hypothesis Hd : defined_on n rhs.
Hypothesis Hte : t0 <= te.

Lemma C94_solves_lemma m p : Ck_solution 5 rhs n t0 te y -> smooth_along rhs n t0 te y -> In (m, p) var_table -> (1 <= n)%nat ->
  exists K, forall (o : @options Rops) h, tolerances o -> shrinking o -> max_factor o = 1 -> (forall x : R, max_step o = @Fin Rops x -> 0 < x) -> 0 < h <= 1 ->
  exists N, forall g sel, garbage_ok m g -> exists s0, init_var m g rhs t0 (y t0) o sel (Some h) = Ret s0 /\ now s0 = t0 /\ buf_t0 (cache s0) = t0 /\
    forall fuelc fuel cs s t, (N <= fuelc)%nat -> returns (E := E) (solver_of (E := E) m fuelc o rhs (@Fin Rops te)) fuel cs s0 s -> now s <= te -> askable s (te - h) t ->
    solved (E := E) (solver_of (E := E) m fuelc o rhs (@Fin Rops te)) s t (K * h ^ p) y.
Proof.
  intros HC HJ Hm Hn. destruct (C71_run_lemma (E := E) rhs n L t0 te y HL Hte HC HJ m p Hm) as (K & HK). exists K.
  refine (cap_solved (E := E) rhs n L t0 te y HL Hte Hd 5 m (fun H => K * H ^ p) ltac:(lia) HC _ Hn HK). destruct Hm as [[= <- _]|[[= <- _]|[]]]; cbn; auto.
Qed.
Lemma C94_solves_five_lemma : Ck_solution 6 rhs n t0 te y -> smooth_along3 rhs n t0 te y -> (1 <= n)%nat ->
  exists K, forall (o : @options Rops) h, tolerances o -> shrinking o -> max_factor o = 1 -> (forall x : R, max_step o = @Fin Rops x -> 0 < x) -> 0 < h <= 1 ->
  exists N, forall g sel, garbage_ok RungeKutta45 g -> exists s0, init_var RungeKutta45 g rhs t0 (y t0) o sel (Some h) = Ret s0 /\ now s0 = t0 /\ buf_t0 (cache s0) = t0 /\
    forall fuelc fuel cs s t, (N <= fuelc)%nat -> returns (E := E) (solver_of (E := E) RungeKutta45 fuelc o rhs (@Fin Rops te)) fuel cs s0 s -> now s <= te -> askable s (te - h) t ->
    solved (E := E) (solver_of (E := E) RungeKutta45 fuelc o rhs (@Fin Rops te)) s t (K * h ^ 5) y.
Proof.
  intros HC HJ Hn. destruct (C71_five_run_lemma (E := E) rhs n L t0 te y HL Hte HC HJ) as (K & HK). exists K.
  refine (cap_solved (E := E) rhs n L t0 te y HL Hte Hd 6 _ (fun H => K * H ^ 5) ltac:(lia) HC _ Hn HK). cbn; auto.
Qed.
Lemma C94_events_lemma m p : Ck_solution 5 rhs n t0 te y -> smooth_along rhs n t0 te y -> In (m, p) var_table -> (1 <= n)%nat ->
  exists K, 0 <= K /\ forall (o : @options Rops) h, tolerances o -> shrinking o -> max_factor o = 1 -> (forall x : R, max_step o = @Fin Rops x -> 0 < x) -> 0 < h <= 1 ->
  exists N, forall g sel, garbage_ok m g -> exists s0, init_var m g rhs t0 (y t0) o sel (Some h) = Ret s0 /\ now s0 = t0 /\
    forall fuelc fuel cs s t evs, let sv := solver_of (E := E) m fuelc o rhs (@Fin Rops te) in (N <= fuelc)%nat ->
    returns (E := E) sv fuel cs s0 s -> event_call s (te - h) t evs ->
    (forall j u G Lg sg mu del z, (forall u, In u evs -> ~ terminal u) -> nth_error evs j = Some u ->
       visible_zero n y u G Lg sg mu del z (now s) (last t 0) (K * h ^ p) h ->
       finds (E := E) sv s t evs j y z (K * h ^ p) ((Lg * (K * h ^ p) + ev_tol) / mu + h / 2 ^ 50)) /\
    (forall u G Lg Lt sg mu del z, evs = [u] -> terminal u -> visible_zero n y u G Lg sg mu del z (now s) (last t 0) (K * h ^ p) h ->
       first_zero y G Lg Lt del z (now s) te (K * h ^ p) h ->
       stops_at (E := E) sv s t u z ((Lg * (K * h ^ p) + ev_tol + Lt * (h / 2 ^ 50)) / mu)).
Proof.
  intros HC HJ Hm Hn. destruct (C84_var_lemma (E := E) rhs n L t0 te y HL Hte HC HJ m p Hm) as (K & HK & HE). exists K. split; [exact HK|].
  refine (cap_finds (E := E) rhs n L t0 te y HL Hte Hd 5 m (fun H => K * H ^ p) ltac:(lia) HC _ Hn _ HE); [destruct Hm as [[= <- _]|[[= <- _]|[]]]; cbn; auto|].
  intros H HH. apply Rmult_le_pos; [exact HK|apply pow_le; lra].
Qed.
End S.

(** the default options with max_factor=1 *)
Definition opts_cap : @options Rops := mkopts (OT := Rops) (atol default_options) (rtol default_options) (min_step default_options) PInf (min_factor default_options) 1 (safety_factor default_options).
Lemma cap_options : tolerances opts_cap /\ shrinking opts_cap /\ max_factor opts_cap = 1 /\ (forall x : R, max_step opts_cap = @Fin Rops x -> 0 < x) /\ sane opts_cap.
Proof.
  assert (S : shrinking opts_cap) by (unfold shrinking, opts_cap; cbn [min_factor max_factor safety_factor default_options]; rewrite !lit_R; cbn; lra).
  split; [unfold tolerances, opts_cap; cbn [atol rtol default_options]; rewrite !lit_R; cbn; lra|]. split; [exact S|]. split; [reflexivity|]. split; [discriminate|].
  unfold sane, shrinking in *. lra.
Qed.
(** y' = y on [0, 3] asked for the times 1 and 2 *)
Lemma C94_example : exists K, forall h, 0 < h <= 1 -> exists N s0, init_var (OT := Rops) RungeKutta45 (garb RungeKutta45) rhs_exp 0 (sol_exp 0) opts_cap (fun _ _ _ => Ret one) (Some h) = Ret s0 /\
  solved (E := ER) (solver_of (E := ER) RungeKutta45 N opts_cap rhs_exp (@Fin Rops 3)) s0 [1; 2] (K * h ^ 5) sol_exp.
Proof.
  destruct (C94_solves_five_lemma (E := ER) rhs_exp 1 1 0 3 sol_exp exp_lipschitz (fun t v _ => ex_intro _ v eq_refl) ltac:(lra) (exp_Ck 0 3 6) (exp_smooth3 0 3) ltac:(lia)) as (K & HK).
  exists K. intros h Hh. destruct cap_options as (O1 & O2 & O3 & O4 & _). destruct (HK opts_cap h O1 O2 O3 O4 Hh) as (N & HN).
  destruct (HN (garb RungeKutta45) (fun _ _ _ => Ret one) (garb_ok _)) as (s0 & I1 & I2 & I3 & H). exists N, s0. split; [exact I1|].
  apply (H N 0%nat [] s0 [1; 2]); [lia|constructor|rewrite I2; lra|]. split; [discriminate|]. split; [cbn; rewrite (proj2 (Rleb_true 1 2)); [reflexivity|lra]|].
  rewrite I3. intros x [<-|[<-|[]]]; lra.
Qed.
