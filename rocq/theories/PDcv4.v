(** C92, C95: DOP853 with a bound on the first step, and an instance on y' = y. *)
From Coq Require Import List ZArith QArith Bool Arith Lia Reals Lra Qreals.
From Verif Require Import Base Scalar Vec MBuffer MZeros MSteps MApi MDop853 MClasses Laws Spec SpecInst
  PStep PKeeps PClean PCore PHist PBound PVecR SpecRK PDim PFwd PTerm SpecMS PMS PMS2 PTop1 PMS6 PMS7 Ex SpecOrder SpecDense PDense SpecCtl PCtl PC5
  SpecConv SpecConv3 PConv1 PConv8 PExR PC3 PConv9 SpecVar PExVar PVar1 PVar3 PLmm7 POrd1 POrd2 POrd3 SpecInit PInit SpecLive SpecVL SpecSolve PVL3 PSolve4 PSolve6 PCap PCap2 PCap3 PSolve3 PDcv3 PDlv4.
Import ListNotations.
Open Scope R_scope.

Section S.
Context {E : @Env Rops}.
Lemma C92_lemma rhs n L t0 te y S : lipschitz n L rhs -> t0 <= te -> C2_solution rhs n t0 te y -> 0 <= S ->
  (forall t f i, t0 <= t <= te -> rhs t (y t) = Ret f -> (i < n)%nat -> Rabs (cmp i f) <= S) ->
  exists K, forall H g o sel first s0 fuelc tb fuel cs s, 0 < H <= 1 -> 200 * (H * L) <= 1 -> sane o -> garbage_ok (@DOP853 Rops) g ->
    init_var (@DOP853 Rops) g rhs t0 (y t0) o sel first = Ret s0 -> 0 <= hstep s0 -> steps_at_most H te (solver_of (E := E) DOP853 fuelc o rhs tb) s0 ->
    s = session (E := E) (solver_of (E := E) DOP853 fuelc o rhs tb) fuel cs s0 -> now s <= te ->
    near (K * H + S * (te - t0) * exp (26 * L * (te - t0)) / 10 ^ 29) (state s) (y (now s)).
Proof.
  intros HL Hte HC HS HB. destruct (C92_both (E := E) rhs n L t0 te y S HL Hte HC HS HB) as (K & HK). exists K.
  intros H g o sel first s0 fuelc tb fuel cs s H1 H2 H3 H4 H5 H6 H7. exact (proj1 (HK H g o sel first s0 fuelc tb H1 H2 H3 H4 H5 H6 H7) fuel cs s).
Qed.
Lemma C92_run_lemma rhs n L t0 te y S : lipschitz n L rhs -> t0 <= te -> C2_solution rhs n t0 te y -> 0 <= S ->
  (forall t f i, t0 <= t <= te -> rhs t (y t) = Ret f -> (i < n)%nat -> Rabs (cmp i f) <= S) ->
  exists K, forall H g o sel first s0 fuelc tb fuel cs s fuel' t rows s', 0 < H <= 1 -> 200 * (H * L) <= 1 -> sane o -> garbage_ok (@DOP853 Rops) g ->
    init_var (@DOP853 Rops) g rhs t0 (y t0) o sel first = Ret s0 -> 0 <= hstep s0 -> steps_at_most H te (solver_of (E := E) DOP853 fuelc o rhs tb) s0 ->
    returns (E := E) (solver_of (E := E) DOP853 fuelc o rhs tb) fuel cs s0 s ->
    is_sorted t = true -> run (E := E) (solver_of (E := E) DOP853 fuelc o rhs tb) fuel' t s = (Ret rows, s') -> now s' <= te ->
    Forall (fun r => near (K * H + S * (te - t0) * exp (26 * L * (te - t0)) / 10 ^ 29) (snd r) (y (fst r))) rows.
Proof.
  intros HL Hte HC HS HB. destruct (C92_both (E := E) rhs n L t0 te y S HL Hte HC HS HB) as (K & HK). exists K.
  intros H g o sel first s0 fuelc tb fuel cs s fuel' t rows s' H1 H2 H3 H4 H5 H6 H7. exact (proj2 (HK H g o sel first s0 fuelc tb H1 H2 H3 H4 H5 H6 H7) fuel cs s fuel' t rows s').
Qed.
Lemma dop_init g rhs t0 y0 (o : @options Rops) sel h n : garbage_ok (@DOP853 Rops) g -> garbage_dim n g -> length y0 = n -> keeps_dim n rhs -> (exists f, rhs t0 y0 = Ret f) ->
  tolerances o -> (forall x : R, max_step o = @Fin Rops x -> 0 < x) ->
  exists s : @st Rops, init_var (@DOP853 Rops) g rhs t0 y0 o sel (Some h) = Ret s /\ hstep s = h /\ state s = y0 /\ now s = t0.
Proof.
  intros Hg Hd Hl Hk (f & Hf) Ho Hmx. subst n. unfold DOP853.
  destruct (C87_dop_lemma (map (firstn 12) (firstn 12 (@litm Rops dop_A))) (@dop_B Rops) (firstn 12 (@lits Rops dop_C)) (@lits Rops dop_E5) (@dop_E3 Rops) 7
    (@litm Rops dop_D) (@litm Rops dop_A) (@lits Rops dop_C) g rhs t0 y0 o sel f Hg Hd Hf (Hk _ _ _ eq_refl Hf)) as (Q & _).
  - split.
    + intros x Hx. specialize (Hmx x Hx). change (Rleb x (@zero Rops) = false). rewrite zero_R. destruct (Rleb x 0) eqn:e; [|reflexivity]. apply Rleb_true in e. lra.
    + change (Rltb (atol o) (@zero Rops) = false). rewrite zero_R. apply Rltb_false. left. apply Ho.
  - destruct (Q h) as (s & Q1 & Q2 & Q3 & Q4 & Q5). exists s. auto.
Qed.
(** max_factor=1, first_step=h, t_bound=te *)
Lemma C92_solves_lemma rhs n L t0 te y S : @numba_mode Rops E = true -> lipschitz n L rhs -> defined_on n rhs -> t0 <= te -> Ck_solution 2 rhs n t0 te y -> (1 <= n)%nat -> 0 <= S ->
  (forall t f i, t0 <= t <= te -> rhs t (y t) = Ret f -> (i < n)%nat -> Rabs (cmp i f) <= S) ->
  exists K, forall (o : @options Rops) h, tolerances o -> shrinking o -> max_factor o = 1 -> (forall x : R, max_step o = @Fin Rops x -> 0 < x) -> 0 < h <= 1 -> 200 * (h * L) <= 1 ->
  exists N, forall g sel, garbage_ok (@DOP853 Rops) g -> garbage_dim n g -> exists s0, init_var (@DOP853 Rops) g rhs t0 (y t0) o sel (Some h) = Ret s0 /\ now s0 = t0 /\ buf_t0 (cache s0) = t0 /\
    forall fuelc fuel cs s t, let sv := solver_of (E := E) DOP853 fuelc o rhs (@Fin Rops te) in (N <= fuelc)%nat ->
    returns (E := E) sv fuel cs s0 s -> now s <= te -> askable s (te - h) t ->
    solved (E := E) sv s t (K * h + S * (te - t0) * exp (26 * L * (te - t0)) / 10 ^ 29) y \/
    exists N' s', forall fuel', (N' <= fuel')%nat -> run (E := E) sv fuel' t s = (Raise ZeroDivisionError, s').
Proof.
  intros Hnm HL Hd Hte HC Hn HS HB. pose proof (Ck_C2 2 rhs n t0 te y (le_n 2) HC) as HC2.
  destruct (C92_run_lemma rhs n L t0 te y S HL Hte HC2 HS HB) as (K & HK). exists K. intros o h Ho Hs Hmf Hmx Hh HhL.
  destruct (solution_bounds 2 rhs n L t0 te y ltac:(lia) HL Hd Hte HC) as (M & HM).
  pose proof (Ck_dim _ _ _ _ _ _ HC Hte) as Ly.
  destruct (C95_both (E := E) Hnm rhs n L M t0 te (@Fin Rops te) o (y t0) h HL Hd HM Hte Hn Ho Hs Ly (proj1 Hh)) as (hmin & N & Hmin & HN).
  exists N. intros g sel Hg Hgd. destruct (dop_init g rhs t0 (y t0) o sel h n Hg Hgd Ly (proj1 (proj2 HL)) (Hd _ _ Ly) Ho Hmx) as (s0 & I1 & I2 & I3 & I4).
  destruct (init_var_fresh _ g rhs t0 (y t0) o sel (Some h) s0 Hg eq_refl I1) as (_ & _ & _ & I5).
  exists s0. split; [exact I1|]. split; [exact I4|]. split; [exact I5|]. intros fuelc fuel cs s t sv Hfu Hr Hnow (T1 & T2 & T3).
  pose proof (shrinking_sane o Hs) as So. pose proof (var_good (@DOP853 Rops) g rhs t0 (y t0) o sel (Some h) s0 eq_refl Hg I1) as G0.
  destruct (HN g sel (Some h) s0 fuelc Hg I1 I2 Hfu) as (_ & H2).
  destruct (H2 fuel cs s Hr t T1 T2) as (N' & s' & [Q|(rows & Q1 & Q2 & Q3)]).
  - intros x Hx. destruct (T3 x Hx) as (A1 & A2). split; [lra|]. cbn. apply Rltb_false. lra.
  - right. exists N', s'. exact Q.
  - left. exists N', rows, s'. split; [exact Q3|]. pose proof (Q2 te eq_refl Hnow) as Hn'. split.
    + destruct Q1 as [Q1|(W & x & Hx & Hlt)]; [exact Q1|]. exfalso.
      apply (cap_not_stopped (E := E) rhs te (@DOP853 Rops) fuelc o s0 fuel cs N' (CRun (OT := Rops) t) s s' h x); auto; [lra|lra| |apply T3; exact Hx].
      cbn [exec_call]. fold sv. rewrite Q3 by lia. reflexivity.
    + refine (HK h g o sel (Some h) s0 fuelc (@Fin Rops te) fuel cs s N' t rows s' Hh HhL So Hg I1 _ _ Hr T2 (Q3 N' (le_n _)) Hn'); [rewrite I2; lra|].
      rewrite <- I2. apply (cap_steps (E := E)); auto; [lra|rewrite I2; lra].
Qed.
End S.
