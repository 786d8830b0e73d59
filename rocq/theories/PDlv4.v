(** C95 for DOP853. *)
From Coq Require Import List ZArith QArith Bool Arith Lia Reals Lra Qreals.
From Verif Require Import Base Scalar Vec MBuffer MZeros MSteps MApi MDop853 MClasses Laws Spec SpecInst
  PStep PKeeps PCore PHist PBound PVecR SpecRK PMS PDense SpecCtl SpecMS SpecConv PConv1 SpecLive SpecVL PVar1 PVL1 PVL2 PVL3 POrd2 PDlv1 PDlv2 PDlv3 PDcv3.
Import ListNotations.
Open Scope R_scope.

Lemma frac_q l : forallb (fun c => Qle_bool 0 c && Qle_bool c 1) l = true -> Forall (fun c => 0 <= c <= 1) (map qr l).
Proof.
  intros H. rewrite forallb_forall in H. apply Forall_forall. intros c Hc. apply in_map_iff in Hc as (q & <- & Hq). specialize (H q Hq).
  apply andb_prop in H as (H1 & H2). apply qr_leb in H1, H2. unfold qr in *. cbn in H1, H2. lra.
Qed.
Lemma dop_frac : Forall (fun c => 0 <= c <= 1) (skipn 1 dC).
Proof. exact (frac_q (skipn 1 C8) eq_refl). Qed.

Section G.
Context {E : @Env Rops}.
Hypothesis Hnm : @numba_mode Rops E = true.
Lemma gen_live rhs n L M t0 te tb A B C E5 E3 order D Af Cf o y0 h0 : length C = length A -> A <> [] -> length A = dop_n_stages -> length Cf = length Af ->
  Forall (fun c => 0 <= c <= 1) (skipn 1 C) -> (0 <= order)%Z ->
  lipschitz n L rhs -> defined_on n rhs -> bounded_at_zero n M t0 tb rhs -> t0 <= te -> (1 <= n)%nat ->
  tolerances o -> shrinking o -> length y0 = n -> 0 < h0 ->
  let m := @Dop Rops A B C E5 E3 order D Af Cf in
  exists hmin N, 0 < hmin /\ forall g sel first s0 fuelc, garbage_ok m g -> init_var m g rhs t0 y0 o sel first = Ret s0 -> hstep s0 = h0 -> (N <= fuelc)%nat ->
    let sv := solver_of (E := E) m fuelc o rhs tb in
    (forall fuel cs s, s = session (E := E) sv fuel cs s0 -> now s <= te ->
      hmin <= hstep s /\
      (~ would_pass tb s -> exists s', (took_step sv s s' /\ now s + hmin <= now s') \/ (cache s' = cache s /\ forall fuel', step sv fuel' None None s = (Raise ZeroDivisionError, s'))) /\
      (forall x, now s <= x <= te -> @gt_ext Rops x tb = false -> exists N' (s' : @st Rops),
        (forall fuel', (N' <= fuel')%nat -> step sv fuel' None (Some (@Fin Rops x)) s = (Raise ZeroDivisionError, s') /\ skip sv fuel' None (Some (@Fin Rops x)) s = (Raise ZeroDivisionError, s')) \/
        exists rows, now s' <= x < now s' + hstep s' /\ forall fuel', (N' <= fuel')%nat ->
          step sv fuel' None (Some (@Fin Rops x)) s = (Ret (RMany rows), s') /\ skip sv fuel' None (Some (@Fin Rops x)) s = (Ret tt, s'))) /\
    (forall fuel cs s, returns (E := E) sv fuel cs s0 s ->
      forall t : list R, t <> [] -> is_sorted (OT := Rops) t = true -> (forall x, In x t -> buf_t0 (cache s) <= x <= te /\ @gt_ext Rops x tb = false) ->
      exists N' s', (forall fuel', (N' <= fuel')%nat -> run (E := E) sv fuel' t s = (Raise ZeroDivisionError, s')) \/
        exists rows, (map fst rows = t \/ would_pass tb s' /\ exists x, In x t /\ now s' < x) /\ (forall b : R, tb = @Fin Rops b -> now s <= b -> now s' <= b) /\ forall fuel', (N' <= fuel')%nat -> run (E := E) sv fuel' t s = (Ret rows, s')).
Proof.
  intros HC HA HAn HCf Hcs Hord HL Hdef HB Hte Hn Ho Hs Hy Hh m.
  assert (HM : bounded_at_zero n (Rmax M 0) t0 tb rhs).
  { intros t Ht Hg. destruct (HB t Ht Hg) as (f & H1 & H2). exists f. split; auto. intros i Hi. eapply Rle_trans; [now apply H2|apply Rmax_l]. }
  destruct (vb_ex n y0 Hy) as (a0 & Ha0 & By).
  destruct (dlive_core (E := E) Hnm rhs n L (Rmax M 0) t0 te tb HL Hdef (Rmax_r _ _) HM Hte Hn A B C E5 E3 order D Af Cf o HC HA HAn HCf Hcs Hord Ho Hs a0 h0 Ha0 Hh) as (Ct & del & k & HCt & Hdel & Hlc).
  assert (Hfl : 0 < floor_h o h0 del) by (unfold floor_h; apply Rmin_glb_lt; [exact Hh|apply Rmult_lt_0_compat; [apply Hs|exact Hdel]]).
  exists (floor_h o h0 del), (S k). split; [exact Hfl|]. intros g sel first s0 fuelc Hg Hi Hh0 Hfu sv.
  pose proof (fun x => Hlc fuelc x Hfu) as Hlc'. clear Hlc.
  assert (I0 : dneat rhs n t0 te A B C E5 E3 order D Af Cf o a0 h0 Ct del s0) by (eapply dlive_init; eauto).
  split.
  - intros fuel cs s -> Hnow.
    assert (Is : dlive rhs n t0 te A B C E5 E3 order D Af Cf o a0 h0 Ct del (session (E := E) sv fuel cs s0)).
    { eapply dlive_session; eauto. apply I0. }
    split; [apply Is; exact Hnow|]. split; [intros Hw; eapply dlive_took; eauto|].
    intros x Hx Hb. refine (step_or (E := E) m fuelc o rhs tb (dlive rhs n t0 te A B C E5 E3 order D Af Cf o a0 h0 Ct del) (floor_h o h0 del) te ZeroDivisionError Hfl _ _ x Is Hx Hb).
    intros z Hz Hw Hzt. destruct (Hlc' z Hz Hw Hzt) as (r & z' & Q1 & Q2 & Q3). exists r, z'. split; [exact Q1|].
    destruct Q3 as [(-> & _)|(-> & Q3 & Q4)]; [now left|right]. split; [reflexivity|]. split; [exact Q2|]. split; [|exact Q4].
    rewrite <- (dprev_is_first A B C E5 E3 order D Af Cf z') by apply Q2. right. exact Q3.
  - intros fuel cs s Hr t Ht Hso Hrt.
    assert (Is : dneat rhs n t0 te A B C E5 E3 order D Af Cf o a0 h0 Ct del s) by (eapply dneat_returns; eauto).
    set (I := fun x : @st Rops => dneat rhs n t0 te A B C E5 E3 order D Af Cf o a0 h0 Ct del x /\ (forall b : R, tb = @Fin Rops b -> now s <= b -> now x <= b)).
    destruct (run_or (E := E) m fuelc o rhs tb I (floor_h o h0 del) te ZeroDivisionError Hfl) with (s := s) (t := t) as (N' & s' & Q); auto.
    + intros z ((Hz & Hzz) & Hzb) Hw Hzt. destruct (Hlc' z Hz Hw Hzt) as (r & z' & Q1 & Q2 & Q3). exists r, z'. split; [exact Q1|].
      destruct Q3 as [(-> & _)|(-> & Q3 & Q4)]; [now left|right]. split; [reflexivity|].
      split; [split; [split; [exact Q2|]; refine (dtidy_core (E := E) A B C E5 E3 order D Af Cf fuelc o rhs n (conj HC HA) (proj1 (proj2 HL)) (shrinking_sane o Hs) z z' _ Q1); apply Hz|]|].
      * intros b -> _. unfold would_pass in Hw. cbn in Hw. destruct (Rltb b (now z + hstep z)) eqn:e; [exfalso; now apply Hw|]. apply Rltb_false in e. lra.
      * split; [|exact Q4]. rewrite <- (dprev_is_first A B C E5 E3 order D Af Cf z') by apply Q2. right. exact Q3.
    + intros x z (Hz & Hzb) Hx. destruct (dinterp_total (E := E) rhs n L t0 te HL Hdef A B C E5 E3 order D Af Cf o HC HA HAn HCf a0 h0 Ct del x z Hz Hx) as (a & z' & A1 & A2 & A3).
      exists a, z'. split; [exact A1|]. split; [|exact A3]. split; [exact A2|]. unfold now in *. rewrite A3. exact Hzb.
    + split; [exact Is|auto].
    + exists N', s'. destruct Q as [Q|(rows & Q1 & (_ & Q2) & Q3)]; [now left|right]. exists rows. auto.
Qed.
Lemma C95_both rhs n L M t0 te tb o y0 h0 : lipschitz n L rhs -> defined_on n rhs -> bounded_at_zero n M t0 tb rhs -> t0 <= te -> (1 <= n)%nat ->
  tolerances o -> shrinking o -> length y0 = n -> 0 < h0 ->
  let m := @DOP853 Rops in
  exists hmin N, 0 < hmin /\ forall g sel first s0 fuelc, garbage_ok m g -> init_var m g rhs t0 y0 o sel first = Ret s0 -> hstep s0 = h0 -> (N <= fuelc)%nat ->
    let sv := solver_of (E := E) m fuelc o rhs tb in
    (forall fuel cs s, s = session (E := E) sv fuel cs s0 -> now s <= te ->
      hmin <= hstep s /\
      (~ would_pass tb s -> exists s', (took_step sv s s' /\ now s + hmin <= now s') \/ (cache s' = cache s /\ forall fuel', step sv fuel' None None s = (Raise ZeroDivisionError, s'))) /\
      (forall x, now s <= x <= te -> @gt_ext Rops x tb = false -> exists N' (s' : @st Rops),
        (forall fuel', (N' <= fuel')%nat -> step sv fuel' None (Some (@Fin Rops x)) s = (Raise ZeroDivisionError, s') /\ skip sv fuel' None (Some (@Fin Rops x)) s = (Raise ZeroDivisionError, s')) \/
        exists rows, now s' <= x < now s' + hstep s' /\ forall fuel', (N' <= fuel')%nat ->
          step sv fuel' None (Some (@Fin Rops x)) s = (Ret (RMany rows), s') /\ skip sv fuel' None (Some (@Fin Rops x)) s = (Ret tt, s'))) /\
    (forall fuel cs s, returns (E := E) sv fuel cs s0 s ->
      forall t : list R, t <> [] -> is_sorted (OT := Rops) t = true -> (forall x, In x t -> buf_t0 (cache s) <= x <= te /\ @gt_ext Rops x tb = false) ->
      exists N' s', (forall fuel', (N' <= fuel')%nat -> run (E := E) sv fuel' t s = (Raise ZeroDivisionError, s')) \/
        exists rows, (map fst rows = t \/ would_pass tb s' /\ exists x, In x t /\ now s' < x) /\ (forall b : R, tb = @Fin Rops b -> now s <= b -> now s' <= b) /\ forall fuel', (N' <= fuel')%nat -> run (E := E) sv fuel' t s = (Ret rows, s')).
Proof.
  destruct dop_shape as ((a & b) & c & d & _). intros.
  exact (gen_live rhs n L M t0 te tb dA dB dC (@lits Rops dop_E5) (@dop_E3 Rops) 7 (@litm Rops dop_D) (@litm Rops dop_A) (@lits Rops dop_C) o y0 h0 a b c d dop_frac ltac:(lia) H H0 H1 H2 H3 H4 H5 H6 H7).
Qed.
End G.
Section H.
Context {E : @Env Rops}.
Lemma C95_lemma rhs n L M t0 te tb o y0 h0 : @numba_mode Rops E = true -> lipschitz n L rhs -> defined_on n rhs -> bounded_at_zero n M t0 tb rhs -> t0 <= te -> (1 <= n)%nat ->
  tolerances o -> shrinking o -> length y0 = n -> 0 < h0 ->
  exists hmin N, 0 < hmin /\ forall g sel first s0 fuelc fuel cs s, garbage_ok (@DOP853 Rops) g -> init_var (@DOP853 Rops) g rhs t0 y0 o sel first = Ret s0 -> hstep s0 = h0 -> (N <= fuelc)%nat ->
    let sv := solver_of (E := E) DOP853 fuelc o rhs tb in s = session (E := E) sv fuel cs s0 -> now s <= te ->
    hmin <= hstep s /\
    (~ would_pass tb s -> exists s', (took_step sv s s' /\ now s + hmin <= now s') \/
      (cache s' = cache s /\ forall fuel', step sv fuel' None None s = (Raise ZeroDivisionError, s'))).
Proof.
  intros Hnm HL Hd HB Hte Hn Ho Hs Hy Hh. destruct (C95_both Hnm rhs n L M t0 te tb o y0 h0 HL Hd HB Hte Hn Ho Hs Hy Hh) as (hmin & N & Hm & H).
  exists hmin, N. split; [exact Hm|]. intros g sel first s0 fuelc fuel cs s Hg Hi Hh0 Hfu sv Es Hnow.
  destruct (proj1 (H g sel first s0 fuelc Hg Hi Hh0 Hfu) fuel cs s Es Hnow) as (H1 & H2 & _). split; [exact H1|exact H2].
Qed.
Lemma C95_calls_lemma rhs n L M t0 te tb o y0 h0 : @numba_mode Rops E = true -> lipschitz n L rhs -> defined_on n rhs -> bounded_at_zero n M t0 tb rhs -> t0 <= te -> (1 <= n)%nat ->
  tolerances o -> shrinking o -> length y0 = n -> 0 < h0 ->
  exists N, forall g sel first s0 fuelc, garbage_ok (@DOP853 Rops) g -> init_var (@DOP853 Rops) g rhs t0 y0 o sel first = Ret s0 -> hstep s0 = h0 -> (N <= fuelc)%nat ->
    let sv := solver_of (E := E) DOP853 fuelc o rhs tb in
    (forall fuel cs s x, s = session (E := E) sv fuel cs s0 -> now s <= x <= te -> @gt_ext Rops x tb = false -> exists N' (s' : @st Rops),
       (forall fuel', (N' <= fuel')%nat -> step sv fuel' None (Some (@Fin Rops x)) s = (Raise ZeroDivisionError, s') /\ skip sv fuel' None (Some (@Fin Rops x)) s = (Raise ZeroDivisionError, s')) \/
       exists rows, now s' <= x < now s' + hstep s' /\ forall fuel', (N' <= fuel')%nat ->
         step sv fuel' None (Some (@Fin Rops x)) s = (Ret (RMany rows), s') /\ skip sv fuel' None (Some (@Fin Rops x)) s = (Ret tt, s')) /\
    (forall fuel cs s, returns (E := E) sv fuel cs s0 s ->
       forall t : list R, t <> [] -> is_sorted (OT := Rops) t = true -> (forall x, In x t -> buf_t0 (cache s) <= x <= te /\ @gt_ext Rops x tb = false) ->
       exists N' s', (forall fuel', (N' <= fuel')%nat -> run (E := E) sv fuel' t s = (Raise ZeroDivisionError, s')) \/
         exists rows, (map fst rows = t \/ would_pass tb s' /\ exists x, In x t /\ now s' < x) /\ forall fuel', (N' <= fuel')%nat -> run (E := E) sv fuel' t s = (Ret rows, s')).
Proof.
  intros Hnm HL Hd HB Hte Hn Ho Hs Hy Hh. destruct (C95_both Hnm rhs n L M t0 te tb o y0 h0 HL Hd HB Hte Hn Ho Hs Hy Hh) as (hmin & N & Hm & H).
  exists N. intros g sel first s0 fuelc Hg Hi Hh0 Hfu sv. destruct (H g sel first s0 fuelc Hg Hi Hh0 Hfu) as (H1 & H2). split.
  - intros fuel cs s x Es Hx Hb. apply (H1 fuel cs s Es); [lra|exact Hx|exact Hb].
  - intros fuel cs s Hr t T1 T2 T3. destruct (H2 fuel cs s Hr t T1 T2 T3) as (N' & s' & [Q|(rows & Q1 & _ & Q2)]); exists N', s'; [now left|right; exists rows; auto].
Qed.
End H.
