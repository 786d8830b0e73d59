(** C94: classes with step size control with max_factor at most 1. *)
From Coq Require Import List ZArith QArith Bool Arith Lia Reals Lra.
From Verif Require Import Base Scalar Vec MBuffer MZeros MSteps MApi MDop853 MClasses Laws Spec SpecInst SpecRK SpecDense SpecEv
  PStep PKeeps PClean PCore PHist PBound PVecR PTerm PRun PRun2 PRun3 PTop1 PTop2 PMS7 PEv1 PEv5 SpecCtl SpecMS SpecOrder SpecConv SpecConv3 SpecLmm SpecLive PConv1 PConv9 PVar3 SpecVar SpecVL PVL5 SpecSolve PSolve1 PSolve2 PSolve3 PSolve4
  SpecEvC PEvC3 SpecEvD PEvD1 PEvD2 SpecFive PFive3 PFive4 PVL3 PCap.
Import ListNotations.
Open Scope R_scope.

Section S.
Context {E : @Env Rops}.

Lemma var_good (m : @meth Rops) g rhs t0 y0 o sel first s0 : is_fixed m = false -> garbage_ok m g -> init_var m g rhs t0 y0 o sel first = Ret s0 -> good rhs m s0.
Proof. intros Hf Hg Hi. apply (built_good (E := E)). exact (built_var (E := E) rhs m g t0 y0 o sel first s0 Hf Hg Hi). Qed.
Lemma good_session rhs (m : @meth Rops) fuelc o tb fuel cs s : good rhs m s -> good rhs m (session (E := E) (solver_of (E := E) m fuelc o rhs tb) fuel cs s).
Proof.
  intros G. apply (session_inv (solver_of m fuelc o rhs tb) (good rhs m)); [|intros t x Gx; now apply good_interp|exact G].
  intros b x _ _ Gx. now apply good_core.
Qed.
Lemma C94_lemma rhs (m : @meth Rops) g t0 y0 o sel first s0 fuelc tb fuel cs s : is_fixed m = false -> sane o -> max_factor o <= 1 -> garbage_ok m g ->
  init_var m g rhs t0 y0 o sel first = Ret s0 -> 0 <= hstep s0 -> s = session (E := E) (solver_of (E := E) m fuelc o rhs tb) fuel cs s0 ->
  0 <= hstep s <= hstep s0 /\ forall b x', completes (solver_of (E := E) m fuelc o rhs tb) b s x' -> now s <= now x' <= now s + hstep s0 /\ hstep x' <= hstep s.
Proof.
  intros Hf Ho Hm Hg Hi H0 ->. pose proof (var_good m g rhs t0 y0 o sel first s0 Hf Hg Hi) as G0.
  pose proof (cap_session (E := E) rhs m fuelc o tb Hf Ho Hm s0 fuel cs G0 H0) as Hc. split; [exact Hc|]. intros b x' (_ & Hcc).
  assert (Gs : good rhs m (session (E := E) (solver_of (E := E) m fuelc o rhs tb) fuel cs s0)) by now apply good_session.
  destruct (cap_core (E := E) rhs m fuelc o Hf Ho Hm _ Gs (proj1 Hc)) as (C1 & C2). cbn [s_core solver_of] in Hcc. rewrite Hcc in C1, C2. cbn [snd] in C1, C2. lra.
Qed.

Variables (rhs : @rhs_t Rops) (n : nat) (L t0 te : R) (y : R -> list R).
Hypothesis HL : lipschitz n L rhs.
Hypothesis Hte : t0 <= te.

Lemma cap_within m eps : is_fixed m = false ->
  (forall H g o sel first s0 fuelc tb fuel cs s, 0 < H <= 1 -> sane o -> garbage_ok m g ->
    init_var m g rhs t0 (y t0) o sel first = Ret s0 -> 0 <= hstep s0 ->
    steps_at_most H te (solver_of (E := E) m fuelc o rhs tb) s0 ->
    s = session (E := E) (solver_of (E := E) m fuelc o rhs tb) fuel cs s0 -> now s <= te ->
    near (eps H) (state s) (y (now s))) ->
  forall g o sel first (s0 : @st Rops) fuelc tb fuel cs s, 0 < hstep s0 <= 1 -> sane o -> max_factor o <= 1 -> garbage_ok m g ->
    init_var m g rhs t0 (y t0) o sel first = Ret s0 -> s = session (E := E) (solver_of (E := E) m fuelc o rhs tb) fuel cs s0 -> now s <= te ->
    near (eps (hstep s0)) (state s) (y (now s)).
Proof.
  intros Hf HK g o sel first s0 fuelc tb fuel cs s Hh Ho Hm Hg Hi Es Hn.
  apply (HK (hstep s0) g o sel first s0 fuelc tb fuel cs s); auto; [lra|].
  apply (cap_steps (E := E)); auto; [|lra]. eapply var_good; eauto.
Qed.
Lemma C94_order_lemma : Ck_solution 5 rhs n t0 te y -> smooth_along rhs n t0 te y -> forall m p, In (m, p) var_table ->
  exists K, forall g o sel first (s0 : @st Rops) fuelc tb fuel cs s, 0 < hstep s0 <= 1 -> sane o -> max_factor o <= 1 -> garbage_ok m g ->
    init_var m g rhs t0 (y t0) o sel first = Ret s0 -> s = session (E := E) (solver_of (E := E) m fuelc o rhs tb) fuel cs s0 -> now s <= te ->
    near (K * hstep s0 ^ p) (state s) (y (now s)).
Proof.
  intros HC HJ m p Hm. destruct (C71_lemma (E := E) rhs n L t0 te y HL Hte HC HJ m p Hm) as (K & HK). exists K. apply (cap_within m (fun H => K * H ^ p)); [|exact HK].
  destruct Hm as [[= <- _]|[[= <- _]|[]]]; reflexivity.
Qed.
Lemma C94_five_lemma : Ck_solution 6 rhs n t0 te y -> smooth_along3 rhs n t0 te y ->
  exists K, forall g o sel first (s0 : @st Rops) fuelc tb fuel cs s, 0 < hstep s0 <= 1 -> sane o -> max_factor o <= 1 -> garbage_ok (@RungeKutta45 Rops) g ->
    init_var (@RungeKutta45 Rops) g rhs t0 (y t0) o sel first = Ret s0 -> s = session (E := E) (solver_of (E := E) RungeKutta45 fuelc o rhs tb) fuel cs s0 -> now s <= te ->
    near (K * hstep s0 ^ 5) (state s) (y (now s)).
Proof.
  intros HC HJ. destruct (C71_five_lemma (E := E) rhs n L t0 te y HL Hte HC HJ) as (K & HK). exists K. apply (cap_within _ (fun H => K * H ^ 5)); [reflexivity|exact HK].
Qed.
Hypothesis Hd : defined_on n rhs.
(** a capped instance that is asked for times up to te - h reaches them *)
Lemma cap_not_stopped m fuelc o s0 fuel cs fuel' c s s' (h b : R) : is_fixed m = false -> sane o -> max_factor o <= 1 -> good rhs m s0 -> hstep s0 = h -> 0 < h ->
  returns (E := E) (solver_of (E := E) m fuelc o rhs (@Fin Rops te)) fuel cs s0 s -> exec_call (E := E) (solver_of (E := E) m fuelc o rhs (@Fin Rops te)) fuel' c s = (Ret tt, s') ->
  b <= te - h -> would_pass (@Fin Rops te) s' /\ now s' < b -> False.
Proof.
  intros Hf Ho Hm G0 H0 Hh Hr Hx Hb (W1 & W2). pose proof (returns_session _ _ _ _ _ Hr) as Es.
  assert (Gs : good rhs m s) by (rewrite <- Es; now apply good_session).
  assert (Hs : 0 <= hstep s <= h) by (rewrite <- Es, <- H0; apply (cap_session (E := E)); auto; rewrite H0; lra).
  assert (Hs' : 0 <= hstep s' <= hstep s).
  { pose proof (cap_session (E := E) rhs m fuelc o (@Fin Rops te) Hf Ho Hm s fuel' [c] Gs (proj1 Hs)) as Q. cbn [session] in Q. rewrite Hx in Q. exact Q. }
  unfold would_pass in W1. cbn in W1. apply Rltb_true in W1. lra.
Qed.
Lemma cap_solved k m eps : (1 <= k)%nat -> Ck_solution k rhs n t0 te y -> In m pairs -> (1 <= n)%nat -> rows_within (E := E) rhs t0 te y m eps ->
  forall (o : @options Rops) h, tolerances o -> shrinking o -> max_factor o = 1 -> (forall x : R, max_step o = @Fin Rops x -> 0 < x) -> 0 < h <= 1 ->
  exists N, forall g sel, garbage_ok m g -> exists s0, init_var m g rhs t0 (y t0) o sel (Some h) = Ret s0 /\ now s0 = t0 /\ buf_t0 (cache s0) = t0 /\
    forall fuelc fuel cs s t, (N <= fuelc)%nat -> returns (E := E) (solver_of (E := E) m fuelc o rhs (@Fin Rops te)) fuel cs s0 s -> now s <= te -> askable s (te - h) t ->
    solved (E := E) (solver_of (E := E) m fuelc o rhs (@Fin Rops te)) s t (eps h) y.
Proof.
  intros Hk HC Hm Hn HR o h Ho Hs Hx Hmx Hh. assert (Hf : is_fixed m = false) by (destruct Hm as [<-|[<-|[]]]; reflexivity). assert (So : sane o) by now apply shrinking_sane.
  destruct (var_accurate (E := E) rhs n L t0 te y HL Hd Hte k m eps Hk HC Hm Hn HR o h Ho Hs Hmx (proj1 Hh)) as (N & HN). exists N. intros g sel Hg.
  destruct (HN g sel Hg) as (s0 & I1 & I2 & I3 & H). exists s0. split; [exact I1|]. split; [exact I2|]. split; [exact I3|]. intros fuelc fuel cs s t Hfu Hr Hnow (T1 & T2 & T3).
  assert (Hh0 : hstep s0 = h) by (destruct (init_pair rhs n t0 y Hd m g o sel h Hm (Ck_dim _ _ _ _ _ _ HC Hte) Ho Hmx Hg) as (s1 & J1 & J2 & _); rewrite I1 in J1; injection J1 as ->; exact J2).
  pose proof (var_good m g rhs t0 (y t0) o sel (Some h) s0 Hf Hg I1) as G0.
  destruct (H h fuelc fuel cs s t Hh Hfu) as (N' & rows & s' & Q1 & Q2 & Q3); auto.
  - replace (steps_at_most h) with (steps_at_most (hstep s0)) by (now rewrite Hh0). apply (cap_steps (E := E)); auto; [lra|rewrite Hh0; lra].
  - split; [exact T1|]. split; [exact T2|]. intros x Hx'. specialize (T3 x Hx'). lra.
  - exists N', rows, s'. split; [exact Q1|]. split; [|exact Q3]. destruct Q2 as [Q2|Q2]; [exact Q2|]. exfalso.
    apply (cap_not_stopped m fuelc o s0 fuel cs N' (CRun (OT := Rops) t) s s' h (last t 0)); auto; [lra|lra| |apply T3; now apply last_in].
    cbn [exec_call]. rewrite Q1 by lia. reflexivity.
Qed.
Lemma cap_finds k m eps : (1 <= k)%nat -> Ck_solution k rhs n t0 te y -> In m pairs -> (1 <= n)%nat -> (forall H, 0 < H -> 0 <= eps H) -> events_within (E := E) rhs n t0 te y m eps ->
  forall (o : @options Rops) h, tolerances o -> shrinking o -> max_factor o = 1 -> (forall x : R, max_step o = @Fin Rops x -> 0 < x) -> 0 < h <= 1 ->
  exists N, forall g sel, garbage_ok m g -> exists s0, init_var m g rhs t0 (y t0) o sel (Some h) = Ret s0 /\ now s0 = t0 /\
    forall fuelc fuel cs s t evs, let sv := solver_of (E := E) m fuelc o rhs (@Fin Rops te) in (N <= fuelc)%nat ->
    returns (E := E) sv fuel cs s0 s -> event_call s (te - h) t evs ->
    (forall j u G Lg sg mu del z, (forall u, In u evs -> ~ terminal u) -> nth_error evs j = Some u ->
       visible_zero n y u G Lg sg mu del z (now s) (last t 0) (eps h) h ->
       finds (E := E) sv s t evs j y z (eps h) ((Lg * eps h + ev_tol) / mu + h / 2 ^ 50)) /\
    (forall u G Lg Lt sg mu del z, evs = [u] -> terminal u -> visible_zero n y u G Lg sg mu del z (now s) (last t 0) (eps h) h ->
       first_zero y G Lg Lt del z (now s) te (eps h) h ->
       stops_at (E := E) sv s t u z ((Lg * eps h + ev_tol + Lt * (h / 2 ^ 50)) / mu)).
Proof.
  intros Hk HC Hm Hn HP HR o h Ho Hs Hx Hmx Hh. assert (Hf : is_fixed m = false) by (destruct Hm as [<-|[<-|[]]]; reflexivity). assert (So : sane o) by now apply shrinking_sane.
  destruct (var_events (E := E) rhs n L t0 te y HL Hd Hte k m eps Hk HC Hm Hn HP HR o h Ho Hs Hmx (proj1 Hh)) as (N & HN). exists N. intros g sel Hg.
  destruct (HN g sel Hg) as (s0 & I1 & I2 & H). exists s0. split; [exact I1|]. split; [exact I2|]. intros fuelc fuel cs s t evs sv Hfu Hr Hc.
  assert (Hh0 : hstep s0 = h) by (destruct (init_pair rhs n t0 y Hd m g o sel h Hm (Ck_dim _ _ _ _ _ _ HC Hte) Ho Hmx Hg) as (s1 & J1 & J2 & _); rewrite I1 in J1; injection J1 as ->; exact J2).
  pose proof (var_good m g rhs t0 (y t0) o sel (Some h) s0 Hf Hg I1) as G0. pose proof Hc as (T1 & T2 & T3 & T4).
  assert (Nc : cut_short (E := E) sv s t evs -> False).
  { intros (N' & r & s' & Q1 & Q2). apply (cap_not_stopped m fuelc o s0 fuel cs N' (CRunEvents (OT := Rops) t evs) s s' h (last t 0)); auto; [lra|lra| |apply T3; now apply last_in].
    cbn [exec_call]. fold sv. rewrite Q1 by lia. reflexivity. }
  destruct (H h fuelc fuel cs s t evs Hh Hfu) as (F1 & F2); auto.
  - replace (steps_at_most h) with (steps_at_most (hstep s0)) by (now rewrite Hh0). apply (cap_steps (E := E)); auto; [lra|rewrite Hh0; lra].
  - split; [exact T1|]. split; [exact T2|]. split; [|exact T4]. intros x Hx'. specialize (T3 x Hx'). lra.
  - split; [intros j u G Lg sg mu del z A1 A2 A3; destruct (F1 j u G Lg sg mu del z A1 A2 A3); tauto|].
    intros u G Lg Lt sg mu del z A1 A2 A3 A4. destruct (F2 u G Lg Lt sg mu del z A1 A2 A3 A4); tauto.
Qed.
End S.
