(** C44 - C46, C48 over the reals; the instances of the examples. *)
From Coq Require Import List ZArith Bool Arith Reals Lia Lra Sorted.
From Verif Require Import Base Scalar Vec MBuffer MZeros MSteps MApi MDop853 MClasses Laws Spec SpecInst SpecRK SpecDense SpecEv
  PStep PKeeps PClean PCore PHist PBound PVecR PTerm PRun PRun2 PRun3 PFwd PInterp PRK PDim PDense Ex PTop1 PEv1 PEv2 PEv3 PEv4 PEv5 PEv6 PEv7.
Import ListNotations.
Open Scope R_scope.

Section R.
Context {E : @Env Rops}.
Notation now := (@now Rops).
Variables (m : @meth Rops) (fuelc : nat) (o : @options Rops) (rhs : @rhs_t Rops) (tb : @ext Rops).
Let sv := solver_of m fuelc o rhs tb.

Lemma C46_ready fuel t t' evs s r s' : ready m fuelc o rhs tb s -> ordered (OT := Rops) t t' -> evs <> [] ->
  (forall u, In u evs -> ~ terminal u) ->
  run_events sv fuel t evs s = (Ret r, s') ->
  exists s1, run sv fuel t s = (Ret (rr_rows r), s1) /\ cache s1 = cache s' /\ hstep s1 = hstep s' /\ stages s1 = stages s'.
Proof.
  intros Hr Ho He Ht H. destruct (events_R m fuelc o rhs tb fuel t t' evs s r s' Hr Ho He H)
    as (l & s1 & H1 & H2 & H3 & H4 & H5 & H6 & H7 & H7a & H7b & H8 & [(A & z' & B1 & B2 & B3 & B4)|
      (l0 & tau & y & El & (u & a & j & ts & ys & F1 & F2 & _) & _)]).
  - exists z'. split; auto. repeat split; congruence.
  - exfalso. apply (Ht u); auto. eapply nth_error_In; eauto.
Qed.

(** C44 *)
Lemma C44_lemma fuel t evs s r s' : ready m fuelc o rhs tb s -> is_sorted (OT := Rops) t = true -> evs <> [] ->
  run_events sv fuel t evs s = (Ret r, s') ->
  exists l s1, chain sv tb s l s1 /\ cache s' = cache s1 /\ hstep s' = hstep s1 /\
    (((forall u x x1, In u evs -> terminal u -> step_of s l x x1 -> ~ triggers u x x1) /\
      exists z', run sv fuel t s = (Ret (rr_rows r), z') /\ cache z' = cache s1 /\ hstep z' = hstep s1)
     \/
     exists x u tau y rows0 z tk, last_step_of s l x s1 /\
       (forall u' x' x1, In u' evs -> terminal u' -> step_of s (removelast l) x' x1 -> ~ triggers u' x' x1) /\
       In u evs /\ terminal u /\ triggers u x s1 /\ located sv u x s1 tau /\ sol sv s1 tau = Ret y /\
       rr_rows r = rows0 ++ [(tau, y)] /\ map fst rows0 = firstn (length rows0) t /\
       sampled sv s (map fst rows0) (map snd rows0) z /\ nth_error t (length rows0) = Some tk /\ now x < tk).
Proof.
  intros Hr Hs He H. destruct (stop_lemma m fuelc o rhs tb fuel t t evs s r s' Hr (or_introl (conj Hs eq_refl)) He H)
    as (l & s1 & A1 & A2 & A3 & A4 & A5 & [A6|(rows & (x & j & u & tau & y & rows0 & z & tk & B1 & B2 & B3 & B4 & B5 & B6 & B7 & B8 & B9 & B10) & A7)]).
  - exists l, s1. auto 6.
  - rewrite Hs in A7. exists l, s1. repeat (split; [assumption|]). right. exists x, u, tau, y, rows0, z, tk.
    split; auto. split; auto. split; [eapply nth_error_In; eauto|]. rewrite A7. auto 10.
Qed.

(** C45: the last listed one wins *)
Lemma C45_lemma fuel t evs s r s' : ready m fuelc o rhs tb s -> is_sorted (OT := Rops) t = true -> evs <> [] ->
  run_events sv fuel t evs s = (Ret r, s') ->
  exists l s1, chain sv tb s l s1 /\ cache s' = cache s1 /\
    forall u0 x x1, In u0 evs -> terminal u0 -> step_of s l x x1 -> triggers u0 x x1 ->
    exists x0 j u tau y rows0, last_step_of s l x0 s1 /\ nth_error evs j = Some u /\ terminal u /\ triggers u x0 s1 /\
      (forall j' u', (j < j')%nat -> nth_error evs j' = Some u' -> terminal u' -> ~ triggers u' x0 s1) /\
      located sv u x0 s1 tau /\ sol sv s1 tau = Ret y /\ rr_rows r = rows0 ++ [(tau, y)].
Proof.
  intros Hr Hs He H. destruct (stop_lemma m fuelc o rhs tb fuel t t evs s r s' Hr (or_introl (conj Hs eq_refl)) He H)
    as (l & s1 & A1 & A2 & A3 & A4 & A5 & [(A6 & _)|(rows & (x & j & u & tau & y & rows0 & z & tk & B1 & B2 & B3 & B4 & B5 & B6 & B7 & B8 & B9 & B10) & A7)]).
  - exists l, s1. split; auto. split; auto. intros u0 x x1 K1 K2 K3 K4. exfalso. eapply A6; eauto.
  - rewrite Hs in A7. exists l, s1. split; auto. split; auto. intros _ _ _ _ _ _ _. exists x, j, u, tau, y, rows0. rewrite A7. auto 10.
Qed.

Lemma forward_upto (s : stR) l x x1 : went_forward s l -> step_of s l x x1 -> now x1 <= now (last l s).
Proof.
  revert s; induction l as [|a l IH]; intros s W Hs; [destruct Hs|].
  assert (W' : went_forward a l) by (intros p q Hp; apply W; right; exact Hp).
  rewrite last_cons_d. destruct Hs as [e|Hs]; [|now apply IH]. injection e as <- <-.
  clear -W'. revert a W'. induction l as [|b l IH]; intros a W'; [cbn; lra|]. rewrite last_cons_d.
  assert (now a <= now b) by (apply W'; now left).
  assert (now b <= now (last l b)) by (apply IH; intros p q Hp; apply W'; right; exact Hp). lra.
Qed.
(** C48: what is reported later than the end lies in the last step *)
Lemma C48_lemma fuel t evs s r s' : ready m fuelc o rhs tb s -> is_sorted (OT := Rops) t = true -> evs <> [] ->
  run_events sv fuel t evs s = (Ret r, s') ->
  exists l s1, chain sv tb s l s1 /\ cache s' = cache s1 /\
    forall u0 x0 x1, In u0 evs -> terminal u0 -> step_of s l x0 x1 -> triggers u0 x0 x1 ->
    exists x tau y rows0, last_step_of s l x s1 /\ rr_rows r = rows0 ++ [(tau, y)] /\ now x <= tau <= now s1 /\
      forall j u tau' a, nth_error evs j = Some u -> reports r j tau' a ->
        tau' <= tau \/ (triggers u x s1 /\ located sv u x s1 tau' /\ tau' <= now s1).
Proof.
  intros Hr Hs He H. destruct (stop_lemma m fuelc o rhs tb fuel t t evs s r s' Hr (or_introl (conj Hs eq_refl)) He H)
    as (l & s1 & A1 & A2 & A3 & A4 & A5 & [(A6 & _)|(rows & (x & j & u & tau & y & rows0 & z & tk & B1 & B2 & B3 & B4 & B5 & B6 & B7 & B8 & B9 & B10) & A7)]).
  - exists l, s1. split; auto. split; auto. intros u0 x x1 K1 K2 K3 K4. exfalso. eapply A6; eauto.
  - rewrite Hs in A7. exists l, s1. split; auto. split; auto. intros _ _ _ _ _ _ _. exists x, tau, y, rows0. split; auto. split; [now rewrite A7|].
    pose proof B1 as (l0 & -> & ->).
    assert (Hst : now (last l0 s) <= now s1) by (apply A4; apply step_is_last).
    pose proof (located_in m fuelc o rhs tb u (last l0 s) s1 tau Hst B5) as Hin. split; auto.
    intros j' u' tau' a Hu Hrep. destruct (A5 j' u' tau' a Hu Hrep) as (x' & x1' & C1 & C2 & C3).
    assert (Hx : now x' <= now x1') by now apply A4.
    pose proof (located_in m fuelc o rhs tb u' x' x1' tau' Hx C3) as Hin'.
    apply step_last in C1 as [C1|C1].
    + left. assert (W0 : went_forward s l0).
      { intros p q Hp. apply A4. unfold step_of. rewrite combine_shift. apply in_or_app. now left. }
      pose proof (forward_upto s l0 x' x1' W0 C1). lra.
    + injection C1 as -> ->. right. split; auto. split; auto. lra.
Qed.
End R.

(** RungeKutta4 for y' = y from (0, 1), h = 1, and the event t - 1/2 *)
Definition rev_half (term : option bool) : eventR := mkuev (OT := Rops) (fun t _ => Ret (t - 1 / 2)) term None.
Lemma rk4_keeps : keeps_dim 1 (@rhs_exp Rops).
Proof. intros t y f Hy H. injection H as <-. exact Hy. Qed.
Lemma rk4_ready : ready (E := ER) RungeKutta4 0 default_options rhs_exp PInf (r_rk4 1).
Proof. left. split; [reflexivity|]. split; [apply r_rk4_reach|]. cbn. lra. Qed.
Lemma rk4_good : good RungeKutta4 1 (r_rk4 1).
Proof.
  split; [eapply reachable_wf; apply (r_rk4_reach 1 0 default_options PInf)|]. split; [|cbn; lra].
  split; cbn; repeat constructor.
Qed.
Lemma rk4_call term : exists N r s', forall fuel, (N <= fuel)%nat ->
  run_events (E := ER) (solver_of (E := ER) RungeKutta4 0 default_options rhs_exp PInf) fuel [2] [rev_half term] (r_rk4 1) = (Ret r, s').
Proof.
  apply (C49_two_lemma (E := ER) RungeKutta4 0 default_options rhs_exp PInf 1); auto using rk4_keeps, rk4_good, total_exp.
  - exact I.
  - split; [reflexivity|discriminate].
  - intros x [<-|[]]. split; [|reflexivity]. cbn. lra.
  - cbn. lra.
  - discriminate.
  - intros u [<-|[]] t y. eexists. reflexivity.
Qed.
Lemma rk4_now : now (r_rk4 1) = 0 /\ hstep (r_rk4 1) = 1.
Proof. split; reflexivity. Qed.
Lemma rk4_shape : shaped (@RungeKutta4 Rops).
Proof. split; [reflexivity|discriminate]. Qed.
Lemma rk4_step : exists x1, s_core (solver_of (E := ER) RungeKutta4 0 default_options rhs_exp PInf) (r_rk4 1) = (Ret tt, x1) /\
  past RungeKutta4 1 (r_rk4 1) x1 /\ now x1 = 1.
Proof.
  destruct (good_step (E := ER) RungeKutta4 0 default_options rhs_exp PInf 1 I eq_refl rk4_shape total_exp rk4_keeps (r_rk4 1) rk4_good)
    as (x1 & A & P & B & _).
  exists x1. split; [exact A|]. split; [exact P|]. rewrite B. destruct rk4_now as (-> & ->). lra.
Qed.
Lemma rk4_triggers term : exists x1, completes (solver_of (E := ER) RungeKutta4 0 default_options rhs_exp PInf) PInf (r_rk4 1) x1 /\
  now x1 = 1 /\ triggers (rev_half term) (r_rk4 1) x1.
Proof.
  destruct rk4_step as (x1 & A & _ & Hn).
  exists x1. split; [split; [unfold would_pass; cbn [gt_ext]; discriminate|exact A]|]. split; [exact Hn|].
  exists (0 - 1 / 2), (1 - 1 / 2). unfold value. cbn [ue_fun rev_half]. rewrite Hn. destruct rk4_now as (-> & _).
  split; [reflexivity|]. split; [reflexivity|]. left. unfold ue_dir, rev_half. cbn [ue_direction]. lra.
Qed.
Lemma sane_default : sane (@default_options Rops).
Proof. unfold sane. cbn [min_factor max_factor safety_factor default_options]. rewrite ?lit_R. cbn. lra. Qed.
