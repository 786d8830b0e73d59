(** C84: the variable step classes. *)
From Coq Require Import List ZArith QArith Bool Arith Lia Reals Lra.
From Verif Require Import Base Scalar Vec MBuffer MZeros MSteps MApi MDop853 MClasses Laws Spec SpecInst
  PStep PKeeps PCore PHist PRun PInterp PBound PVecR SpecRK SpecDense PDim PRK PFwd PTerm SpecMS PMS PMS2 PRK2 PRK3 PMS3 SpecOrder SpecConv PConv1 PConv2 PConv3 PConv4 PConv5 PConv6 PConv7
  SpecConv3 PHi1 PHi2 PHi3 PHi4 PHi5 PDense SpecVar PVar1 PVar2 PVar3 SpecEv SpecEvC PEvC1.
Import ListNotations.
Open Scope R_scope.

Section Gen.
Context {E : @Env Rops}.
Variables (rhs : @rhs_t Rops) (n : nat) (L t0 te : R) (y : R -> list R).
Hypothesis HL : lipschitz n L rhs.
Hypothesis Hte : t0 <= te.
Hypothesis HC : Ck_solution 5 rhs n t0 te y.
Hypothesis HJ : smooth_along rhs n t0 te y.
Variables (A : list (list R)) (B C Ew : list R) (order : Z) (P : list (list R)) (p pd : nat).
Let m : @meth Rops := @Fsal Rops A B C Ew order P.
Hypothesis Hin : In m [@RungeKutta23 Rops; @RungeKutta45 Rops; @DOP853 Rops].
Hypothesis HD : tabd pd A B C P.
Hypothesis Hpd : (p <= S pd)%nat.
Hypothesis Hstep : exists C1, 0 <= C1 /\ local_step rhs t0 te y A B C p C1.
Lemma sol_len t : t0 <= t <= te -> length (y t) = n.
Proof. intros Ht. destruct HC as (D & D0 & HDd). destruct (HDd t Ht) as (_ & H2 & _). rewrite <- D0. apply H2. lia. Qed.
Lemma var_events : exists K, 0 <= K /\ forall H g o sel first s0 fuelc tb fuel cs s, 0 < H <= 1 -> sane o -> garbage_ok m g ->
    init_var m g rhs t0 (y t0) o sel first = Ret s0 -> 0 <= hstep s0 ->
    steps_at_most H te (solver_of (E := E) m fuelc o rhs tb) s0 ->
    returns (E := E) (solver_of (E := E) m fuelc o rhs tb) fuel cs s0 s ->
    event_times (E := E) n te y (solver_of (E := E) m fuelc o rhs tb) s (K * H ^ p) H /\
    event_stops (E := E) n te y (solver_of (E := E) m fuelc o rhs tb) s (K * H ^ p) H.
Proof.
  unfold m in *. destruct (local_ex rhs n L t0 te y HL Hte HC HJ A B C P p pd HD Hpd Hstep) as (Ca & HCa & Hloc).
  assert (HK0 : 0 <= accp Ca Ca 1 (te - t0)) by (apply accp_pos; lra).
  exists (accp Ca Ca 1 (te - t0) + Ca). split; [lra|]. intros H g o sel first s0 fuelc tb fuel cs s HH Ho Hg Hi Hh Hst Hret.
  assert (Hb : built (E := E) rhs (@Fsal Rops A B C Ew order P) s0) by (eapply built_var; eauto; reflexivity).
  pose proof (vall_init (E := E) rhs n L t0 te y HL Hte HC A B C Ew order P p pd Hpd Ca fuelc o tb H s0 HCa HH Hst g sel first Hg Hi Hh) as V0.
  assert (Hsl : length (state s0) = n).
  { destruct V0 as ((_ & _ & _ & T0 & _) & _). assert (N0 : now s0 = t0 /\ state s0 = y t0).
    { unfold init_var in Hi. destruct (init_base (@Fsal Rops A B C Ew order P) g rhs t0 (y t0) None) as [x0| |] eqn:e; try discriminate.
      cbn [obind] in Hi. apply (init_base_spec (@Fsal Rops A B C Ew order P) g rhs t0 (y t0) None x0 Hg) in e as (_ & f & Hrf & Hc & _).
      destruct (match max_step o with Fin x => _ | PInf => _ end); [discriminate|]. destruct (ltb _ _); [discriminate|].
      match type of Hi with (let! h := ?x in _) = _ => destruct x as [h| |] end; cbn [obind] in Hi; try discriminate.
      rewrite rk_update_R in Hi. injection Hi as <-. unfold now, state, buf_t, buf_y. cbn. rewrite Hc. repeat split; reflexivity. }
    destruct N0 as (_ & ->). apply sol_len. lra. }
  pose proof (vall_returns (E := E) rhs n L t0 te y HL A B C Ew order P p pd HD Ca fuelc o tb H s0 HCa Hloc Ho HH Hst fuel cs s V0 Hret) as V.
  set (J := vall (E := E) rhs n t0 te y A B C Ew order P p Ca fuelc o tb H s0) in *.
  assert (Pp : 0 <= H ^ p) by (apply pow_le; lra).
  assert (Hac : forall t, t0 <= t <= te -> accp Ca Ca (H ^ p) (t - t0) <= accp Ca Ca 1 (te - t0) * H ^ p).
  { intros t Ht. eapply Rle_trans; [apply (accp_mono Ca Ca (H ^ p) _ (te - t0)); lra|]. unfold accp. lra. }
  assert (PC : 0 <= Ca * H ^ p) by (now apply Rmult_le_pos).
  assert (Rd : ready (E := E) (@Fsal Rops A B C Ew order P) fuelc o rhs tb s).
  { right. split; [exact Hin|]. split; [exact Ho|]. exists fuel, cs, s0. split; [exact Hb|]. split; [|split; [exact Hh|exact Hret]].
    rewrite Hsl. intros t u f Hu Hf. exact (proj1 (proj2 HL) t u f Hu Hf). }
  assert (Q1 : forall x x1, J x -> completes (solver_of (E := E) (@Fsal Rops A B C Ew order P) fuelc o rhs tb) tb x x1 -> J x1 /\ now x <= now x1 /\ (now x1 <= te -> now x1 <= now x + H) /\ prev_t x1 = now x).
  { intros x x1 Jx (Hw & Hc). cbn [s_core solver_of] in Hc.
    destruct (vall_core (E := E) rhs n L t0 te y HL A B C Ew order P p pd HD Ca fuelc o tb H s0 HCa Hloc Ho HH Hst x x1 Hw Jx Hc) as (J1 & L1 & Hp).
    split; [exact J1|]. split; [exact L1|]. split; [|exact Hp]. intros Ht. destruct J1 as (_ & Vl & _). unfold vlast in Vl. rewrite Hp in Vl.
    destruct (Rle_lt_or_eq_dec _ _ L1) as [Hlt|Heq]; [destruct (Vl Hlt Ht) as (_ & Q & _); lra|lra]. }
  assert (Q2 : forall x, J x -> now x <= te -> length (y (now x)) = n /\ near ((accp Ca Ca 1 (te - t0) + Ca) * H ^ p) (state x) (y (now x))).
  { intros x Jx Ht. destruct Jx as ((_ & _ & _ & T0 & Hn) & _). split; [apply sol_len; lra|]. eapply near_mono; [|exact (Hn Ht)].
    eapply Rle_trans; [apply Hac; lra|]. rewrite Rmult_plus_distr_r. lra. }
  assert (Q3 : forall x x1 tau v, J x -> completes (solver_of (E := E) (@Fsal Rops A B C Ew order P) fuelc o rhs tb) tb x x1 -> now x1 <= te -> now x <= tau <= now x1 ->
    sol (solver_of (E := E) (@Fsal Rops A B C Ew order P) fuelc o rhs tb) x1 tau = Ret v -> length (y tau) = n /\ near ((accp Ca Ca 1 (te - t0) + Ca) * H ^ p) v (y tau)).
  { intros x x1 tau v Jx Hc Ht Htau Hs. destruct (Q1 x x1 Jx Hc) as (J1 & L1 & _ & Hp). assert (T0 : t0 <= now x) by apply Jx.
    split; [apply sol_len; lra|]. unfold sol in Hs. cbn [s_interp solver_of] in Hs.
    destruct (interp_of (E := E) (@Fsal Rops A B C Ew order P) rhs tau x1) as [[a|e|] x2] eqn:ei; try discriminate. injection Hs as <-.
    eapply near_mono; [|apply (vall_value (E := E) rhs n L t0 te y HL A B C Ew order P p pd HD Hpd Ca fuelc o tb H s0 HCa Hloc HH tau x1 a x2 J1 Ht); [rewrite Hp; exact Htau|exact ei]].
    pose proof (Hac te ltac:(lra)). rewrite Rmult_plus_distr_r. lra. }
  assert (Q1' : forall x x1, J x -> completes (solver_of (E := E) (@Fsal Rops A B C Ew order P) fuelc o rhs tb) tb x x1 -> J x1 /\ now x <= now x1 /\ (now x1 <= te -> now x1 <= now x + H)).
  { intros x x1 Jx Hc. destruct (Q1 x x1 Jx Hc) as (X1 & X2 & X3 & _). auto. }
  assert (Pe : 0 <= (accp Ca Ca 1 (te - t0) + Ca) * H ^ p) by (apply Rmult_le_pos; lra).
  split; [eapply (events_found (E := E) _ fuelc o rhs tb n te y _ H J s)|eapply (events_stop (E := E) _ fuelc o rhs tb n te y _ H J s)]; eauto; lra.
Qed.
End Gen.
Lemma C84_var_lemma {E : @Env Rops} rhs n L t0 te y : lipschitz n L rhs -> t0 <= te -> Ck_solution 5 rhs n t0 te y -> smooth_along rhs n t0 te y ->
  forall m p, In (m, p) var_table ->
  exists K, 0 <= K /\ forall H g o sel first s0 fuelc tb fuel cs s, 0 < H <= 1 -> sane o -> garbage_ok m g ->
    init_var m g rhs t0 (y t0) o sel first = Ret s0 -> 0 <= hstep s0 ->
    steps_at_most H te (solver_of (E := E) m fuelc o rhs tb) s0 ->
    returns (E := E) (solver_of (E := E) m fuelc o rhs tb) fuel cs s0 s ->
    event_times (E := E) n te y (solver_of (E := E) m fuelc o rhs tb) s (K * H ^ p) H /\
    event_stops (E := E) n te y (solver_of (E := E) m fuelc o rhs tb) s (K * H ^ p) H.
Proof.
  intros HL Hte HC HJ m p Hm. assert (Hin : In m [@RungeKutta23 Rops; @RungeKutta45 Rops; @DOP853 Rops]).
  { destruct Hm as [[= <- _]|[[= <- _]|[]]]; [left|right; left]; reflexivity. }
  destruct (var_table_tab m p Hm) as (A & B & C & Ew & order & P & -> & HT & HD).
  exact (var_events rhs n L t0 te y HL Hte HC HJ A B C Ew order P p p Hin HD ltac:(lia) (rk_step_hi rhs n L t0 te y p A B C HL Hte HC HJ HT)).
Qed.
