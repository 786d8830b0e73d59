(** C84 for DOP853: the reported events are the events of the solution. *)
From Coq Require Import List ZArith QArith Bool Arith Lia Reals Lra.
From Verif Require Import Base Scalar Vec MBuffer MZeros MSteps MApi MDop853 MClasses Laws Spec SpecInst
  PStep PKeeps PClean PCore PHist PRun PInterp PBound PVecR SpecRK PDim PRK SpecMS PMS PMS5 SpecDense PDense SpecConv PConv1 PConv2 PConv6 PConv9 SpecConv3
  PHi1 PHi2 PHi3 PHi4 SpecVar PVar1 PVar2 PVar3 SpecEv SpecEvC PEvC1 PDcv1 PDcv2 PDcv3.
Import ListNotations.
Open Scope R_scope.

Section Gen.
Context {E : @Env Rops}.
Variables (A : list (list R)) (B C E5 E3 : list R) (order : Z) (DD Af : list (list R)) (Cf : list R).
Hypothesis Hsh : length C = length A /\ A <> [].
Hypothesis HA : length A = dop_n_stages.
Hypothesis HCf : length Cf = length Af.
Hypothesis T1 : rows_w 97 1 (skipn 1 A) (skipn 1 C).
Hypothesis T2 : length B = Datatypes.S (length (skipn 1 A)).
Hypothesis T3 : sumA B <= 13.
Hypothesis T4 : Rabs (sumR B - 1) <= / 10 ^ 29.
Hypothesis T5 : length B = 12%nat.
Hypothesis Hin : In (@Dop Rops A B C E5 E3 order DD Af Cf) [@RungeKutta23 Rops; @RungeKutta45 Rops; @DOP853 Rops].
Hypothesis T6 : rows_w 97 13 (skipn 13 Af) (skipn 13 Cf).
Let m : @meth Rops := @Dop Rops A B C E5 E3 order DD Af Cf.
Lemma gen_events rhs n L t0 te y S : lipschitz n L rhs -> t0 <= te -> C2_solution rhs n t0 te y -> 0 <= S ->
  (forall t f i, t0 <= t <= te -> rhs t (y t) = Ret f -> (i < n)%nat -> Rabs (cmp i f) <= S) ->
  exists K, 0 <= K /\ forall H g o sel first s0 fuelc tb fuel cs s, 0 < H <= 1 -> 200 * (H * L) <= 1 -> sane o -> garbage_ok m g ->
    init_var m g rhs t0 (y t0) o sel first = Ret s0 -> 0 <= hstep s0 -> steps_at_most H te (solver_of (E := E) m fuelc o rhs tb) s0 ->
    returns (E := E) (solver_of (E := E) m fuelc o rhs tb) fuel cs s0 s ->
    event_times (E := E) n te y (solver_of (E := E) m fuelc o rhs tb) s (K * H + floor S L (te - t0)) H /\
    event_stops (E := E) n te y (solver_of (E := E) m fuelc o rhs tb) s (K * H + floor S L (te - t0)) H.
Proof.
  intros HL Hte HC HS0 HS. assert (PL : 0 <= L) by apply HL.
  destruct (gen_local rhs n L t0 te y S HL Hte HC HS0 HS A B C DD Af Cf T1 T2 T3 T4 T5 T6) as (Ka & Ld & Kd & P1 & P2 & P3 & Hloc).
  set (F := / 10 ^ 29 * S) in *. assert (PF : 0 <= F) by (unfold F; apply Rmult_le_pos; [left; apply Rinv_0_lt_compat, pow_lt; lra|lra]).
  set (X := (te - t0) * exp (26 * L * (te - t0))). assert (PX : 0 <= X) by (apply Rmult_le_pos; [lra|left; apply exp_pos]).
  set (Q := Ld * ((Ka + F) * X) + Kd). assert (PQ : 0 <= Q).
  { unfold Q. assert (0 <= Ld * ((Ka + F) * X)) by (apply Rmult_le_pos; [lra|apply Rmult_le_pos; lra]). lra. }
  exists (Ka * X + Q). split; [assert (0 <= Ka * X) by (apply Rmult_le_pos; lra); lra|]. intros H g o sel first s0 fuelc tb fuel cs s HH Hq Ho Hg Hi Hh Hst Hret.
  assert (HHq : H * (L * 97) <= 1 / 2). { assert (0 <= H * L) by (apply Rmult_le_pos; lra). lra. }
  assert (Pq : 0 <= L * 97) by lra. assert (Pla : 0 <= 26 * L) by lra.
  assert (Eac : ac t0 (26 * L) Ka F H te = Ka * X * H + floor S L (te - t0)) by (unfold ac, accp, floor, X, F; field).
  assert (Fe : floor S L (te - t0) = F * X) by (unfold floor, F, X; field).
  assert (Pac : 0 <= ac t0 (26 * L) Ka F H te <= (Ka + F) * X).
  { rewrite Eac, Fe. assert (Ka * X * H <= Ka * X * 1) by (apply Rmult_le_compat_l; [apply Rmult_le_pos; lra|lra]).
    assert (0 <= Ka * X * H) by (apply Rmult_le_pos; [apply Rmult_le_pos; lra|lra]). assert (0 <= F * X) by (apply Rmult_le_pos; lra). lra. }
  assert (HQ : H * (Ld * ac t0 (26 * L) Ka F H te + Kd) <= H * Q).
  { apply Rmult_le_compat_l; [lra|]. unfold Q. apply Rplus_le_compat_r. apply Rmult_le_compat_l; [lra|apply Pac]. }
  assert (HQ0 : 0 <= H * Q) by (apply Rmult_le_pos; lra).
  pose proof (vall_init (E := E) rhs n L t0 te y HL Hte HC A B C E5 E3 order DD Af Cf HA HCf (26 * L) Ka F fuelc o tb H s0 P1 PF HH g sel first Hg Hi Hh) as V0.
  assert (Hb : built (E := E) rhs (@Dop Rops A B C E5 E3 order DD Af Cf) s0) by (eapply built_var; eauto; reflexivity).
  assert (Hsl : length (state s0) = n).
  { destruct (init_var_fresh _ g rhs t0 (y t0) o sel first s0 Hg eq_refl Hi) as (_ & -> & _). apply (y_len rhs n t0 te y HC). lra. }
  pose proof (vall_returns (E := E) rhs n L t0 te y HL HC A B C E5 E3 order DD Af Cf Hsh HA HCf (L * 97) (26 * L) Ka F Ld Kd fuelc o tb H s0 Pla P1 PF Pq Hloc Ho HH HHq Hst fuel cs s V0 Hret) as V.
  set (bd := (Ka * X + Q) * H + floor S L (te - t0)). assert (PF' : 0 <= floor S L (te - t0)) by (rewrite Fe; exact (Rmult_le_pos _ _ PF PX)). assert (PKX : 0 <= Ka * X * H) by (apply Rmult_le_pos; [exact (Rmult_le_pos _ _ P1 PX)|lra]).
  set (J := vall (E := E) rhs n t0 te y A B C E5 E3 order DD Af Cf (26 * L) Ka F fuelc o tb H s0) in *. unfold m in *.
  assert (Rd : ready (E := E) (@Dop Rops A B C E5 E3 order DD Af Cf) fuelc o rhs tb s).
  { right. split; [exact Hin|]. split; [exact Ho|]. exists fuel, cs, s0. split; [exact Hb|]. split; [|split; [exact Hh|exact Hret]].
    rewrite Hsl. intros t u f Hu Hf. exact (proj1 (proj2 HL) t u f Hu Hf). }
  assert (Q1 : forall x x1, J x -> completes (solver_of (E := E) (@Dop Rops A B C E5 E3 order DD Af Cf) fuelc o rhs tb) tb x x1 -> J x1 /\ now x <= now x1 /\ (now x1 <= te -> now x1 <= now x + H) /\ prev_t x1 = now x).
  { intros x x1 Jx (Hw & Hc). cbn [s_core solver_of] in Hc.
    destruct (vall_core (E := E) rhs n L t0 te y HL HC A B C E5 E3 order DD Af Cf Hsh (L * 97) (26 * L) Ka F Ld Kd fuelc o tb H s0 Pla P1 PF Pq Hloc Ho HH HHq Hst x x1 Hw Jx Hc) as (J1 & L1 & Hp).
    split; [exact J1|]. split; [exact L1|]. split; [|exact Hp]. intros Ht. destruct J1 as (_ & Vl & _). unfold vlast in Vl. rewrite Hp in Vl.
    destruct (Rle_lt_or_eq_dec _ _ L1) as [Hlt|Heq]; [destruct (Vl Hlt Ht) as (_ & Ql & _); lra|lra]. }
  assert (Q2 : forall x, J x -> now x <= te -> length (y (now x)) = n /\ near bd (state x) (y (now x))).
  { intros x Jx Ht. destruct Jx as ((_ & _ & _ & T0 & Hn) & _). split; [apply (y_len rhs n t0 te y HC); lra|]. eapply near_mono; [|exact (Hn Ht)].
    eapply Rle_trans; [apply (ac_mono t0 (26 * L) Ka F H); auto; split; [exact T0|exact Ht]|]. rewrite Eac. unfold bd. rewrite Rmult_plus_distr_r. lra. }
  assert (Q3 : forall x x1 tau v, J x -> completes (solver_of (E := E) (@Dop Rops A B C E5 E3 order DD Af Cf) fuelc o rhs tb) tb x x1 -> now x1 <= te -> now x <= tau <= now x1 ->
    sol (solver_of (E := E) (@Dop Rops A B C E5 E3 order DD Af Cf) fuelc o rhs tb) x1 tau = Ret v -> length (y tau) = n /\ near bd v (y tau)).
  { intros x x1 tau v Jx Hc Ht Htau Hs. destruct (Q1 x x1 Jx Hc) as (J1 & L1 & _ & Hp). assert (T0 : t0 <= now x) by apply Jx.
    split; [apply (y_len rhs n t0 te y HC); lra|]. unfold sol in Hs. cbn [s_interp solver_of] in Hs.
    destruct (interp_of (E := E) (@Dop Rops A B C E5 E3 order DD Af Cf) rhs tau x1) as [[a|e|] x2] eqn:ei; try discriminate. injection Hs as <-.
    eapply near_mono; [|apply (vall_value (E := E) rhs n L t0 te y HL Hte A B C E5 E3 order DD Af Cf Hsh HA HCf (L * 97) (26 * L) Ka F Ld Kd fuelc o tb H s0 Pla P1 PF P2 P3 Pq Hloc HH HHq tau x1 a x2 J1 Ht); [rewrite Hp; exact Htau|exact ei]].
    unfold dv, bd. rewrite Rmult_plus_distr_r. lra. }
  assert (Q1' : forall x x1, J x -> completes (solver_of (E := E) (@Dop Rops A B C E5 E3 order DD Af Cf) fuelc o rhs tb) tb x x1 -> J x1 /\ now x <= now x1 /\ (now x1 <= te -> now x1 <= now x + H)).
  { intros x x1 Jx Hc. destruct (Q1 x x1 Jx Hc) as (X1 & X2 & X3 & _). auto. }
  assert (Pe : 0 <= bd) by (unfold bd; rewrite Rmult_plus_distr_r; lra).
  split; [eapply (events_found (E := E) _ fuelc o rhs tb n te y bd H J s)|eapply (events_stop (E := E) _ fuelc o rhs tb n te y bd H J s)]; eauto; lra.
Qed.
End Gen.
Lemma C84_dop_lemma {E : @Env Rops} : forall rhs n L t0 te y S, lipschitz n L rhs -> t0 <= te -> C2_solution rhs n t0 te y -> 0 <= S ->
  (forall t f i, t0 <= t <= te -> rhs t (y t) = Ret f -> (i < n)%nat -> Rabs (cmp i f) <= S) ->
  exists K, 0 <= K /\ forall H g o sel first s0 fuelc tb fuel cs s, 0 < H <= 1 -> 200 * (H * L) <= 1 -> sane o -> garbage_ok (@DOP853 Rops) g ->
    init_var (@DOP853 Rops) g rhs t0 (y t0) o sel first = Ret s0 -> 0 <= hstep s0 -> steps_at_most H te (solver_of (E := E) DOP853 fuelc o rhs tb) s0 ->
    returns (E := E) (solver_of (E := E) DOP853 fuelc o rhs tb) fuel cs s0 s ->
    let eps := K * H + S * (te - t0) * exp (26 * L * (te - t0)) / 10 ^ 29 in
    event_times (E := E) n te y (solver_of (E := E) DOP853 fuelc o rhs tb) s eps H /\
    event_stops (E := E) n te y (solver_of (E := E) DOP853 fuelc o rhs tb) s eps H.
Proof.
  destruct dop_shape as (a & b & c & d & e). intros rhs n L t0 te y S.
  exact (gen_events (E := E) dA dB dC (@lits Rops dop_E5) (@dop_E3 Rops) 7 (@litm Rops dop_D) (@litm Rops dop_A) (@lits Rops dop_C) a b c dop_rows d dop_b13 dop_b1 e (or_intror (or_intror (or_introl eq_refl))) dop_ext rhs n L t0 te y S).
Qed.
