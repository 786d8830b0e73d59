(** C84: the fixed step classes. *)
From Coq Require Import List ZArith QArith Bool Arith Lia Reals Lra.
From Verif Require Import Base Scalar Vec MBuffer MZeros MSteps MApi MDop853 MClasses Laws Spec SpecInst
  PStep PKeeps PCore PHist PRun PInterp PBound PVecR SpecRK PDim PRK PFwd PTerm SpecZeros PZeros PZeros2 SpecMS PMS PMS2 PRK2 PRK3 PMS3 PMS5 SpecOrder SpecConv PConv1 PConv2 PConv3 PConv4 PConv5 PConv6 PConv7
  SpecConv3 PHi1 PHi2 PHi3 PHi4 PHi5 PHi6 PGlob PLmm1 PLmm2 PLmm3 SpecLmm PLmm4 PLmm5 PLmm6 PLmm7 PLmm9 SpecEv SpecEvC PEvC1.
Import ListNotations.
Open Scope R_scope.

Section Kept.
Context {E : @Env Rops}.
Variables (rhs : @rhs_t Rops) (n : nat) (L t0 te : R) (y : R -> list R).
Hypothesis HL : lipschitz n L rhs.
Hypothesis Hte : t0 <= te.

Lemma kept_events D Bd m fuelc o tb h e J s : taylor4 rhs n t0 te y D Bd -> is_fixed m = true -> interp_of (E := E) m rhs = interp_default -> 0 < h ->
  kept (E := E) rhs t0 te y m fuelc o h e J -> J s -> reachable (E := E) rhs m fuelc o tb s ->
  forall eps, wide L Bd m e h <= eps ->
  event_times (E := E) n te y (solver_of (E := E) m fuelc o rhs tb) s eps h /\ event_stops (E := E) n te y (solver_of (E := E) m fuelc o rhs tb) s eps h.
Proof.
  intros (HBd & D0 & DR & Dl & Dt) Fx Hint Hh (Pe & JC & Jg & Jw) Js Hre eps Heps.
  assert (HL0 : 0 <= L) by apply HL.
  assert (Pw : e <= wide L Bd m e h).
  { unfold wide. set (w := INR (len_history m - 1)). assert (Pw : 0 <= w) by apply pos_INR.
    assert (0 <= w * h * (L * e)) by (apply Rmult_le_pos; apply Rmult_le_pos; lra).
    assert (0 <= Bd * (w * h) ^ 4) by (apply Rmult_le_pos; [exact HBd|apply pow_le; apply Rmult_le_pos; lra]). lra. }
  assert (Ylen : forall t, t0 <= t <= te -> length (y t) = n) by (intros t Ht; rewrite <- D0; apply Dl; auto; lia).
  assert (Rd : ready (E := E) m fuelc o rhs tb s).
  { left. split; [exact Fx|]. split; [exact Hre|]. destruct (Jg s Js) as (_ & E1). rewrite E1. lra. }
  destruct (len_history_pos m) as (N & HN).
  assert (Top : forall x, J x -> now x <= te -> t0 <= now x /\ near e (state x) (y (now x))).
  { intros x Jx Ht. pose proof (Jw x Jx Ht) as W. rewrite HN in W. destruct (Jg x Jx) as (((Wb & _) & _) & _). rewrite HN in Wb.
    split; [|exact (wnear_last rhs t0 y _ _ _ _ _ W eq_refl)].
    destruct (W 0%nat ltac:(lia)) as (ti & yi & fi & A1 & A2 & A3 & V0 & A5 & A6 & U0). lra. }
  assert (P1 : forall x x1, J x -> completes (solver_of (E := E) m fuelc o rhs tb) tb x x1 -> J x1 /\ now x <= now x1 /\ (now x1 <= te -> now x1 <= now x + h)).
  { intros x x1 Jx (_ & Hc). cbn [s_core solver_of] in Hc. split; [eapply JC; eauto|].
    destruct (inv_push (E := E) rhs m h fuelc o J Fx Jg x x1 Jx Hc) as (Hn & _). rewrite Hn. split; lra. }
  assert (P2 : forall x, J x -> now x <= te -> length (y (now x)) = n /\ near eps (state x) (y (now x))).
  { intros x Jx Ht. destruct (Top x Jx Ht) as (T1 & T2). split; [apply Ylen; lra|]. eapply near_mono; [|exact T2]. lra. }
  assert (P3 : forall x x1 tau v, J x -> completes (solver_of (E := E) m fuelc o rhs tb) tb x x1 -> now x1 <= te -> now x <= tau <= now x1 ->
    sol (solver_of (E := E) m fuelc o rhs tb) x1 tau = Ret v -> length (y tau) = n /\ near eps v (y tau)).
  { intros x x1 tau v Jx Hc Ht Htau Hs. destruct (P1 x x1 Jx Hc) as (J1 & L1 & _). destruct (Top x Jx ltac:(lra)) as (T1 & _).
    split; [apply Ylen; lra|]. destruct Hc as (_ & Hc). cbn [s_core solver_of] in Hc.
    destruct (inv_push (E := E) rhs m h fuelc o J Fx Jg x x1 Jx Hc) as (Hn & y' & f' & Hp).
    pose proof (Jw x1 J1 Ht) as W1. pose proof (Jw x Jx ltac:(lra)) as W0. destruct (Jg x1 J1) as (((Wb1 & _) & _) & _). destruct (Jg x Jx) as (((Wb0 & _) & _) & _). rewrite HN in Wb1, Wb0, W1, W0.
    assert (Hlo : buf_t0 (cache x1) <= tau).
    { rewrite Hp. pose proof (oldest_old rhs t0 y h (cache x) N (now x) _ (now x + h) y' f' Wb0 W0). lra. }
    unfold sol in Hs. cbn [s_interp solver_of] in Hs. rewrite Hint in Hs. unfold interp_default in Hs.
    destruct (hermite (OT := Rops) tau (cache x1)) as [a|ex|] eqn:eh; try discriminate. injection Hs as <-.
    eapply near_mono; [exact Heps|]. unfold wide. rewrite HN. replace (S (S N) - 1)%nat with (S N) by lia.
    apply (hermite_wide rhs n L t0 te Bd y D HL HBd D0 DR Dl Dt N e (cache x1) h tau a); auto; try lra. exact (conj Hlo (proj2 Htau)). }
  split; [eapply (events_found (E := E) m fuelc o rhs tb n te y eps h J s)|eapply (events_stop (E := E) m fuelc o rhs tb n te y eps h J s)]; eauto; lra.
Qed.

(** fixed step Runge-Kutta classes *)
Lemma rk_kept m q : Ck_solution 5 rhs n t0 te y -> smooth_along rhs n t0 te y -> In (m, S q) rk_table -> exists Ca, 0 <= Ca /\
  forall h fuelc o, 0 < h <= 1 ->
    kept (E := E) rhs t0 te y m fuelc o h (accp Ca Ca (h ^ S q) (te - t0)) (ab_inv rhs t0 te y m Ca 0 (Ca * h ^ q) h) /\
    forall g s0 tb fuel cs, garbage_ok m g -> init_rk m g rhs t0 (y t0) (Some h) = Ret s0 ->
      ab_inv rhs t0 te y m Ca 0 (Ca * h ^ q) h (session (E := E) (solver_of (E := E) m fuelc o rhs tb) fuel cs s0).
Proof.
  intros HC HJ Hm. destruct (hi_window (E := E) rhs n L t0 te y HL Hte HC HJ m q Hm) as (Ca & HCa & H3).
  destruct (rk_table_tab m (S q) Hm) as (A & B & C & Em & _). assert (Fx : is_fixed m = true) by now rewrite Em.
  exists Ca. split; [exact HCa|]. intros h fuelc o Hh.
  assert (HD : 0 <= Ca * h ^ q) by (apply Rmult_le_pos; auto; apply pow_le; lra).
  assert (Ph : 0 <= h ^ S q) by (apply pow_le; lra).
  pose proof (fun x x' => H3 h fuelc o x x' Hh) as Cl.
  split.
  - split; [apply accp_pos; lra|]. split; [exact Cl|]. split; [intros x Hx; split; apply Hx|].
    intros x Hx Ht. pose proof Hx as (_ & _ & T0 & W). specialize (W Ht). eapply wnear_mono; [|exact W]. rewrite <- accp_acc. apply acc_mono; lra.
  - intros g s0 tb fuel cs Hg Hi. destruct (base_near rhs t0 te y m g h s0 Hte ltac:(lra) Hg Hi) as (G & B1 & B2 & B3).
    apply (ab_inv_session (E := E) rhs t0 te y m Ca 0 (Ca * h ^ q) h fuelc o tb fuel cs s0 ltac:(lra) Cl Fx).
    split; [exact G|]. split; [exact B1|]. rewrite B2. split; [lra|]. intros _. apply B3. apply acc_pos; lra.
Qed.
Lemma C84_lemma m p : Ck_solution 5 rhs n t0 te y -> smooth_along rhs n t0 te y -> In (m, p) rk_table ->
  exists K, 0 <= K /\ forall h g s0 fuelc o tb fuel cs s, 0 < h <= 1 -> garbage_ok m g ->
    init_rk m g rhs t0 (y t0) (Some h) = Ret s0 ->
    s = session (E := E) (solver_of (E := E) m fuelc o rhs tb) fuel cs s0 ->
    event_times (E := E) n te y (solver_of (E := E) m fuelc o rhs tb) s (K * h ^ p) h /\
    event_stops (E := E) n te y (solver_of (E := E) m fuelc o rhs tb) s (K * h ^ p) h.
Proof.
  intros HC HJ Hm. assert (Hq : exists q, p = S q /\ (S q <= 4)%nat).
  { cbn in Hm. repeat (destruct Hm as [Hm|Hm]; [injection Hm as <- <-; eexists; split; [reflexivity|lia]|]). destruct Hm. }
  destruct Hq as (q & -> & Hq). destruct (rk_kept m q HC HJ Hm) as (Ca & HCa & H).
  destruct (taylor4_ex rhs n t0 te y Hte HC) as (D & Bd & T4). pose proof T4 as (HBd & _).
  destruct (rk_table_tab m (S q) Hm) as (A & B & C & Em & _).
  assert (Fx : is_fixed m = true) by now rewrite Em.
  assert (Hint : interp_of (E := E) m rhs = interp_default) by now rewrite Em.
  assert (Hlen : len_history m = 2%nat) by now rewrite Em.
  assert (Her : is_erk m) by (rewrite Em; exact I).
  set (K0 := accp Ca Ca 1 (te - t0)). assert (HK0 : 0 <= K0) by (apply accp_pos; lra). assert (HL0 : 0 <= L) by apply HL.
  exists (5 * K0 + L * K0 + 4 * Bd). split; [assert (0 <= L * K0) by (now apply Rmult_le_pos); lra|].
  intros h g s0 fuelc o tb fuel cs s Hh Hg Hi Es. destruct (H h fuelc o Hh) as (Hk & Hs). specialize (Hs g s0 tb fuel cs Hg Hi). rewrite <- Es in Hs.
  refine (kept_events D Bd m fuelc o tb h _ _ s T4 Fx Hint ltac:(lra) Hk Hs _ _ _).
  - exists s0, fuel, cs. split; [|exact Es]. exact (built_rk rhs m g t0 (y t0) (Some h) s0 Her Hg Hi).
  - unfold wide. rewrite Hlen. change (INR (2 - 1)) with 1.
    assert (Hacc : accp Ca Ca (h ^ S q) (te - t0) = K0 * h ^ S q) by (unfold K0, accp; ring). rewrite Hacc.
    assert (P0 : 0 <= h ^ S q) by (apply pow_le; lra).
    assert (P1 : 0 <= L * (K0 * h ^ S q)) by (apply Rmult_le_pos; [apply HL|apply Rmult_le_pos; auto]).
    assert (P2 : h * (L * (K0 * h ^ S q)) <= 1 * (L * (K0 * h ^ S q))) by (apply Rmult_le_compat_r; lra).
    assert (P3 : h ^ 4 <= h ^ S q).
    { replace 4%nat with (S q + (4 - S q))%nat by lia. rewrite pow_add. rewrite <- (Rmult_1_r (h ^ S q)) at 2.
      apply Rmult_le_compat_l; auto. rewrite <- (pow1 (4 - S q)). apply pow_incr; lra. }
    assert (P4 : Bd * h ^ 4 <= Bd * h ^ S q) by (apply Rmult_le_compat_l; auto). rewrite !Rmult_1_l. lra.
Qed.
(** implicit multistep classes with a first stepper *)
Lemma started_built A B Bn m1 p g h fs fuel0 s0 : In (m1, p) rk_table -> garbage_ok (@ImplMS Rops A B Bn) g ->
  starts (E := E) rhs t0 (y t0) h (Some m1) fs -> init_ms (E := E) (@ImplMS Rops A B Bn) g rhs t0 (y t0) (Some h) fs fuel0 = Ret s0 -> built (E := E) rhs (@ImplMS Rops A B Bn) s0.
Proof.
  intros Hp Hg Hst Hi. destruct (starts_inv (E := E) rhs t0 _ _ _ _ Hst) as (g1 & s1 & fuel1 & o1 & Hg1 & Hi1 & ->). clear Hst.
  destruct (rk_table_tab m1 p Hp) as (Ar & Br & Cr & Em & _).
  apply (built_ms_fixed (E := E) rhs _ g t0 (y t0) (Some h) fuel0 s0 m1 s1 fuel1 o1); auto.
  - exact I.
  - now rewrite Em.
  - apply (built_rk (E := E) rhs m1 g1 t0 (y t0) (Some h)); auto. rewrite Em. exact I.
  - unfold init_rk in Hi1. apply init_base_spec in Hi1 as (_ & f & _ & Hc & _); auto. destruct (len_history_pos m1) as (q & Hq).
    unfold now, buf_t. rewrite Hc, Hq. apply last_repeat; lia.
  - unfold init_rk in Hi1. apply init_base_spec in Hi1 as (_ & f & _ & Hc & _); auto. destruct (len_history_pos m1) as (q & Hq).
    unfold state, buf_y. rewrite Hc, Hq. apply last_repeat; lia.
  - unfold init_rk in Hi1. apply init_base_spec in Hi1 as (_ & f & _ & _ & Hh1); auto.
Qed.
Lemma C84_implicit_lemma k m m1 p : Ck_solution (Nat.max 5 (k + 1)) rhs n t0 te y -> smooth_along rhs n t0 te y -> In (k, m) (am_table ++ bdf_table) -> In (m1, p) rk_table ->
  solve_dim (E := E) ->
  exists K h0, 0 <= K /\ 0 < h0 /\ forall h rho g fs fuel0 fuelc o tb fuel cs s0 s, 0 < h <= h0 -> 0 <= rho -> garbage_ok m g ->
    starts (E := E) rhs t0 (y t0) h (Some m1) fs -> init_ms (E := E) m g rhs t0 (y t0) (Some h) fs fuel0 = Ret s0 ->
    leaves_at_most rho te m (solver_of (E := E) m fuelc o rhs PInf) s0 ->
    s = session (E := E) (solver_of (E := E) m fuelc o rhs tb) fuel cs s0 ->
    event_times (E := E) n te y (solver_of (E := E) m fuelc o rhs tb) s (K * (h ^ Nat.min k p + rho / h)) h /\
    event_stops (E := E) n te y (solver_of (E := E) m fuelc o rhs tb) s (K * (h ^ Nat.min k p + rho / h)) h.
Proof.
  intros HC HJ Hm Hp Sd. destruct (started_inv (E := E) rhs n L t0 te y HL Hte k m m1 p HC HJ Hm Hp) as (D & Bd & K & h0 & T4 & HK & Hh0 & Fx & Hint & H).
  exists K, h0. split; [exact HK|]. split; [exact Hh0|]. intros h rho g fs fuel0 fuelc o tb fuel cs s0 s Hh Hrho Hg Hst Hi Lv Es.
  destruct (H h rho g fs fuel0 fuelc o tb fuel cs s0 s Hh Hg Hst Hi Hrho (leaves_solves (E := E) rhs n L te HL k m h rho fuelc o s0 Hm Sd (proj1 Hh) Lv) Es) as (e & J & Hk & Js & Hw).
  refine (kept_events D Bd m fuelc o tb h e J s T4 Fx Hint (proj1 Hh) Hk Js _ _ Hw).
  exists s0, fuel, cs. split; [|exact Es]. destruct (implicit_stable k m Hm) as (A & B & Bn & -> & _). exact (started_built A B Bn m1 p g h fs fuel0 s0 Hp Hg Hst Hi).
Qed.
End Kept.
