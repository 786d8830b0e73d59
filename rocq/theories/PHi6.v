(** C67: the theorem about run. *)
From Coq Require Import List ZArith QArith Bool Arith Lia Reals Lra.
From Verif Require Import Base Scalar Vec MBuffer MZeros MSteps MApi MDop853 MClasses Laws Spec SpecInst
  PStep PKeeps PCore PHist PRun PInterp PBound PVecR SpecRK PDim PRK PFwd PTerm SpecMS PMS PMS2 PRK2 PRK3 PMS3 SpecOrder SpecConv PConv1 PConv2 PConv3 PConv4 PConv5 PConv6 PConv7
  SpecConv3 PHi1 PHi2 PHi3 PHi4 PHi5.
Import ListNotations.
Open Scope R_scope.

Lemma accp_acc Ca q h x : acc Ca 0 (Ca * h ^ q) h x = accp Ca Ca (h ^ S q) x.
Proof. unfold acc, accp. cbn [pow]. ring. Qed.

Section Run.
Context {E : @Env Rops}.
Variables (rhs : @rhs_t Rops) (n : nat) (L t0 te : R) (y : R -> list R).
Hypothesis HL : lipschitz n L rhs.
Hypothesis Hte : t0 <= te.
Hypothesis HC : Ck_solution 5 rhs n t0 te y.
Hypothesis HJ : smooth_along rhs n t0 te y.

Lemma hi_window m q : In (m, S q) rk_table -> exists Ca, 0 <= Ca /\
  forall h fuelc o x x', 0 < h <= 1 -> ab_inv rhs t0 te y m Ca 0 (Ca * h ^ q) h x -> core_of (E := E) m fuelc o rhs x = (Ret tt, x') ->
  ab_inv rhs t0 te y m Ca 0 (Ca * h ^ q) h x'.
Proof.
  intros Hm. destruct (hi_inv_core (E := E) rhs n L t0 te y HL Hte HC HJ m (S q) Hm) as (Ca & H1 & H3).
  destruct (rk_table_tab m (S q) Hm) as (A & B & C & Em & _).
  exists Ca. split; auto. intros h fuelc o x x' Hh Hi Hc.
  destruct (len_history_pos m) as (N & HN).
  assert (Ri : hi_inv rhs t0 te y m Ca (h ^ S q) h x).
  { destruct Hi as (G & G1 & G2 & G3). split; [exact G|]. split; [exact G1|]. split; [exact G2|]. intros Ht. specialize (G3 Ht).
    rewrite HN in G3. rewrite <- accp_acc. exact (wnear_last rhs t0 y _ _ _ _ _ G3 eq_refl). }
  destruct (H3 h fuelc o x x' Hh Ri Hc) as ((G & G1 & G2 & G3) & Hn & Hr).
  split; [exact G|]. split; [exact G1|]. split; [exact G2|]. intros Ht. specialize (G3 Ht).
  assert (Hp : 0 <= Ca * h ^ q) by (apply Rmult_le_pos; auto; apply pow_le; lra).
  assert (P3 : 0 <= Ca /\ 0 <= 0 /\ 0 <= Ca * h ^ q /\ 0 < h) by lra.
  destruct (core_push (E := E) rhs t0 te y m Ca 0 (Ca * h ^ q) h fuelc o) with (x := x) (x' := x') as (_ & y' & f' & Hp'); auto.
  { now rewrite Em. }
  destruct Hi as ((Wg & _) & _ & T0 & W). rewrite Hn in Ht. specialize (W ltac:(lra)). pose proof Wg as (Wb & _). rewrite HN in *.
  assert (Ey : state x' = y') by (unfold state; rewrite Hp'; exact (push_y (S N) _ _ _ _ Wb)).
  assert (Ef : deriv x' = f') by (unfold deriv; rewrite Hp'; exact (push_f (S N) _ _ _ _ Wb)).
  rewrite Hp'. rewrite Ey, Ef, Hn in Hr. rewrite Ey, Hn, <- accp_acc in G3. rewrite Hn.
  apply (wnear_push rhs t0 y (S N) (acc Ca 0 (Ca * h ^ q) h (now x - t0))); auto; try lra. apply acc_mono; lra.
Qed.

Lemma sampled_hi Bd D m q Ca h fuelc o tb x tl vs x3 : In (m, q) rk_table ->
  0 <= Bd -> (forall t, D 0%nat t = y t) -> (forall t, t0 <= t <= te -> rhs t (D 0%nat t) = Ret (D 1%nat t)) ->
  (forall t j, t0 <= t <= te -> (j <= 4)%nat -> length (D j t) = n) ->
  (forall j m t x i, (j + m <= 4)%nat -> (i < n)%nat -> t0 <= t -> 0 <= x -> t + x <= te ->
    Rabs (cmp i (D j (t + x)) - tpoly (fun q => cmp i (D (j + q)%nat t)) m x) <= Bd * x ^ m) ->
  forall Dd, 0 <= Ca /\ 0 <= 0 /\ 0 <= Dd /\ 0 < h ->
  (forall x x', ab_inv rhs t0 te y m Ca 0 Dd h x -> core_of (E := E) m fuelc o rhs x = (Ret tt, x') -> ab_inv rhs t0 te y m Ca 0 Dd h x') ->
  sampled (solver_of (E := E) m fuelc o rhs tb) x tl vs x3 -> ab_inv rhs t0 te y m Ca 0 Dd h x -> now x3 <= te -> @is_sorted Rops tl = true ->
  (forall t tl', tl = t :: tl' -> buf_t0 (cache x) <= t) ->
  let e := acc Ca 0 Dd h (te - t0) in
  Forall2 (fun t v => near (5 * e + h * (L * e) + 4 * (Bd * h ^ 4)) v (y t)) tl vs.
Proof.
  intros Hm HB D0 HR HDl HDt Dd HP Cl Hs Hi Hn Ho Hw e.
  destruct (rk_table_tab m q Hm) as (A & B & C & Em & _).
  assert (Fx : is_fixed m = true) by now rewrite Em.
  assert (Hint : interp_of m rhs = interp_default) by now rewrite Em.
  assert (Hlen : len_history m = 2%nat) by now rewrite Em.
  revert Hi Hn Ho Hw.
  induction Hs as [|s ti l s1 a s2 tl vs s3 (Hch & Hlt) Hge Hin Hs IH]; intros Hi Hn Ho Hw; [constructor|].
  cbn [s_interp solver_of] in Hin. rewrite Hint in Hin. unfold interp_default in Hin. injection Hin as Hin <-.
  destruct (chain_mono (E := E) rhs t0 te y m Ca 0 Dd h fuelc o tb HP Fx Cl _ _ _ _ Hch Hi) as (I1 & L1).
  destruct (sampled_mono (E := E) rhs t0 te y m Ca 0 Dd h fuelc o tb HP Fx Cl Hint _ _ _ _ Hs I1) as (I3 & L3).
  assert (Hte1 : now s1 <= te) by lra. apply Rltb_false in Hge.
  assert (Hlo : buf_t0 (cache s1) <= ti).
  { destruct (upto_window (E := E) rhs t0 te y m Ca 0 Dd h fuelc o tb HP Fx Cl _ _ _ _ _ Hch Hlt Hi Hte1) as [(-> & ->)|H]; [|exact H].
    apply (Hw ti tl). reflexivity. }
  constructor.
  - pose proof I1 as (G & _ & Ht1 & Wn). specialize (Wn Hte1).
    pose proof G as ((Wb & _) & _). rewrite Hlen in Wb, Wn.
    assert (He : 0 <= e) by (apply acc_pos; lra).
    apply (hermite_hi rhs n L t0 te Bd y D HL HB D0 HR HDl HDt e (cache s1) h ti a); auto; try lra.
    + eapply wnear_mono; [|exact Wn]. unfold e. apply acc_mono; lra.
  - apply IH; auto.
    + destruct tl as [|b tl]; auto. change (leb ti b && is_sorted (b :: tl) = true) in Ho. now apply andb_true_iff in Ho as (_ & Ho).
    + intros t tl' ->. change (leb ti t && is_sorted (t :: tl') = true) in Ho. apply andb_true_iff in Ho as (Ho & _). apply Rleb_true in Ho. lra.
Qed.

Lemma C67_run_lemma m p : In (m, p) rk_table ->
  exists K, forall h g s0 fuelc o tb fuel cs s fuel' t rows s', 0 < h <= 1 -> garbage_ok m g ->
    init_rk m g rhs t0 (y t0) (Some h) = Ret s0 ->
    s = session (E := E) (solver_of (E := E) m fuelc o rhs tb) fuel cs s0 ->
    is_sorted t = true -> run (E := E) (solver_of (E := E) m fuelc o rhs tb) fuel' t s = (Ret rows, s') -> now s' <= te ->
    Forall (fun r => near (K * h ^ p) (snd r) (y (fst r))) rows.
Proof.
  intros Hm. assert (Hq : exists q, p = S q /\ (S q <= 4)%nat).
  { cbn in Hm. repeat (destruct Hm as [Hm|Hm]; [injection Hm as <- <-; eexists; split; [reflexivity|lia]|]). destruct Hm. }
  destruct Hq as (q & -> & Hq). destruct (hi_window m q Hm) as (Ca & HCa & H3).
  destruct (taylor_facts 5 rhs n t0 te y ltac:(lia) Hte HC) as (D & Bd & HB & D0 & DR & Dl & _ & Dt).
  destruct (rk_table_tab m (S q) Hm) as (A & B & C & Em & _).
  assert (Fx : is_fixed m = true) by now rewrite Em.
  assert (Hint : interp_of m rhs = interp_default) by now rewrite Em.
  set (K0 := accp Ca Ca 1 (te - t0)). assert (HK0 : 0 <= K0) by (apply accp_pos; lra).
  exists (5 * K0 + L * K0 + 4 * Bd).
  intros h g s0 fuelc o tb fuel cs s fuel' t rows s' Hh Hg Hi -> Hs Hr Hn.
  assert (HD : 0 <= Ca * h ^ q) by (apply Rmult_le_pos; auto; apply pow_le; lra).
  assert (HP : 0 <= Ca /\ 0 <= 0 /\ 0 <= Ca * h ^ q /\ 0 < h) by lra.
  pose proof (fun x x' => H3 h fuelc o x x' Hh) as Cl.
  destruct (base_near rhs t0 te y m g h s0 Hte ltac:(lra) Hg Hi) as (G & B1 & B2 & B3).
  assert (I0 : ab_inv rhs t0 te y m Ca 0 (Ca * h ^ q) h s0).
  { split; [exact G|]. split; [exact B1|]. rewrite B2. split; [lra|]. intros _. apply B3. apply acc_pos; lra. }
  apply (ab_inv_session (E := E) rhs t0 te y m Ca 0 (Ca * h ^ q) h fuelc o tb fuel cs s0 ltac:(lra) Cl Fx) in I0.
  set (s := session _ _ _ _) in *.
  destruct (C13_lemma m fuelc o rhs tb fuel' t s rows s' Hs Hr) as (s1 & R1 & R2 & R3).
  destruct (sampled_mono (E := E) rhs t0 te y m Ca 0 (Ca * h ^ q) h fuelc o tb HP Fx Cl Hint _ _ _ _ R2 I0) as (I1 & L1).
  assert (Hn1 : now s1 <= te).
  { destruct R3 as [(_ & ->)|(tj & _ & l & (Hch & _) & _)]; auto.
    destruct (chain_mono (E := E) rhs t0 te y m Ca 0 (Ca * h ^ q) h fuelc o tb HP Fx Cl _ _ _ _ Hch I1) as (_ & L2). lra. }
  rewrite <- (combine_split_id rows). apply (Forall2_combine (fun t v => near ((5 * K0 + L * K0 + 4 * Bd) * h ^ S q) v (y t))).
  pose proof (sampled_hi Bd D m (S q) Ca h fuelc o tb s _ _ _ Hm HB D0 DR ltac:(intros; apply Dl; auto; lia) ltac:(intros; apply Dt; auto; lia)
    (Ca * h ^ q) HP Cl R2 I0 Hn1) as Q.
  cbn zeta in Q. rewrite accp_acc in Q.
  assert (Hacc : accp Ca Ca (h ^ S q) (te - t0) = K0 * h ^ S q) by (unfold K0, accp; ring). rewrite Hacc in Q.
  eapply Forall2_imp; [|apply Q].
  - intros a b Hab. eapply near_mono; [|exact Hab].
    assert (P0 : 0 <= h ^ S q) by (apply pow_le; lra).
    assert (P1 : 0 <= L * (K0 * h ^ S q)) by (apply Rmult_le_pos; [apply HL|apply Rmult_le_pos; auto]).
    assert (P2 : h * (L * (K0 * h ^ S q)) <= 1 * (L * (K0 * h ^ S q))) by (apply Rmult_le_compat_r; lra).
    assert (P3 : h ^ 4 <= h ^ S q).
    { replace 4%nat with (S q + (4 - S q))%nat by lia. rewrite pow_add. rewrite <- (Rmult_1_r (h ^ S q)) at 2.
      apply Rmult_le_compat_l; auto. rewrite <- (pow1 (4 - S q)). apply pow_incr; lra. }
    assert (P4 : Bd * h ^ 4 <= Bd * h ^ S q) by (apply Rmult_le_compat_l; auto). lra.
  - rewrite R1. now apply sorted_firstn.
  - intros t1 tl' Ht. destruct t as [|ta tr]; [destruct rows; discriminate|].
    destruct rows as [|r rows]; [discriminate|]. rewrite R1 in Ht. cbn [length firstn] in Ht. injection Ht as -> _.
    rewrite run_sorted_eq in Hr by auto. destruct (ltb t1 _) eqn:e; [discriminate|]. apply Rltb_false in e. lra.
Qed.
End Run.
