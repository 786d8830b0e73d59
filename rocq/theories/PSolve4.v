(** C86 for RungeKutta23 and RungeKutta45. *)
From Coq Require Import List ZArith QArith Bool Arith Lia Reals Lra.
From Verif Require Import Base Scalar Vec MBuffer MZeros MSteps MApi MClasses Laws Spec SpecInst
  PStep PKeeps PCore PHist PBound PVecR SpecRK PRK PDim PRun PRun2 PRun3 PFwd PTerm SpecMS PMS PMS2 PMS7 SpecDense PDense PC2 PTop2 SpecOrder SpecConv SpecConv3 SpecLmm SpecLive
  PConv1 PConv2 PHi1 PHi3 PLmm7 SpecCtl SpecVar PConv9 PVar3 SpecVL PVL3 PVL4 PVL5 SpecSolve PSolve1 PSolve2 PSolve3.
Import ListNotations.
Open Scope R_scope.

(** a solution bounds the right-hand side at 0 *)
Lemma solution_bounds k rhs n L t0 te y : (1 <= k)%nat -> lipschitz n L rhs -> defined_on n rhs -> t0 <= te -> Ck_solution k rhs n t0 te y ->
  exists M, bounded_at_zero n M t0 (@Fin Rops te) rhs.
Proof.
  intros Hk (PL & HK & HL) Hd Hte HC. destruct (taylor_facts k rhs n t0 te y Hk Hte HC) as (D & Bd & PB & D0 & DR & Dl & Db & _).
  exists (Bd + L * Bd). intros t Ht Hg. cbn in Hg. apply Rltb_false in Hg. assert (Ht' : t0 <= t <= te) by lra.
  destruct (Hd t (repeat 0 n) (repeat_length _ _)) as (f & Hf). exists f. split; [exact Hf|].
  assert (N : near Bd (repeat 0 n) (D 0%nat t)).
  { split; [rewrite repeat_length; symmetry; apply Dl; auto; lia|]. rewrite repeat_length. intros i Hi.
    replace (cmp i (repeat 0 n)) with 0 by (symmetry; apply nth_repeat). rewrite Rminus_0_l.
    rewrite Rabs_Ropp. apply Db; auto; lia. }
  pose proof (HL t _ _ _ _ _ (repeat_length 0 n) (Dl t 0%nat Ht' ltac:(lia)) N Hf (DR t Ht')) as (Q1 & Q2).
  intros i Hi. pose proof (HK _ _ _ (repeat_length 0 n) Hf) as Lf. specialize (Q2 i (eq_ind_r (fun q => (i < q)%nat) Hi Lf)).
  pose proof (Db t 1%nat i Ht' ltac:(lia) Hi) as Q3.
  replace (cmp i f) with ((cmp i f - cmp i (D 1%nat t)) + cmp i (D 1%nat t)) by (match goal with |- @eq _ ?a ?b => change (@eq R a b) end; ring).
  eapply Rle_trans; [apply Rabs_triang|]. rewrite (Rplus_comm Bd). apply Rplus_le_compat; [exact Q2|exact Q3].
Qed.

Section V.
Context {E : @Env Rops}.
Variables (rhs : @rhs_t Rops) (n : nat) (L t0 te : R) (y : R -> list R).
Hypothesis HL : lipschitz n L rhs.
Hypothesis Hd : defined_on n rhs.
Hypothesis Hte : t0 <= te.

Lemma init_pair m g (o : @options Rops) sel (h : R) : In m pairs -> length (y t0) = n -> tolerances o -> (forall x : R, max_step o = @Fin Rops x -> 0 < x) -> garbage_ok m g ->
  exists s0, init_var m g rhs t0 (y t0) o sel (Some h) = Ret s0 /\ hstep s0 = h /\ now s0 = t0 /\ buf_t0 (cache s0) = t0.
Proof.
  intros Hm Ly Ho Hmx Hg. destruct (Hd t0 (y t0) Ly) as (f & Hf).
  destruct (init_base (OT := Rops) m g rhs t0 (y t0) None) as [s1| |] eqn:Hi; [|unfold init_base in Hi; rewrite Hf in Hi; discriminate|unfold init_base in Hi; rewrite Hf in Hi; discriminate].
  destruct (init_base_spec _ _ _ _ _ _ _ Hg Hi) as (_ & f' & _ & Ec & _).
  unfold init_var. rewrite Hi. cbn [obind].
  assert (Q1 : (match max_step o with Fin x => @leb Rops x zero | PInf => false end) = false).
  { destruct (max_step o) as [x|]; [|reflexivity]. specialize (Hmx x eq_refl). change (Rleb x (@zero Rops) = false). rewrite zero_R. destruct (Rleb x 0) eqn:e; [|reflexivity]. apply Rleb_true in e. lra. }
  rewrite Q1. assert (Q2 : @ltb Rops (atol o) zero = false) by (change (Rltb (atol o) (@zero Rops) = false); rewrite zero_R; apply Rltb_false; left; apply Ho). rewrite Q2. cbn [obind].
  destruct Hm as [<-|[<-|[]]]; (eexists; split; [reflexivity|]; split; [reflexivity|]; unfold now, buf_t, buf_t0; cbn [cache rk_update set_interp set_h]; rewrite Ec; split; reflexivity).
Qed.

Lemma var_solves k m o h0 : (1 <= k)%nat -> Ck_solution k rhs n t0 te y -> (1 <= n)%nat -> In m pairs -> tolerances o -> shrinking o -> 0 < h0 ->
  exists N, forall g sel first s0 fuelc fuel cs s t, garbage_ok m g -> init_var m g rhs t0 (y t0) o sel first = Ret s0 -> hstep s0 = h0 -> (N <= fuelc)%nat ->
    s = session (E := E) (solver_of (E := E) m fuelc o rhs (@Fin Rops te)) fuel cs s0 -> now s <= te -> askable s te t ->
    exists N' rows s', (forall fuel', (N' <= fuel')%nat -> run (E := E) (solver_of (E := E) m fuelc o rhs (@Fin Rops te)) fuel' t s = (Ret rows, s')) /\
      (map fst rows = t \/ would_pass (@Fin Rops te) s' /\ now s' < last t 0) /\ now s' <= te.
Proof.
  intros Hk1 HC Hn Hm Ho Hs Hh. destruct (solution_bounds k rhs n L t0 te y Hk1 HL Hd Hte HC) as (M & HM).
  destruct (live_all (E := E) rhs n L M t0 te (@Fin Rops te) m o (y t0) h0 HL Hd HM Hte Hn Hm Ho Hs (Ck_dim _ _ _ _ _ _ HC Hte) Hh) as (fl & N & I & Hfl & H).
  exists N. intros g sel first s0 fuelc fuel cs s t Hg Hi Hh0 Hfu -> Hnow (T1 & T2 & T3).
  destruct (H fuelc Hfu) as (H1 & H2 & _ & _ & H5 & H6). pose proof (H2 fuel cs s0 (H1 _ _ _ _ Hg Hi Hh0)) as Is.
  match type of Is with I _ ?x => set (s := x) in * end.
  destruct (run_returns (E := E) m fuelc o rhs (@Fin Rops te) (fun x => I fuelc x /\ now x <= te) fl (last t 0) Hfl) with (s := s) (t := t) as (N' & rows & s' & Q1 & (_ & Q2) & Q3); auto.
  - intros x (Ix & Nx) Hw _. destruct (H5 x Ix Hw Nx) as (x' & C1 & C2 & C3 & C4). exists x'. split; [exact C1|]. split; [|auto]. split; [exact C2|].
    unfold would_pass in Hw. cbn in Hw. destruct (Rltb te (now x + hstep x)) eqn:e; [exfalso; now apply Hw|]. apply Rltb_false in e. lra.
  - intros ti x (Ix & Nx) Hti. destruct (H6 ti x Ix Hti) as (a & x' & A1 & A2 & A3). exists a, x'. split; [exact A1|]. split; [|exact A3]. split; [exact A2|]. unfold now in *. now rewrite A3.
  - intros x Hx. split; [|cbn; apply Rltb_false; apply T3; exact Hx]. split; [apply T3; exact Hx|].
    destruct (sorted_last_ge (OT := Rops) t x T2 Hx) as [Q|Q]; [apply Rleb_true in Q; eapply Rle_trans; [exact Q|]|rewrite Q; cbn [last]; lra].
    right. destruct (exists_last T1) as (l & a & ->). rewrite !last_last. reflexivity.
  - exists N', rows, s'. split; [exact Q1|]. split; [|exact Q2]. exact Q3.
Qed.

Definition rows_within (m : @meth Rops) (eps : R -> R) : Prop := forall H g o sel first s0 fuelc tb fuel cs s fuel' t rows s', 0 < H <= 1 -> sane o -> garbage_ok m g ->
    init_var m g rhs t0 (y t0) o sel first = Ret s0 -> 0 <= hstep s0 ->
    steps_at_most H te (solver_of (E := E) m fuelc o rhs tb) s0 ->
    returns (E := E) (solver_of (E := E) m fuelc o rhs tb) fuel cs s0 s ->
    is_sorted t = true -> run (E := E) (solver_of (E := E) m fuelc o rhs tb) fuel' t s = (Ret rows, s') -> now s' <= te ->
    Forall (fun r => near (eps H) (snd r) (y (fst r))) rows.
Lemma var_accurate k m eps : (1 <= k)%nat -> Ck_solution k rhs n t0 te y -> In m pairs -> (1 <= n)%nat -> rows_within m eps ->
  forall (o : @options Rops) h0, tolerances o -> shrinking o -> (forall x : R, max_step o = @Fin Rops x -> 0 < x) -> 0 < h0 ->
  exists N, forall g sel, garbage_ok m g -> exists s0, init_var m g rhs t0 (y t0) o sel (Some h0) = Ret s0 /\ now s0 = t0 /\ buf_t0 (cache s0) = t0 /\
    forall H fuelc fuel cs s t, 0 < H <= 1 -> (N <= fuelc)%nat ->
    steps_at_most H te (solver_of (E := E) m fuelc o rhs (@Fin Rops te)) s0 ->
    returns (E := E) (solver_of (E := E) m fuelc o rhs (@Fin Rops te)) fuel cs s0 s -> now s <= te -> askable s te t ->
    exists N' rows s', (forall fuel', (N' <= fuel')%nat -> run (E := E) (solver_of (E := E) m fuelc o rhs (@Fin Rops te)) fuel' t s = (Ret rows, s')) /\
      (map fst rows = t \/ would_pass (@Fin Rops te) s' /\ now s' < last t 0) /\ Forall (fun r => near (eps H) (snd r) (y (fst r))) rows.
Proof.
  intros Hk1 HC Hm' Hn HK o h0 Ho Hs Hmx Hh.
  destruct (var_solves k m o h0 Hk1 HC Hn Hm' Ho Hs Hh) as (N & HN). exists N. intros g sel Hg.
  destruct (init_pair m g o sel h0 Hm' (Ck_dim _ _ _ _ _ _ HC Hte) Ho Hmx Hg) as (s0 & Hi & Hh0 & Hn0 & Hb0). exists s0. split; [exact Hi|]. split; [exact Hn0|]. split; [exact Hb0|].
  intros H fuelc fuel cs s t HH Hfu Hst Hret Hnow Ht.
  destruct (HN g sel (Some h0) s0 fuelc fuel cs s t Hg Hi Hh0 Hfu (eq_sym (returns_session _ _ _ _ _ Hret)) Hnow Ht) as (N' & rows & s' & Q1 & Q2 & Q3).
  exists N', rows, s'. split; [exact Q1|]. split; [exact Q2|].
  apply (HK H g o sel (Some h0) s0 fuelc (@Fin Rops te) fuel cs s N' t rows s'); auto; [now apply shrinking_sane|rewrite Hh0; lra|apply Ht].
Qed.
Lemma C86_variable_lemma m p : Ck_solution 5 rhs n t0 te y -> smooth_along rhs n t0 te y -> In (m, p) var_table -> (1 <= n)%nat ->
  exists K, forall (o : @options Rops) h0, tolerances o -> shrinking o -> (forall x : R, max_step o = @Fin Rops x -> 0 < x) -> 0 < h0 ->
  exists N, forall g sel, garbage_ok m g -> exists s0, init_var m g rhs t0 (y t0) o sel (Some h0) = Ret s0 /\ now s0 = t0 /\ buf_t0 (cache s0) = t0 /\
    forall H fuelc fuel cs s t, 0 < H <= 1 -> (N <= fuelc)%nat ->
    steps_at_most H te (solver_of (E := E) m fuelc o rhs (@Fin Rops te)) s0 ->
    returns (E := E) (solver_of (E := E) m fuelc o rhs (@Fin Rops te)) fuel cs s0 s -> now s <= te -> askable s te t ->
    exists N' rows s', (forall fuel', (N' <= fuel')%nat -> run (E := E) (solver_of (E := E) m fuelc o rhs (@Fin Rops te)) fuel' t s = (Ret rows, s')) /\
      (map fst rows = t \/ would_pass (@Fin Rops te) s' /\ now s' < last t 0) /\ Forall (fun r => near (K * H ^ p) (snd r) (y (fst r))) rows.
Proof.
  intros HC HJ Hm Hn. destruct (C71_run_lemma (E := E) rhs n L t0 te y HL Hte HC HJ m p Hm) as (K & HK). exists K. apply (var_accurate 5 m (fun H => K * H ^ p) ltac:(lia) HC); auto.
  destruct Hm as [[= <- _]|[[= <- _]|[]]]; cbn; auto.
Qed.
End V.
