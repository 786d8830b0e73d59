(** C33: the theorems about run. *)
From Coq Require Import List ZArith QArith Bool Arith Lia Reals Lra.
From Verif Require Import Base Scalar Vec MBuffer MZeros MSteps MApi MDop853 MClasses Laws Spec SpecInst
  PStep PKeeps PCore PHist PRun PInterp PBound PVecR SpecRK PDim PRK PFwd PTerm SpecMS PMS PMS2 PRK2 PRK3 PMS3 SpecOrder SpecConv PConv1 PConv2 PConv3 PConv4 PConv5 PConv6.
Import ListNotations.
Open Scope R_scope.

Lemma rk_window {E : @Env Rops} rhs n L t0 te M y dy m p : lipschitz n L rhs -> sol_ok n t0 te M y dy ->
  (forall t, t0 <= t <= te -> rhs t (y t) = Ret (dy t)) -> In (m, p) rk_table -> exists La D, 0 <= La /\ 0 <= D /\
  forall h fuelc o x x', 0 < h <= 1 -> ab_inv rhs t0 te y m La 0 D h x -> core_of (E := E) m fuelc o rhs x = (Ret tt, x') ->
  ab_inv rhs t0 te y m La 0 D h x'.
Proof.
  intros HL HS HD Hm. destruct (rk_inv_core (E := E) rhs n L t0 te M y dy HL HS HD m p Hm) as (La & D & H1 & H2 & H3).
  destruct (rk_table_tab m p Hm) as (A & B & C & Em & _).
  exists La, D. split; auto. split; auto. intros h fuelc o x x' Hh Hi Hc.
  destruct (len_history_pos m) as (N & HN).
  assert (Ri : rk_inv rhs t0 te y m La D h x).
  { destruct Hi as (G & G1 & G2 & G3). split; [exact G|]. split; [exact G1|]. split; [exact G2|]. intros Ht. specialize (G3 Ht).
    rewrite HN in G3. exact (wnear_last rhs t0 y _ _ _ _ _ G3 eq_refl). }
  destruct (H3 h fuelc o x x' Hh Ri Hc) as ((G & G1 & G2 & G3) & Hn & Hr).
  split; [exact G|]. split; [exact G1|]. split; [exact G2|]. intros Ht. specialize (G3 Ht).
  assert (P3 : 0 <= La /\ 0 <= 0 /\ 0 <= D /\ 0 < h) by lra.
  destruct (core_push (E := E) rhs t0 te y m La 0 D h fuelc o) with (x := x) (x' := x') as (_ & y' & f' & Hp); auto.
  { now rewrite Em. }
  destruct Hi as ((Wg & _) & _ & T0 & W). rewrite Hn in Ht. specialize (W ltac:(lra)). pose proof Wg as (Wb & _). rewrite HN in *.
  assert (Ey : state x' = y') by (unfold state; rewrite Hp; exact (push_y (S N) _ _ _ _ Wb)).
  assert (Ef : deriv x' = f') by (unfold deriv; rewrite Hp; exact (push_f (S N) _ _ _ _ Wb)).
  rewrite Hp. rewrite Ey, Ef, Hn in Hr. rewrite Ey, Hn in G3. rewrite Hn.
  apply (wnear_push rhs t0 y (S N) (acc La 0 D h (now x - t0))); auto; try lra. apply acc_mono; lra.
Qed.

Lemma C33_rk_run_lemma {E : @Env Rops} m p rhs n L t0 te y : In (m, p) rk_table -> lipschitz n L rhs -> t0 <= te -> C2_solution rhs n t0 te y ->
  exists K, forall h g s0 fuelc o tb fuel cs s fuel' t rows s', 0 < h <= 1 -> garbage_ok m g ->
    init_rk m g rhs t0 (y t0) (Some h) = Ret s0 ->
    s = session (E := E) (solver_of (E := E) m fuelc o rhs tb) fuel cs s0 ->
    is_sorted t = true -> run (E := E) (solver_of (E := E) m fuelc o rhs tb) fuel' t s = (Ret rows, s') -> now s' <= te ->
    Forall (fun r => near (K * h) (snd r) (y (fst r))) rows.
Proof.
  intros Hm HL Hte HC. destruct (C2_sol_ok rhs n t0 te y Hte (proj1 (proj2 HL)) HC) as (dy & M & HS & HD).
  destruct (rk_window (E := E) rhs n L t0 te M y dy m p HL HS HD Hm) as (La & D & H1 & H2 & H3).
  destruct (rk_table_tab m p Hm) as (A & B & C & Em & _).
  assert (Fx : is_fixed m = true) by now rewrite Em.
  destruct (run_near (E := E) rhs n L t0 te M y dy m La 0 D Hte HL HS HD ltac:(lra) Fx ltac:(now rewrite Em)) as (K & HK).
  exists K. intros h g s0 fuelc o tb fuel cs s fuel' t rows s' Hh Hg Hi -> Hs Hr Hn.
  destruct (base_near rhs t0 te y m g h s0 Hte ltac:(lra) Hg Hi) as (G & B1 & B2 & B3).
  assert (I0 : ab_inv rhs t0 te y m La 0 D h s0).
  { split; [exact G|]. split; [exact B1|]. rewrite B2. split; [lra|]. intros _. apply B3. apply acc_pos; lra. }
  refine (HK h fuelc o tb fuel' t rows _ s' Hh (fun x x' => H3 h fuelc o x x' Hh) _ Hs Hr Hn).
  apply ab_inv_session; auto; [lra|]. intros x x'. exact (H3 h fuelc o x x' Hh).
Qed.

Lemma C33_ab_run_lemma {E : @Env Rops} k m bs start rhs n L t0 te y : In (k, m, bs) ab_table ->
  (forall m1, start = Some m1 -> exists p, In (m1, p) rk_table) ->
  lipschitz n L rhs -> t0 <= te -> C2_solution rhs n t0 te y ->
  exists K, forall h g fs s0 fuel0 fuelc o tb fuel cs s fuel' t rows s', 0 < h <= 1 -> garbage_ok m g ->
    starts (E := E) rhs t0 (y t0) h start fs -> init_ms (E := E) m g rhs t0 (y t0) (Some h) fs fuel0 = Ret s0 ->
    s = session (E := E) (solver_of (E := E) m fuelc o rhs tb) fuel cs s0 ->
    is_sorted t = true -> run (E := E) (solver_of (E := E) m fuelc o rhs tb) fuel' t s = (Ret rows, s') -> now s' <= te ->
    Forall (fun r => near (K * h) (snd r) (y (fst r))) rows.
Proof.
  intros Hm Hst HL Hte HC. destruct (C2_sol_ok rhs n t0 te y Hte (proj1 (proj2 HL)) HC) as (dy & M & HS & HD).
  destruct (ab_inv_start (E := E) rhs n L t0 te M y dy HL HS HD start Hte Hst) as (E0 & HE & H0).
  destruct (ab_table_spec _ _ _ Hm) as (A & Em & _). assert (Fx : is_fixed m = true) by now rewrite Em.
  assert (0 <= ab_La L bs) by (eapply ab_La_pos; eauto). assert (0 <= ab_D M m bs) by (eapply ab_D_pos; eauto).
  destruct (run_near (E := E) rhs n L t0 te M y dy m (ab_La L bs) E0 (ab_D M m bs) Hte HL HS HD ltac:(lra) Fx ltac:(now rewrite Em)) as (K & HK).
  exists K. intros h g fs s0 fuel0 fuelc o tb fuel cs s fuel' t rows s' Hh Hg Hs Hi -> Ho Hr Hn.
  specialize (H0 k m bs g h fs fuel0 s0 Hm Hh Hg Hs Hi).
  assert (Cl : forall x x', ab_inv rhs t0 te y m (ab_La L bs) E0 (ab_D M m bs) h x -> core_of (E := E) m fuelc o rhs x = (Ret tt, x') ->
    ab_inv rhs t0 te y m (ab_La L bs) E0 (ab_D M m bs) h x').
  { intros x x' I Hc. exact (ab_inv_core (E := E) rhs n L t0 te M y dy HL HS HD k m bs E0 h fuelc o x x' Hm HE Hh I Hc). }
  refine (HK h fuelc o tb fuel' t rows _ s' Hh Cl _ Ho Hr Hn).
  apply ab_inv_session; auto. lra.
Qed.
