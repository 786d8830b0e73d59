(** Global error of the fixed step Runge-Kutta classes: O(h^p). *)
From Coq Require Import List ZArith QArith Bool Arith Lia Reals Lra.
From Verif Require Import Base Scalar Vec MBuffer MZeros MSteps MApi MDop853 MClasses Laws Spec SpecInst
  PStep PKeeps PCore PHist PBound PVecR SpecRK PDim PRK PFwd PTerm SpecMS PMS PMS3 SpecOrder SpecConv PConv1 PConv2 SpecConv3 PHi1 PHi2 PHi3.
Import ListNotations.
Open Scope R_scope.

Lemma rk_table_tab4 m p : In (m, p) rk_table -> exists (A : list (list R)) (B C : list R), m = @Erk Rops A B C /\
  length C = length A /\ A <> [] /\ tab4 p A B C.
Proof.
  intros H. cbn [rk_table In] in H. destruct H as [H|[H|[H|[H|[H|[]]]]]]; injection H as <- <-.
  all: eexists; eexists; eexists; (split; [reflexivity|]); (split; [reflexivity|]); (split; [discriminate|]).
  all: unfold tab4, litm; cbn [map]; rewrite ?Rops_lits, ?Rops_over; cbn [map skipn Qnum Qden].
  all: split; [lia|]; split; [cbn [rows4 firstn length sumR fold_right]; repeat split; lra|]; split; [reflexivity|].
  all: unfold conds, sds, next_sd, sd0; cbn [length firstn List.app map dot s_c s_al s_be s_ga sumR fold_right].
  all: split; [split; lra|]; split; intros Hp; try (exfalso; lia); repeat split; lra.
Qed.

(** ** accumulation *)
Definition accp (La D eta x : R) : R := exp (La * x) * (x * D) * eta.
Lemma accp_step La D eta h x : 0 <= La -> 0 <= D -> 0 <= eta -> 0 < h -> 0 <= x ->
  (1 + h * La) * accp La D eta x + D * (h * eta) <= accp La D eta (x + h).
Proof.
  intros H1 H3 He H4 H5. unfold accp. rewrite (Rmult_plus_distr_l La x h), exp_plus.
  pose proof (exp_ge (La * h)) as G. pose proof (exp_pos (La * x)) as P.
  assert (P0 : 0 <= La * x) by (apply Rmult_le_pos; lra). assert (P1 : 0 <= La * h) by (apply Rmult_le_pos; lra).
  pose proof (exp_ge (La * x)) as G'.
  assert (Q0 : 0 <= x * D) by (apply Rmult_le_pos; lra).
  assert (Q : 0 <= exp (La * x) * (x * D) * eta) by (repeat apply Rmult_le_pos; lra).
  assert (Q1 : (1 + h * La) * (exp (La * x) * (x * D) * eta) <= exp (La * h) * (exp (La * x) * (x * D) * eta))
    by (apply Rmult_le_compat_r; lra).
  assert (Q2 : 1 <= exp (La * x) * exp (La * h)). { rewrite <- (Rmult_1_l 1) at 1. apply Rmult_le_compat; lra. }
  assert (Q3 : 0 <= D * (h * eta)) by (repeat apply Rmult_le_pos; lra).
  assert (Q4 : 1 * (D * (h * eta)) <= exp (La * x) * exp (La * h) * (D * (h * eta))) by (apply Rmult_le_compat_r; lra).
  lra.
Qed.
Lemma accp_mono La D eta x x' : 0 <= La -> 0 <= D -> 0 <= eta -> 0 <= x <= x' -> accp La D eta x <= accp La D eta x'.
Proof.
  intros H1 H3 H4 H5. unfold accp. apply Rmult_le_compat_r; [lra|].
  assert (0 <= x * D) by (apply Rmult_le_pos; lra). assert (x * D <= x' * D) by (apply Rmult_le_compat_r; lra).
  apply Rmult_le_compat; [left; apply exp_pos|lra| |lra].
  destruct (Req_dec (La * x) (La * x')) as [->|Hn]; [lra|]. left. apply exp_increasing.
  assert (La * x <= La * x') by (apply Rmult_le_compat_l; lra). lra.
Qed.
Lemma accp_pos La D eta x : 0 <= D -> 0 <= eta -> 0 <= x -> 0 <= accp La D eta x.
Proof. intros. unfold accp. repeat apply Rmult_le_pos; try lra. left; apply exp_pos. Qed.

Section RK.
Context {E : @Env Rops}.
Variables (rhs : @rhs_t Rops) (n : nat) (L t0 te : R) (y : R -> list R).
Hypothesis HL : lipschitz n L rhs.
Hypothesis Hte : t0 <= te.
Hypothesis HC : Ck_solution 5 rhs n t0 te y.
Hypothesis HJ : smooth_along rhs n t0 te y.

Definition hi_inv (m : @meth Rops) (Ca eta h : R) (x : @st Rops) : Prop :=
  good rhs m x /\ hstep x = h /\ t0 <= now x /\
  (now x <= te -> near (accp Ca Ca eta (now x - t0)) (state x) (y (now x))).

Lemma hi_inv_core m p : In (m, p) rk_table -> exists Ca, 0 <= Ca /\
  forall h fuelc o x x', 0 < h <= 1 -> hi_inv m Ca (h ^ p) h x -> core_of (E := E) m fuelc o rhs x = (Ret tt, x') ->
  hi_inv m Ca (h ^ p) h x' /\ now x' = now x + h /\ rhs (now x') (state x') = Ret (deriv x').
Proof.
  intros Hm. destruct (rk_table_tab4 m p Hm) as (A & B & C & -> & HCA & HA & HT).
  destruct (rk_step_hi rhs n L t0 te y p A B C HL Hte HC HJ HT) as (Ca & H1 & H3).
  exists Ca. split; auto. intros h fuelc o x x' Hh (G & Hx & Ht & Hn) Hc.
  pose proof (good_core (OT := Rops) (E := E) rhs (@Erk Rops A B C) fuelc o x G) as G'. rewrite Hc in G'. cbn [snd] in G'.
  pose proof (good_last _ _ _ G) as Hf. pose proof (good_last _ _ _ G') as Hf'.
  pose proof G as ((Wb & Ws) & _). cbn in Wb, Ws.
  cbn [core_of] in Hc. apply core_erk_iff in Hc as (K & y' & f' & Hs & Hr & ->); auto.
  change (@add Rops (now x) (hstep x)) with (now x + hstep x) in *. rewrite Hx in *.
  assert (En : forall s, now (mkst (@push Rops (cache x) (now x + h) y' f') h K s) = now x + h) by (intros; apply (push_t 1); exact Wb).
  assert (Ey : forall s, state (mkst (@push Rops (cache x) (now x + h) y' f') h K s) = y') by (intros; apply (push_y 1); exact Wb).
  unfold hi_inv. rewrite Hf', En, Ey. split; [|auto]. split; [exact G'|]. split; [reflexivity|]. split; [lra|].
  intros Hte'. specialize (Hn ltac:(lra)).
  assert (Hp : 0 <= h ^ p) by (apply pow_le; lra).
  eapply near_mono; [|apply (H3 h (accp Ca Ca (h ^ p) (now x - t0)) (now x) (state x) (deriv x) K y'); auto].
  - replace (now x + h - t0) with (now x - t0 + h) by lra. apply accp_step; lra.
  - apply accp_pos; lra.
Qed.
Lemma hi_inv_session m Ca eta h fuelc o tb fuel cs s :
  (forall x x', hi_inv m Ca eta h x -> core_of (E := E) m fuelc o rhs x = (Ret tt, x') -> hi_inv m Ca eta h x') -> is_fixed m = true ->
  hi_inv m Ca eta h s -> hi_inv m Ca eta h (session (E := E) (solver_of (E := E) m fuelc o rhs tb) fuel cs s).
Proof.
  intros Hc Hf. apply session_inv.
  - intros b x _ _ Hx. cbn [s_core solver_of]. destruct (core_of m fuelc o rhs x) as [r x'] eqn:e. cbn [snd].
    destruct r as [[]| |]; [eapply Hc; eauto| |].
    all: pose proof e as e'; apply core_of_ok in e'; [|apply wf_stages; apply Hx].
    all: destruct e' as (_ & _ & E1 & E2); specialize (E1 Hf).
    all: destruct Hx as (G & G1 & G2 & G3); pose proof (good_core rhs m fuelc o x G) as G'; rewrite e in G'.
    all: split; [exact G'|]; unfold now, state in *; rewrite E1, E2; auto.
  - intros t x Hx. pose proof (good_interp rhs m t x (proj1 Hx)) as G'. cbn [s_interp solver_of] in *.
    destruct (interp_of m rhs t x) as [r x'] eqn:e. apply interp_of_ok in e as (E2 & E1 & _).
    destruct Hx as (G & G1 & G2 & G3). cbn [snd] in *. split; [exact G'|]; unfold now, state in *; rewrite E1, E2; auto.
Qed.
Lemma hi_inv_init m Ca eta g h s : 0 <= Ca -> 0 <= eta -> garbage_ok m g ->
  init_rk m g rhs t0 (y t0) (Some h) = Ret s -> hi_inv m Ca eta h s /\ now s = t0.
Proof.
  intros HDp Heta Hg H. unfold init_rk in H. apply init_base_spec in H as (G & f & Hf & Hc & Hh0); auto. cbn in Hh0.
  destruct (len_history_pos m) as (k & Hk).
  assert (En : now s = t0). { unfold now, buf_t. rewrite Hc, Hk. apply last_repeat; lia. }
  assert (Es : state s = y t0). { unfold state, buf_y. rewrite Hc, Hk. apply last_repeat; lia. }
  unfold hi_inv. rewrite En, Es. split; [|auto]. split; [exact G|]. split; [exact Hh0|]. split; [lra|]. intros _.
  apply near_refl. apply accp_pos; lra.
Qed.
Lemma C67_lemma m p : In (m, p) rk_table ->
  exists K, forall h g s0 fuelc o tb fuel cs s, 0 < h <= 1 -> garbage_ok m g ->
    init_rk m g rhs t0 (y t0) (Some h) = Ret s0 ->
    s = session (E := E) (solver_of (E := E) m fuelc o rhs tb) fuel cs s0 -> now s <= te ->
    near (K * h ^ p) (state s) (y (now s)).
Proof.
  intros Hm. destruct (hi_inv_core m p Hm) as (Ca & H1 & H3).
  exists (accp Ca Ca 1 (te - t0)). intros h g s0 fuelc o tb fuel cs s Hh Hg Hi -> Hs.
  assert (Hp : 0 <= h ^ p) by (apply pow_le; lra).
  destruct (hi_inv_init m Ca (h ^ p) g h s0 H1 Hp Hg Hi) as (I0 & _).
  destruct (rk_table_tab4 m p Hm) as (A & B & C & Em & _).
  pose proof (hi_inv_session m Ca (h ^ p) h fuelc o tb fuel cs s0 (fun x x' I Hc => proj1 (H3 h fuelc o x x' Hh I Hc)) ltac:(now rewrite Em) I0) as (_ & _ & It & In).
  eapply near_mono; [|exact (In Hs)].
  eapply Rle_trans; [apply (accp_mono Ca Ca (h ^ p) _ (te - t0)); lra|]. unfold accp. lra.
Qed.
End RK.
