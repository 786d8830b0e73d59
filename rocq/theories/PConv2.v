(** C33: Runge-Kutta classes over any sequence of calls. *)
From Coq Require Import List ZArith QArith Bool Arith Lia Reals Lra.
From Verif Require Import Base Scalar Vec MBuffer MZeros MSteps MApi MDop853 MClasses Laws Spec SpecInst
  PStep PKeeps PCore PHist PBound PVecR SpecRK PDim PRK PFwd PTerm SpecMS PMS PMS3 SpecOrder SpecConv PConv1.
Import ListNotations.
Open Scope R_scope.

Lemma rk_table_tab m p : In (m, p) rk_table -> exists (A : list (list R)) (B C : list R), m = @Erk Rops A B C /\
  length C = length A /\ A <> [] /\ tab_ok 10 A B C.
Proof.
  intros H. cbn [rk_table In] in H. destruct H as [H|[H|[H|[H|[H|[]]]]]]; injection H as <- _.
  all: eexists; eexists; eexists; (split; [reflexivity|]); (split; [reflexivity|]); (split; [discriminate|]).
  all: unfold tab_ok, litm; cbn [map]; rewrite ?Rops_lits, ?Rops_over; cbn [map skipn Qnum Qden].
  all: cbn [rows_ok firstn length sumR sumA fold_right].
  all: repeat split; try reflexivity; try lra.
  all: split_Rabs; lra.
Qed.

Section RK.
Context {E : @Env Rops}.
Variables (rhs : @rhs_t Rops) (n : nat) (L t0 te M : R) (y dy : R -> list R).
Hypothesis HL : lipschitz n L rhs.
Hypothesis HS : sol_ok n t0 te M y dy.
Hypothesis HD : forall t, t0 <= t <= te -> rhs t (y t) = Ret (dy t).

(** the invariant of a Runge-Kutta instance *)
Definition rk_inv (m : @meth Rops) (La D h : R) (x : @st Rops) : Prop :=
  good rhs m x /\ hstep x = h /\ t0 <= now x /\
  (now x <= te -> near (acc La 0 D h (now x - t0)) (state x) (y (now x))).

Lemma rk_inv_core m p : In (m, p) rk_table -> exists La D, 0 <= La /\ 0 <= D /\
  forall h fuelc o x x', 0 < h <= 1 -> rk_inv m La D h x -> core_of (E := E) m fuelc o rhs x = (Ret tt, x') ->
  rk_inv m La D h x' /\ now x' = now x + h /\ rhs (now x') (state x') = Ret (deriv x').
Proof.
  intros Hm. destruct (rk_table_tab m p Hm) as (A & B & C & -> & HC & HA & HT).
  destruct (rk_step_near rhs n L t0 te M y dy HL HS HD 10 A B C ltac:(lra) HT) as (La & D & H1 & H2 & H3).
  exists La, D. split; auto. split; auto. intros h fuelc o x x' Hh (G & Hx & Ht & Hn) Hc.
  pose proof (good_core (OT := Rops) (E := E) rhs (@Erk Rops A B C) fuelc o x G) as G'. rewrite Hc in G'. cbn [snd] in G'.
  pose proof (good_last _ _ _ G) as Hf. pose proof (good_last _ _ _ G') as Hf'.
  pose proof G as ((Wb & Ws) & _). cbn in Wb, Ws.
  cbn [core_of] in Hc. apply core_erk_iff in Hc as (K & y' & f' & Hs & Hr & ->); auto.
  change (@add Rops (now x) (hstep x)) with (now x + hstep x) in *. rewrite Hx in *.
  assert (En : forall s, now (mkst (@push Rops (cache x) (now x + h) y' f') h K s) = now x + h) by (intros; apply (push_t 1); exact Wb).
  assert (Ey : forall s, state (mkst (@push Rops (cache x) (now x + h) y' f') h K s) = y') by (intros; apply (push_y 1); exact Wb).
  unfold rk_inv. rewrite Hf', En, Ey. split; [|auto]. split; [exact G'|]. split; [reflexivity|]. split; [lra|].
  intros Hte. specialize (Hn ltac:(lra)).
  eapply near_mono; [|apply (H3 h (acc La 0 D h (now x - t0)) (now x) (state x) (deriv x) K y'); auto].
  - replace (now x + h - t0) with (now x - t0 + h) by lra. apply acc_step; lra.
  - apply acc_pos; lra.
Qed.

Lemma rk_inv_session m La D h fuelc o tb fuel cs s : 0 < h ->
  (forall x x', rk_inv m La D h x -> core_of (E := E) m fuelc o rhs x = (Ret tt, x') -> rk_inv m La D h x') -> is_fixed m = true ->
  rk_inv m La D h s -> rk_inv m La D h (session (E := E) (solver_of (E := E) m fuelc o rhs tb) fuel cs s).
Proof.
  intros Hh Hc Hf. apply session_inv.
  - intros b x _ _ Hx. cbn [s_core solver_of]. destruct (core_of m fuelc o rhs x) as [r x'] eqn:e. cbn [snd].
    destruct r as [[]| |]; [eapply Hc; eauto| |].
    all: pose proof e as e'; apply core_of_ok in e'; [|apply wf_stages; apply Hx].
    all: destruct e' as (_ & _ & E1 & E2); specialize (E1 Hf).
    all: destruct Hx as (G & G1 & G2 & G3); pose proof (good_core rhs m fuelc o x G) as G'; rewrite e in G'.
    all: split; [exact G'|]; unfold now, state in *; rewrite E1, E2; auto.
  - intros t x Hx. pose proof (good_interp rhs m t x (proj1 Hx)) as G'. cbn [s_interp solver_of] in *.
    destruct (interp_of m rhs t x) as [r x'] eqn:e. apply interp_of_ok in e as (E2 & E1 & _).
    destruct Hx as (G & G1 & G2 & G3). cbn [snd] in *. split; [exact G'|]; unfold now, state in *; rewrite E1, E2; auto.
Qed.

Lemma rk_inv_init m p La D g h s : In (m, p) rk_table -> t0 <= te -> 0 < h -> 0 <= D -> garbage_ok m g ->
  init_rk m g rhs t0 (y t0) (Some h) = Ret s -> rk_inv m La D h s /\ now s = t0.
Proof.
  intros Hm Hte Hh HDp Hg H. unfold init_rk in H. apply init_base_spec in H as (G & f & Hf & Hc & Hh0); auto. cbn in Hh0.
  destruct (len_history_pos m) as (k & Hk).
  assert (En : now s = t0). { unfold now, buf_t. rewrite Hc, Hk. apply last_repeat; lia. }
  assert (Es : state s = y t0). { unfold state, buf_y. rewrite Hc, Hk. apply last_repeat; lia. }
  unfold rk_inv. rewrite En, Es. split; [|auto]. split; [exact G|]. split; [exact Hh0|]. split; [lra|]. intros _.
  apply near_refl. apply acc_pos; lra.
Qed.
End RK.

Lemma C33_rk_lemma {E : @Env Rops} m p rhs n L t0 te y : In (m, p) rk_table -> lipschitz n L rhs -> t0 <= te -> C2_solution rhs n t0 te y ->
  exists K, forall h g s0 fuelc o tb fuel cs s, 0 < h <= 1 -> garbage_ok m g ->
    init_rk m g rhs t0 (y t0) (Some h) = Ret s0 ->
    s = session (E := E) (solver_of (E := E) m fuelc o rhs tb) fuel cs s0 -> now s <= te ->
    near (K * h) (state s) (y (now s)).
Proof.
  intros Hm HL Hte HC. destruct (C2_sol_ok rhs n t0 te y Hte (proj1 (proj2 HL)) HC) as (dy & M & HS & HD).
  destruct (rk_inv_core (E := E) rhs n L t0 te M y dy HL HS HD m p Hm) as (La & D & H1 & H2 & H3).
  exists (acc La 0 D 1 (te - t0)). intros h g s0 fuelc o tb fuel cs s Hh Hg Hi -> Hs.
  destruct (rk_inv_init rhs t0 te y m p La D g h s0 Hm Hte ltac:(lra) H2 Hg Hi) as (I0 & _).
  destruct (rk_table_tab m p Hm) as (A & B & C & Em & _).
  pose proof (rk_inv_session rhs t0 te y m La D h fuelc o tb fuel cs s0 ltac:(lra) (fun x x' I Hc => proj1 (H3 h fuelc o x x' Hh I Hc)) ltac:(now rewrite Em) I0) as (_ & _ & It & In).
  eapply near_mono; [|exact (In Hs)].
  eapply Rle_trans; [apply (acc_mono La 0 0 D h _ (te - t0)); lra|]. unfold acc. lra.
Qed.
