(** C94: with max_factor at most 1 no step is longer than the first one. *)
From Coq Require Import List ZArith QArith Bool Arith Lia Reals Lra.
From Verif Require Import Base Scalar Vec MBuffer MZeros MSteps MApi MDop853 MClasses Laws Spec SpecInst SpecVar
  PStep PKeeps PClean PCore PHist PBound PVecR.
Import ListNotations.
Open Scope R_scope.

Section G.
Context {E : @Env Rops}.
Lemma update_cap en (o : @options Rops) e (s : @st Rops) r s' : sane o -> max_factor o <= 1 -> 0 <= hstep s -> step_update (OT := Rops) en o e s = (r, s') -> 0 <= hstep s' <= hstep s.
Proof.
  intros (H1 & H2 & H3) Hm Hh H. unfold step_update in H.
  assert (W : forall f, 0 <= f <= max_factor o -> 0 <= hstep s * f <= hstep s).
  { intros f Hf. split; [apply Rmult_le_pos; lra|]. rewrite <- (Rmult_1_r (hstep s)) at 2. apply Rmult_le_compat_l; lra. }
  destruct (eqb en zero) eqn:e0.
  - inv H. cbn. apply W. lra.
  - unfold bind, lift in H. destruct (sdiv (safety_factor o) (powT en e)) as [f| |] eqn:ed; inv H; try lra.
    cbn. rewrite pymin_R, pymax_R. apply W. split; [|apply Rmin_l]. apply Rmin_glb; [exact H2|]. eapply Rle_trans; [apply H1|apply Rmax_l].
Qed.
Lemma core_cap fuel : forall A B C norm (o : @options Rops) e rhs (s : @st Rops) r s', sane o -> max_factor o <= 1 -> 0 <= hstep s ->
  core_fsal (OT := Rops) fuel A B C norm o e rhs s = (r, s') -> 0 <= hstep s' <= hstep s.
Proof.
  induction fuel; intros A B C norm o e rhs s r s' Ho Hm Hh H; cbn [core_fsal] in H.
  - inv H. lra.
  - unfold bind in H. destruct (fsal_fixed_step A B C rhs s) as [r1 s1] eqn:e1. apply frame_fsal_fixed in e1 as ((F1 & F2 & F3 & F4) & Hty).
    destruct r1 as [[t y]| |]; try (inv H; rewrite F2; lra). cbn [lift get] in H.
    destruct (norm o y s1) as [en| |]; cbn in H; try (inv H; rewrite F2; lra).
    destruct (step_update en o e s1) as [ok s2] eqn:eu. apply update_cap in eu; auto; [|now rewrite F2]. rewrite F2 in eu.
    destruct ok as [[]| |]; try (inv H; lra).
    + cbn in H. inv H. cbn. exact eu.
    + apply IHfuel in H; auto; [lra|apply eu].
Qed.
End G.

Section S.
Context {E : @Env Rops}.
Variables (rhs : @rhs_t Rops) (m : @meth Rops) (fuelc : nat) (o : @options Rops) (tb : @ext Rops).
Hypothesis Hf : is_fixed m = false.
Hypothesis Ho : sane o.
Hypothesis Hm : max_factor o <= 1.

Lemma cap_core x : good rhs m x -> 0 <= hstep x -> 0 <= hstep (snd (core_of (E := E) m fuelc o rhs x)) <= hstep x /\
  now x <= now (snd (core_of (E := E) m fuelc o rhs x)) <= now x + hstep x.
Proof.
  intros G Hx. destruct (len_history_pos m) as (k & Hk). destruct G as ((G & _) & _). rewrite Hk in G.
  destruct (core_of m fuelc o rhs x) as [r x'] eqn:e. cbn [snd].
  destruct m; try discriminate; cbn [core_of] in e;
  (split; [exact (core_cap _ _ _ _ _ _ _ _ _ _ _ Ho Hm Hx e)|exact (proj2 (core_fsal_R _ _ _ _ _ _ _ _ _ _ _ _ Ho (error_exponent_pos _) G e Hx))]).
Qed.
Lemma cap_session s0 fuel cs : good rhs m s0 -> 0 <= hstep s0 -> 0 <= hstep (session (E := E) (solver_of (E := E) m fuelc o rhs tb) fuel cs s0) <= hstep s0.
Proof.
  intros G0 H0. apply (session_inv (solver_of m fuelc o rhs tb) (fun x => good rhs m x /\ 0 <= hstep x <= hstep s0)).
  - intros b x _ Hw (Gx & Hx). split; [now apply good_core|]. cbn [s_core solver_of]. destruct (cap_core x Gx (proj1 Hx)) as (C1 & _). lra.
  - intros t x (Gx & Hx). split; [now apply good_interp|]. cbn [s_interp solver_of]. destruct (interp_of m rhs t x) as [r x'] eqn:e. apply interp_of_ok in e as (A & B & _). cbn. rewrite B. exact Hx.
  - split; [exact G0|lra].
Qed.
Lemma cap_steps s0 te : good rhs m s0 -> 0 <= hstep s0 -> steps_at_most (hstep s0) te (solver_of (E := E) m fuelc o rhs tb) s0.
Proof.
  intros G0 H0.
  assert (Hi : forall x, stepped (solver_of (E := E) m fuelc o rhs tb) s0 x -> good rhs m x /\ 0 <= hstep x <= hstep s0).
  { induction 1 as [|x Hx (Gx & Hs) Hw]; [split; [exact G0|lra]|]. split; [now apply good_core|]. cbn [s_core solver_of]. destruct (cap_core x Gx (proj1 Hs)) as (C1 & _). lra. }
  intros x x' Hx (Hw & Hc) _. destruct (Hi x Hx) as (Gx & Hs). destruct (cap_core x Gx (proj1 Hs)) as (_ & C). cbn [s_core solver_of] in Hc. rewrite Hc in C. cbn [snd] in C. lra.
Qed.
End S.
