(** Like PKeeps, for calls that return: what completed core steps and
    interpolations keep is kept by every call that returns. *)
From Coq Require Import List ZArith Bool Arith Lia.
From Verif Require Import Base Scalar Vec MBuffer MZeros MSteps MApi Laws Spec SpecInst PStep.
From Verif Require PKeeps.
Import ListNotations.

Definition keepsR {S A} (P : S -> Prop) (m : M S A) : Prop :=
  forall s, P s -> match m s with (Ret _, s') => P s' | _ => True end.

Section KeepsR.
Context {S : Type} (P : S -> Prop).
Lemma keepsR_ret {A} (a : A) : keepsR P (ret a). Proof. intros s H; exact H. Qed.
Lemma keepsR_raise {A} e : keepsR P (@raise S A e). Proof. intros s H; exact I. Qed.
Lemma keepsR_lift {A} (o : outcome A) : keepsR P (lift o). Proof. intros s H; unfold lift; destruct o; auto. Qed.
Lemma keepsR_get : keepsR P get. Proof. intros s H; exact H. Qed.
Lemma keepsR_bind {A B} (m : M S A) (k : A -> M S B) :
  keepsR P m -> (forall a, keepsR P (k a)) -> keepsR P (bind m k).
Proof.
  intros Hm Hk s Hs. unfold bind. specialize (Hm s Hs).
  destruct (m s) as [[a| |] s1]; cbn in *; auto. now apply Hk.
Qed.
Lemma keepsR_if {A} (c : bool) (m1 m2 : M S A) : keepsR P m1 -> keepsR P m2 -> keepsR P (if c then m1 else m2).
Proof. destruct c; auto. Qed.
Lemma keepsR_mapM {A B} (f : A -> M S B) l : (forall a, keepsR P (f a)) -> keepsR P (mapM f l).
Proof.
  intros Hf. induction l; cbn [mapM]. apply keepsR_ret.
  apply keepsR_bind; auto. intros. apply keepsR_bind; auto. intros. apply keepsR_ret.
Qed.
Lemma keepsR_fun {A} (f : S -> M S A) : (forall x, keepsR P (f x)) -> keepsR P (fun s => f s s).
Proof. intros H s Hs. now apply H. Qed.
End KeepsR.

Section Api.
Context {OT : Ops} {E : Env}.
Variable sv : solver.
Variable P : st -> Prop.
Notation allowed := (PKeeps.allowed sv).
(** a condition on the time limits the client passes as upto_t *)
Variable Q : ext -> Prop.
Notation call_ok := (PKeeps.call_ok Q).
Hypothesis Hbound : Q (s_bound sv).
Hypothesis Hcore : forall b s s', allowed b -> Q b -> ~ would_pass b s -> P s -> s_core sv s = (Ret tt, s') -> P s'.
Hypothesis Hinterp : forall t, keepsR P (s_interp sv t).

Lemma keepsR_step b : allowed b -> Q b -> keepsR P (step_ sv b).
Proof.
  intros Hb Hq s Hs. destruct (step_cases sv b s) as [[Hw He] | [Hw He]]; rewrite He; auto.
  specialize (Hcore b s). destruct (s_core sv s) as [[[]| |] s1]; auto.
Qed.
Lemma keepsR_nsteps n b : allowed b -> Q b -> keepsR P (nsteps_ sv n b).
Proof.
  intros Hb Hq; induction n; cbn [nsteps_]. apply keepsR_ret.
  apply keepsR_bind. now apply keepsR_step. intros []; [|apply keepsR_ret].
  apply keepsR_bind. apply keepsR_get. intros. apply keepsR_bind; auto. intros; apply keepsR_ret.
Qed.
Lemma keepsR_steps fuel b : allowed b -> Q b -> keepsR P (steps_ sv fuel b).
Proof.
  intros Hb Hq; induction fuel; cbn [steps_]. intros s H; exact I.
  apply keepsR_bind. now apply keepsR_step. intros []; [|apply keepsR_ret].
  apply keepsR_bind. apply keepsR_get. intros. apply keepsR_bind; auto. intros; apply keepsR_ret.
Qed.
Hint Resolve Hbound : core.
Lemma allowed_bound : allowed (s_bound sv). Proof. now right. Qed.

Lemma keepsR_checked {A} u (k : unit -> M st A) : (allowed u -> keepsR P (k tt)) ->
  keepsR P (bind (check_time sv u) k).
Proof.
  intros Hk s Hs. unfold bind. destruct (check_time sv u s) as [[[]| |] s1] eqn:e;
    apply PKeeps.check_time_ok in e as [-> Ha]; auto. now apply Hk; auto.
Qed.

Lemma keepsR_api_step fuel n u : (forall x, u = Some x -> Q x) -> keepsR P (step sv fuel n u).
Proof.
  intros Hu s Hs. unfold step. destruct u as [u|].
  - specialize (Hu u eq_refl). destruct (ext_lt u (buf_t (cache s))); auto.
    destruct n as [k|].
    + revert s Hs. apply keepsR_checked. intros Ha. apply keepsR_if. apply keepsR_raise.
      apply keepsR_bind. now apply keepsR_nsteps. intros; apply keepsR_ret.
    + revert s Hs. apply keepsR_checked. intros Ha.
      apply keepsR_bind. now apply keepsR_steps. intros; apply keepsR_ret.
  - destruct n as [k|]; revert s Hs.
    + apply keepsR_if. apply keepsR_raise.
      apply keepsR_bind. apply keepsR_nsteps; auto; apply allowed_bound. intros [? []]; cbn [fst snd].
      apply keepsR_raise. apply keepsR_ret.
    + apply keepsR_bind. apply keepsR_step; auto; apply allowed_bound. intros []; [|apply keepsR_ret].
      apply keepsR_bind. apply keepsR_get. intros; apply keepsR_ret.
Qed.
Lemma keepsR_nskip n b : allowed b -> Q b -> keepsR P (nskip_ sv n b).
Proof.
  intros Hb Hq; induction n; cbn [nskip_]. apply keepsR_ret.
  apply keepsR_bind. now apply keepsR_step. intros []; [auto | apply keepsR_ret].
Qed.
Lemma keepsR_skip fuel b : allowed b -> Q b -> keepsR P (skip_ sv fuel b).
Proof.
  intros Hb Hq; induction fuel; cbn [skip_]. intros s H; exact I.
  apply keepsR_bind. now apply keepsR_step. intros []; [auto | apply keepsR_ret].
Qed.
Lemma keepsR_api_skip fuel n u : (forall x, u = Some x -> Q x) -> keepsR P (skip sv fuel n u).
Proof.
  intros Hu s Hs. unfold skip. destruct u as [u|].
  - specialize (Hu u eq_refl). destruct (ext_lt u (buf_t (cache s))); auto.
    destruct n as [k|]; revert s Hs; apply keepsR_checked; intros Ha.
    + apply keepsR_bind. now apply keepsR_nskip. intros; apply keepsR_ret.
    + now apply keepsR_skip.
  - destruct n as [k|]; revert s Hs.
    + apply keepsR_bind. apply keepsR_nskip; auto; apply allowed_bound. intros []; [apply keepsR_raise | apply keepsR_ret].
    + apply keepsR_bind. apply keepsR_nskip; auto; apply allowed_bound. intros; apply keepsR_ret.
Qed.
Lemma keepsR_interpolate t : keepsR P (interpolate sv t).
Proof. intros s Hs. unfold interpolate. destruct (negb _); auto. now apply Hinterp. Qed.
Lemma keepsR_interp_copy ip t : (forall t, keepsR P (ip t)) -> keepsR P (interp_copy ip t).
Proof.
  intros H. unfold interp_copy. apply keepsR_bind; auto. intros. apply keepsR_bind. apply keepsR_get.
  intros; apply keepsR_ret.
Qed.
Lemma keepsR_run_until fuel ti : keepsR P (run_until sv fuel ti).
Proof.
  induction fuel; intros s Hs; cbn [run_until]; destruct (ltb _ ti); auto.
  revert s Hs. apply keepsR_bind. apply keepsR_step; auto; apply allowed_bound. intros []; [auto | apply keepsR_ret].
Qed.
Lemma keepsR_run_eval fuel t : keepsR P (run_eval_ sv fuel t).
Proof.
  induction t; cbn [run_eval_]. apply keepsR_ret.
  apply keepsR_bind. apply keepsR_run_until. intros []; [|apply keepsR_ret].
  apply keepsR_bind. now apply keepsR_interp_copy. intros. apply keepsR_bind; auto. intros; apply keepsR_ret.
Qed.
Lemma keepsR_bisect_loop fn tol rtol n : (forall t, keepsR P (fn t)) ->
  forall l r yl mid, keepsR P (bisect_loop fn tol rtol n l r yl mid).
Proof.
  intros Hf. induction n; intros l r yl mid; cbn [bisect_loop].
  - destruct mid; [apply keepsR_ret | apply keepsR_raise].
  - apply keepsR_bind; auto. intros. repeat apply keepsR_if; auto. apply keepsR_ret.
Qed.
Lemma keepsR_bisect fn l r tol rtol n : (forall t, keepsR P (fn t)) -> keepsR P (bisect fn l r tol rtol n).
Proof.
  intros Hf. unfold bisect. apply keepsR_if. apply keepsR_raise.
  apply keepsR_bind; auto. intros. apply keepsR_if. apply keepsR_ret.
  apply keepsR_bind; auto. intros. apply keepsR_if. apply keepsR_ret. apply keepsR_if. apply keepsR_raise.
  now apply keepsR_bisect_loop.
Qed.
Lemma keepsR_event_at_sol f t : keepsR P (event_at_sol sv f t).
Proof. unfold event_at_sol. apply keepsR_bind. now apply keepsR_interp_copy. intros; apply keepsR_lift. Qed.
Lemma keepsR_ev_evaluate e : keepsR P (ev_evaluate sv e).
Proof.
  unfold ev_evaluate. apply (keepsR_fun P (fun s => _)). intros x.
  apply keepsR_bind. apply keepsR_lift. intros v. cbv zeta.
  apply keepsR_bind.
  - apply keepsR_if; [|apply keepsR_ret]. apply keepsR_bind.
    + apply keepsR_if. apply keepsR_ret. apply keepsR_bisect. apply keepsR_event_at_sol.
    + intros. apply keepsR_if. apply keepsR_ret. apply keepsR_bind; auto. intros; apply keepsR_ret.
  - intros; apply keepsR_ret.
Qed.
Lemma keepsR_handler evs : forall last, keepsR P (handler_evaluate sv evs last).
Proof.
  induction evs; intros last; cbn [handler_evaluate]. apply keepsR_ret.
  apply keepsR_bind. apply keepsR_ev_evaluate. intros [fired e']. apply keepsR_bind. apply IHevs.
  intros [[? ?] ?]. apply keepsR_ret.
Qed.
Lemma keepsR_run_until_ev fuel ti : forall hs, keepsR P (run_until_ev sv fuel ti hs).
Proof.
  induction fuel; intros hs s Hs; cbn [run_until_ev]; destruct (ltb _ ti); auto.
  revert s Hs. apply keepsR_bind. apply keepsR_step; auto; apply allowed_bound. intros []; [|apply keepsR_ret].
  apply keepsR_bind. apply keepsR_handler. intros [[term evs'] last']. apply keepsR_if; auto.
  destruct last' as [[]|]; [|apply keepsR_raise]. apply keepsR_bind. apply keepsR_get. intros; apply keepsR_ret.
Qed.
Lemma keepsR_run_eval_events fuel t : forall hs, keepsR P (run_eval_events_ sv fuel t hs).
Proof.
  induction t; intros hs; cbn [run_eval_events_]. apply keepsR_ret.
  apply keepsR_bind. apply keepsR_run_until_ev. intros [[[]|] ?]; try apply keepsR_ret.
  apply keepsR_bind. now apply keepsR_interp_copy. intros. apply keepsR_bind; auto. intros; apply keepsR_ret.
Qed.
Lemma keepsR_run_events fuel t evs : keepsR P (run_events sv fuel t evs).
Proof.
  unfold run_events. apply (keepsR_fun P (fun s => _)). intros s0. cbv zeta.
  apply keepsR_bind. apply keepsR_if. apply keepsR_ret. apply keepsR_lift.
  intros [|ta tr]. apply keepsR_raise. apply keepsR_if. apply keepsR_raise.
  apply keepsR_checked. intros _. apply keepsR_bind.
  - apply keepsR_mapM. intros. apply keepsR_interp_copy. apply keepsR_interpolate.
  - intros yold. apply keepsR_bind.
    + destruct evs.
      * apply keepsR_bind. apply keepsR_run_eval. intros; apply keepsR_ret.
      * apply keepsR_bind. apply keepsR_get. intros. apply keepsR_bind. apply keepsR_lift.
        intros. apply keepsR_bind. apply keepsR_run_eval_events. intros; apply keepsR_ret.
    + intros res. apply keepsR_if. apply keepsR_raise. apply keepsR_if. apply keepsR_ret.
      apply keepsR_bind. apply keepsR_lift. intros; apply keepsR_ret.
Qed.
Lemma keepsR_run fuel t : keepsR P (run sv fuel t).
Proof. apply keepsR_bind. apply keepsR_run_events. intros; apply keepsR_ret. Qed.

Lemma keepsR_call fuel c : call_ok c -> keepsR P (exec_call sv fuel c).
Proof.
  intros Hc s Hs. destruct c; cbn [exec_call].
  - assert (Hu : forall x, upto_t = Some x -> Q x) by (intros x ->; exact Hc).
    pose proof (keepsR_api_step fuel n upto_t Hu s Hs). destruct (step sv fuel n upto_t s) as [[]]; cbn; auto.
  - apply keepsR_api_skip; auto. intros x ->; exact Hc.
  - pose proof (keepsR_run fuel t s Hs). destruct (run sv fuel t s) as [[]]; cbn; auto.
  - pose proof (keepsR_run_events fuel t events s Hs). destruct (run_events sv fuel t events s) as [[]]; cbn; auto.
  - pose proof (keepsR_interpolate t s Hs). destruct (interpolate sv t s) as [[]]; cbn; auto.
Qed.
Lemma returns_keeps fuel cs : Forall call_ok cs -> forall s s', returns sv fuel cs s s' -> P s -> P s'.
Proof.
  intros Hc s s' H. induction H as [s|c cs s s1 s2 H _ IH]; auto. intros Hs. inversion Hc; subst.
  apply IH; auto. pose proof (keepsR_call fuel c ltac:(assumption) s Hs) as K. now rewrite H in K.
Qed.
End Api.

Lemma returns_inv {OT : Ops} {E : Env} sv (P : st -> Prop)
  (Hcore : forall b s s', PKeeps.allowed sv b -> ~ would_pass b s -> P s -> s_core sv s = (Ret tt, s') -> P s')
  (Hinterp : forall t, keepsR P (s_interp sv t)) fuel cs s s' :
  returns sv fuel cs s s' -> P s -> P s'.
Proof.
  apply (returns_keeps sv P (fun _ => True)); eauto.
  apply Forall_forall. intros [? []|? []| | |]; cbn; auto.
Qed.
