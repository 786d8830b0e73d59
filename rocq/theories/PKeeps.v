(** Invariants of API calls: whatever the core step and the interpolation keep is
    kept by every call and every session. *)
From Coq Require Import List ZArith Bool Arith Lia.
From Verif Require Import Base Scalar Vec MBuffer MZeros MSteps MApi Laws Spec PStep.
Import ListNotations.

Definition keeps {S A} (P : S -> Prop) (m : M S A) : Prop := forall s, P s -> P (snd (m s)).

Section Keeps.
Context {S : Type} (P : S -> Prop).
Lemma keeps_ret {A} (a : A) : keeps P (ret a). Proof. intros s H; exact H. Qed.
Lemma keeps_raise {A} e : keeps P (@raise S A e). Proof. intros s H; exact H. Qed.
Lemma keeps_lift {A} (o : outcome A) : keeps P (lift o). Proof. intros s H; exact H. Qed.
Lemma keeps_get : keeps P get. Proof. intros s H; exact H. Qed.
Lemma keeps_bind {A B} (m : M S A) (k : A -> M S B) :
  keeps P m -> (forall a, keeps P (k a)) -> keeps P (bind m k).
Proof.
  intros Hm Hk s Hs. unfold bind. specialize (Hm s Hs).
  destruct (m s) as [[a| |] s1]; cbn in *; auto. now apply Hk.
Qed.
Lemma keeps_if {A} (c : bool) (m1 m2 : M S A) : keeps P m1 -> keeps P m2 -> keeps P (if c then m1 else m2).
Proof. destruct c; auto. Qed.
Lemma keeps_mapM {A B} (f : A -> M S B) l : (forall a, keeps P (f a)) -> keeps P (mapM f l).
Proof.
  intros Hf. induction l; cbn [mapM]. apply keeps_ret.
  apply keeps_bind; auto. intros. apply keeps_bind; auto. intros. apply keeps_ret.
Qed.
Lemma keeps_fun {A} (f : S -> M S A) : (forall x, keeps P (f x)) -> keeps P (fun s => f s s).
Proof. intros H s Hs. now apply H. Qed.
End Keeps.

Section Api.
Context {OT : Ops} {E : Env}.
Variable sv : solver.
Variable P : st -> Prop.
(** the bounds the API passes to the guarded step: t_bound, or an upto_t that
    passed _check_time *)
Definition allowed (b : ext) : Prop := ext_gt b (s_bound sv) = false \/ b = s_bound sv.
(** a condition on the time limits the client passes as upto_t *)
Variable Q : ext -> Prop.
Definition call_ok (c : call) : Prop :=
  match c with CStep _ (Some u) | CSkip _ (Some u) => Q u | _ => True end.
Hypothesis Hbound : Q (s_bound sv).
Hypothesis Hcore : forall b s, allowed b -> Q b -> ~ would_pass b s -> P s -> P (snd (s_core sv s)).
Hypothesis Hinterp : forall t, keeps P (s_interp sv t).

Lemma keeps_step b : allowed b -> Q b -> keeps P (step_ sv b).
Proof.
  intros Hb Hq s Hs. destruct (step_cases sv b s) as [[Hw He] | [Hw He]]; rewrite He; auto.
  specialize (Hcore b s Hb Hq Hw Hs). destruct (s_core sv s) as [[| |] s1]; auto.
Qed.
Lemma keeps_nsteps n b : allowed b -> Q b -> keeps P (nsteps_ sv n b).
Proof.
  intros Hb Hq; induction n; cbn [nsteps_]. apply keeps_ret.
  apply keeps_bind. now apply keeps_step. intros []; [|apply keeps_ret].
  apply keeps_bind. apply keeps_get. intros. apply keeps_bind; auto. intros; apply keeps_ret.
Qed.
Lemma keeps_steps fuel b : allowed b -> Q b -> keeps P (steps_ sv fuel b).
Proof.
  intros Hb Hq; induction fuel; cbn [steps_]. intros s H; exact H.
  apply keeps_bind. now apply keeps_step. intros []; [|apply keeps_ret].
  apply keeps_bind. apply keeps_get. intros. apply keeps_bind; auto. intros; apply keeps_ret.
Qed.
Hint Resolve Hbound : core.
Lemma allowed_bound : allowed (s_bound sv). Proof. now right. Qed.

Lemma check_time_ok u s o s' : check_time sv u s = (o, s') -> s' = s /\ (o = Ret tt -> allowed u).
Proof.
  unfold check_time, allowed. destruct (ext_gt u (s_bound sv)); intros H; inv H; split; auto. discriminate.
Qed.
Lemma keeps_checked {A} u (k : unit -> M st A) : (allowed u -> keeps P (k tt)) ->
  keeps P (bind (check_time sv u) k).
Proof.
  intros Hk s Hs. unfold bind. destruct (check_time sv u s) as [[[]| |] s1] eqn:e;
    apply check_time_ok in e as [-> Ha]; auto. now apply Hk; auto.
Qed.

Lemma keeps_api_step fuel n u : (forall x, u = Some x -> Q x) -> keeps P (step sv fuel n u).
Proof.
  intros Hu s Hs. unfold step. destruct u as [u|].
  - specialize (Hu u eq_refl). destruct (ext_lt u (buf_t (cache s))); auto.
    destruct n as [k|].
    + revert s Hs. apply keeps_checked. intros Ha. apply keeps_if. apply keeps_raise.
      apply keeps_bind. now apply keeps_nsteps. intros; apply keeps_ret.
    + revert s Hs. apply keeps_checked. intros Ha.
      apply keeps_bind. now apply keeps_steps. intros; apply keeps_ret.
  - destruct n as [k|]; revert s Hs.
    + apply keeps_if. apply keeps_raise.
      apply keeps_bind. apply keeps_nsteps; auto; apply allowed_bound. intros [? []]; cbn [fst snd].
      apply keeps_raise. apply keeps_ret.
    + apply keeps_bind. apply keeps_step; auto; apply allowed_bound. intros []; [|apply keeps_ret].
      apply keeps_bind. apply keeps_get. intros; apply keeps_ret.
Qed.
Lemma keeps_nskip n b : allowed b -> Q b -> keeps P (nskip_ sv n b).
Proof.
  intros Hb Hq; induction n; cbn [nskip_]. apply keeps_ret.
  apply keeps_bind. now apply keeps_step. intros []; [auto | apply keeps_ret].
Qed.
Lemma keeps_skip fuel b : allowed b -> Q b -> keeps P (skip_ sv fuel b).
Proof.
  intros Hb Hq; induction fuel; cbn [skip_]. intros s H; exact H.
  apply keeps_bind. now apply keeps_step. intros []; [auto | apply keeps_ret].
Qed.
Lemma keeps_api_skip fuel n u : (forall x, u = Some x -> Q x) -> keeps P (skip sv fuel n u).
Proof.
  intros Hu s Hs. unfold skip. destruct u as [u|].
  - specialize (Hu u eq_refl). destruct (ext_lt u (buf_t (cache s))); auto.
    destruct n as [k|]; revert s Hs; apply keeps_checked; intros Ha.
    + apply keeps_bind. now apply keeps_nskip. intros; apply keeps_ret.
    + now apply keeps_skip.
  - destruct n as [k|]; revert s Hs.
    + apply keeps_bind. apply keeps_nskip; auto; apply allowed_bound. intros []; [apply keeps_raise | apply keeps_ret].
    + apply keeps_bind. apply keeps_nskip; auto; apply allowed_bound. intros; apply keeps_ret.
Qed.
Lemma keeps_interpolate t : keeps P (interpolate sv t).
Proof. intros s Hs. unfold interpolate. destruct (negb _); auto. now apply Hinterp. Qed.
Lemma keeps_interp_copy ip t : (forall t, keeps P (ip t)) -> keeps P (interp_copy ip t).
Proof.
  intros H. unfold interp_copy. apply keeps_bind; auto. intros. apply keeps_bind. apply keeps_get.
  intros; apply keeps_ret.
Qed.
Lemma keeps_run_until fuel ti : keeps P (run_until sv fuel ti).
Proof.
  induction fuel; intros s Hs; cbn [run_until]; destruct (ltb _ ti); auto.
  revert s Hs. apply keeps_bind. apply keeps_step; auto; apply allowed_bound. intros []; [auto | apply keeps_ret].
Qed.
Lemma keeps_run_eval fuel t : keeps P (run_eval_ sv fuel t).
Proof.
  induction t; cbn [run_eval_]. apply keeps_ret.
  apply keeps_bind. apply keeps_run_until. intros []; [|apply keeps_ret].
  apply keeps_bind. now apply keeps_interp_copy. intros. apply keeps_bind; auto. intros; apply keeps_ret.
Qed.
Lemma keeps_bisect_loop fn tol rtol n : (forall t, keeps P (fn t)) ->
  forall l r yl mid, keeps P (bisect_loop fn tol rtol n l r yl mid).
Proof.
  intros Hf. induction n; intros l r yl mid; cbn [bisect_loop].
  - destruct mid; [apply keeps_ret | apply keeps_raise].
  - apply keeps_bind; auto. intros. repeat apply keeps_if; auto. apply keeps_ret.
Qed.
Lemma keeps_bisect fn l r tol rtol n : (forall t, keeps P (fn t)) -> keeps P (bisect fn l r tol rtol n).
Proof.
  intros Hf. unfold bisect. apply keeps_if. apply keeps_raise.
  apply keeps_bind; auto. intros. apply keeps_if. apply keeps_ret.
  apply keeps_bind; auto. intros. apply keeps_if. apply keeps_ret. apply keeps_if. apply keeps_raise.
  now apply keeps_bisect_loop.
Qed.
Lemma keeps_event_at_sol f t : keeps P (event_at_sol sv f t).
Proof. unfold event_at_sol. apply keeps_bind. now apply keeps_interp_copy. intros; apply keeps_lift. Qed.
Lemma keeps_ev_evaluate e : keeps P (ev_evaluate sv e).
Proof.
  unfold ev_evaluate. apply (keeps_fun P (fun s => _)). intros x.
  apply keeps_bind. apply keeps_lift. intros v. cbv zeta.
  apply keeps_bind.
  - apply keeps_if; [|apply keeps_ret]. apply keeps_bind.
    + apply keeps_if. apply keeps_ret. apply keeps_bisect. apply keeps_event_at_sol.
    + intros. apply keeps_if. apply keeps_ret. apply keeps_bind; auto. intros; apply keeps_ret.
  - intros; apply keeps_ret.
Qed.
Lemma keeps_handler evs : forall last, keeps P (handler_evaluate sv evs last).
Proof.
  induction evs; intros last; cbn [handler_evaluate]. apply keeps_ret.
  apply keeps_bind. apply keeps_ev_evaluate. intros [fired e']. apply keeps_bind. apply IHevs.
  intros [[? ?] ?]. apply keeps_ret.
Qed.
Lemma keeps_run_until_ev fuel ti : forall hs, keeps P (run_until_ev sv fuel ti hs).
Proof.
  induction fuel; intros hs s Hs; cbn [run_until_ev]; destruct (ltb _ ti); auto.
  revert s Hs. apply keeps_bind. apply keeps_step; auto; apply allowed_bound. intros []; [|apply keeps_ret].
  apply keeps_bind. apply keeps_handler. intros [[term evs'] last']. apply keeps_if; auto.
  destruct last' as [[]|]; [|apply keeps_raise]. apply keeps_bind. apply keeps_get. intros; apply keeps_ret.
Qed.
Lemma keeps_run_eval_events fuel t : forall hs, keeps P (run_eval_events_ sv fuel t hs).
Proof.
  induction t; intros hs; cbn [run_eval_events_]. apply keeps_ret.
  apply keeps_bind. apply keeps_run_until_ev. intros [[[]|] ?]; try apply keeps_ret.
  apply keeps_bind. now apply keeps_interp_copy. intros. apply keeps_bind; auto. intros; apply keeps_ret.
Qed.
Lemma keeps_run_events fuel t evs : keeps P (run_events sv fuel t evs).
Proof.
  unfold run_events. apply (keeps_fun P (fun s => _)). intros s0. cbv zeta.
  apply keeps_bind. apply keeps_if. apply keeps_ret. apply keeps_lift.
  intros [|ta tr]. apply keeps_raise. apply keeps_if. apply keeps_raise.
  apply keeps_checked. intros _. apply keeps_bind.
  - apply keeps_mapM. intros. apply keeps_interp_copy. apply keeps_interpolate.
  - intros yold. apply keeps_bind.
    + destruct evs.
      * apply keeps_bind. apply keeps_run_eval. intros; apply keeps_ret.
      * apply keeps_bind. apply keeps_get. intros. apply keeps_bind. apply keeps_lift.
        intros. apply keeps_bind. apply keeps_run_eval_events. intros; apply keeps_ret.
    + intros res. apply keeps_if. apply keeps_raise. apply keeps_if. apply keeps_ret.
      apply keeps_bind. apply keeps_lift. intros; apply keeps_ret.
Qed.
Lemma keeps_run fuel t : keeps P (run sv fuel t).
Proof. apply keeps_bind. apply keeps_run_events. intros; apply keeps_ret. Qed.

Lemma keeps_call fuel c s : call_ok c -> P s -> P (snd (exec_call sv fuel c s)).
Proof.
  intros Hc Hs. destruct c; cbn [exec_call].
  - assert (Hu : forall x, upto_t = Some x -> Q x) by (intros x ->; exact Hc).
    pose proof (keeps_api_step fuel n upto_t Hu s Hs). destruct (step sv fuel n upto_t s); auto.
  - apply keeps_api_skip; auto. intros x ->; exact Hc.
  - pose proof (keeps_run fuel t s Hs). destruct (run sv fuel t s); auto.
  - pose proof (keeps_run_events fuel t events s Hs). destruct (run_events sv fuel t events s); auto.
  - pose proof (keeps_interpolate t s Hs). destruct (interpolate sv t s); auto.
Qed.
Lemma session_keeps fuel cs : Forall call_ok cs -> forall s, P s -> P (session sv fuel cs s).
Proof.
  induction 1; intros s Hs; cbn [session]; auto.
  pose proof (keeps_call fuel x s H Hs). destruct (exec_call sv fuel x s) as [[| |] s1]; auto.
Qed.
End Api.

Lemma session_inv {OT : Ops} {E : Env} sv (P : st -> Prop)
  (Hcore : forall b s, allowed sv b -> ~ would_pass b s -> P s -> P (snd (s_core sv s)))
  (Hinterp : forall t, keeps P (s_interp sv t)) fuel cs s :
  P s -> P (session sv fuel cs s).
Proof.
  intros Hs. apply (session_keeps sv P (fun _ => True)); eauto.
  apply Forall_forall. intros [? []|? []| | |]; cbn; auto.
Qed.
