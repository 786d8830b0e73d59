(** Corresponding problems: the API. *)
From Coq Require Import List ZArith Bool Arith Lia.
From Verif Require Import Base Scalar Vec MBuffer MZeros MSteps MApi MClasses Spec SpecEqv PCore.
Import ListNotations.

Section Eqv.
Context {OT : Ops} {E : Env}.
Variables (f : T -> T) (g : vec -> vec) (ok : vec -> Prop) (L nK : nat) (vr : bool).
Hypothesis f_lt : forall a b, ltb (f a) (f b) = ltb a b.
Hypothesis f_le : forall a b, leb (f a) (f b) = leb a b.
Hypothesis f_eq : forall a b, eqb (f a) (f b) = eqb a b.
Hypothesis f_add : forall a h, add (f a) h = f (add a h).
Hypothesis f_mid : forall a b, div (add (f a) (f b)) two = f (div (add a b) two).
Hypothesis f_max : forall a b, npmax (f a) (f b) = f (npmax a b).
Hypothesis f_sort : forall l, np_argsort (map f l) = np_argsort l.

Definition rel (s s' : st) : Prop :=
  (length (ts (cache s)) = S (S L) /\ length (ys (cache s)) = S (S L) /\ length (fs (cache s)) = S (S L)) /\
  corr_hist f g (cache s) (cache s') /\
  (Forall ok (ys (cache s)) /\ Forall ok (fs (cache s)) /\ (vr = true -> Forall ok (stages s))) /\
  hstep s' = hstep s /\ (length (stages s) = nK /\ length (stages s') = nK /\ (vr = true -> stages s' = map g (stages s))) /\
  (vr = true -> iQ (interp s') = map g (iQ (interp s)) /\ iF (interp s') = map g (iF (interp s)) /\ iupd (interp s') = f (iupd (interp s))).

Notation corr := (corr_out).
Definition msim {A B} (R : A -> B -> Prop) (m : M st A) (m' : M st B) : Prop :=
  forall s s', rel s s' -> corr R (fst (m s)) (fst (m' s')) /\ rel (snd (m s)) (snd (m' s')).

Lemma sim_ret {A B} (R : A -> B -> Prop) a b : R a b -> msim R (ret a) (ret b).
Proof. intros H s s' Hs. split; [now constructor|exact Hs]. Qed.
Lemma sim_raise {A B} (R : A -> B -> Prop) e : msim R (raise e) (raise e).
Proof. intros s s' Hs. split; [constructor|exact Hs]. Qed.
Lemma sim_loop {A B} (R : A -> B -> Prop) : msim R (fun s => (Loop, s)) (fun s => (Loop, s)).
Proof. intros s s' Hs. split; [constructor|exact Hs]. Qed.
Lemma sim_bind {A B A' B'} (R : A -> B -> Prop) (R' : A' -> B' -> Prop) m m' k k' :
  msim R m m' -> (forall a b, R a b -> msim R' (k a) (k' b)) -> msim R' (bind m k) (bind m' k').
Proof.
  intros H1 H2 s s' Hs. specialize (H1 s s' Hs). unfold bind.
  destruct (m s) as [o s1], (m' s') as [o' s1']. cbn [fst snd] in H1. destruct H1 as (Ho & Hr).
  destruct Ho; [apply H2; auto|split; [constructor|exact Hr]|split; [constructor|exact Hr]].
Qed.
Lemma sim_lift {A B} (R : A -> B -> Prop) o o' : corr R o o' -> msim R (lift o) (lift o').
Proof. intros H s s' Hs. split; auto. Qed.
Lemma sim_get {A B} (R : A -> B -> Prop) k k' : (forall x x', rel x x' -> msim R (k x) (k' x')) -> msim R (bind get k) (bind get k').
Proof. intros H s s' Hs. exact (H s s' Hs s s' Hs). Qed.
Lemma sim_if {A B} (R : A -> B -> Prop) (b b' : bool) m1 m2 m1' m2' : b' = b -> msim R m1 m1' -> msim R m2 m2' ->
  msim R (if b then m1 else m2) (if b' then m1' else m2').
Proof. intros ->. destruct b; auto. Qed.
(** computations that first look at the state *)
Lemma sim_at {A B} (R : A -> B -> Prop) (m : st -> M st A) (m' : st -> M st B) :
  (forall x x', rel x x' -> msim R (m x) (m' x')) -> msim R (fun s => m s s) (fun s => m' s s).
Proof. intros H s s' Hs. exact (H s s' Hs s s' Hs). Qed.
Lemma sim_weak {A B} (R R' : A -> B -> Prop) m m' : (forall a b, R a b -> R' a b) -> msim R m m' -> msim R' m m'.
Proof. intros H H1 s s' Hs. destruct (H1 s s' Hs) as (Ho & Hr). split; auto. destruct Ho; constructor; auto. Qed.

(** what corresponding states have in common *)
Lemma last_map {A B} (h : A -> B) l d d' : l <> [] -> last (map h l) d' = h (last l d).
Proof.
  induction l as [|a l IH]; intros H; [congruence|]. destruct l as [|b l]; [reflexivity|].
  change (last (map h (b :: l)) d' = h (last (b :: l) d)). apply IH. discriminate.
Qed.
Lemma hd_map {A B} (h : A -> B) l d d' : l <> [] -> hd d' (map h l) = h (hd d l).
Proof. destruct l; [congruence|reflexivity]. Qed.
Lemma nth_map {A B} (h : A -> B) l i d d' : i < length l -> nth i (map h l) d' = h (nth i l d).
Proof. intros H. rewrite (nth_indep _ d' (h d)) by now rewrite map_length. apply map_nth. Qed.
Lemma ne {A} (l : list A) n : length l = S n -> l <> []. Proof. destruct l; discriminate. Qed.

Lemma rel_t s s' : rel s s' -> buf_t (cache s') = f (buf_t (cache s)).
Proof. intros ((H & _) & (H1 & _) & _). unfold buf_t. rewrite H1. apply last_map. eapply ne; eauto. Qed.
Lemma rel_t0 s s' : rel s s' -> buf_t0 (cache s') = f (buf_t0 (cache s)).
Proof. intros ((H & _) & (H1 & _) & _). unfold buf_t0. rewrite H1. apply hd_map. eapply ne; eauto. Qed.
Lemma rel_tp s s' : rel s s' -> buf_tp (cache s') = f (buf_tp (cache s)).
Proof. intros ((H & _) & (H1 & _) & _). unfold buf_tp. rewrite H1, map_length. apply nth_map. lia. Qed.
Lemma last_in {A} (l : list A) d : l <> [] -> In (last l d) l.
Proof. induction l as [|a l IH]; [congruence|]. intros _. destruct l as [|b l]; [now left|]. right. apply IH. discriminate. Qed.
Lemma rel_y s s' : rel s s' -> buf_y (cache s') = g (buf_y (cache s)) /\ ok (buf_y (cache s)).
Proof.
  intros ((_ & H & _) & (_ & H1 & _) & (K & _) & _). unfold buf_y. rewrite H1. split; [apply last_map; eapply ne; eauto|].
  rewrite Forall_forall in K. apply K, last_in. eapply ne; eauto.
Qed.
Lemma rel_f s s' : rel s s' -> buf_f (cache s') = g (buf_f (cache s)) /\ ok (buf_f (cache s)).
Proof.
  intros ((_ & _ & H) & (_ & _ & H1) & (_ & K & _) & _). unfold buf_f. rewrite H1. split; [apply last_map; eapply ne; eauto|].
  rewrite Forall_forall in K. apply K, last_in. eapply ne; eauto.
Qed.
Lemma rel_y0 s s' : rel s s' -> buf_y0 (cache s') = g (buf_y0 (cache s)) /\ ok (buf_y0 (cache s)).
Proof.
  intros ((_ & H & _) & (_ & H1 & _) & (K & _) & _). unfold buf_y0. rewrite H1. split; [apply hd_map; eapply ne; eauto|].
  destruct (ys (cache s)); [discriminate|]. now inversion K.
Qed.
Lemma rel_f0 s s' : rel s s' -> buf_f0 (cache s') = g (buf_f0 (cache s)) /\ ok (buf_f0 (cache s)).
Proof.
  intros ((_ & _ & H) & (_ & _ & H1) & (_ & K & _) & _). unfold buf_f0. rewrite H1. split; [apply hd_map; eapply ne; eauto|].
  destruct (fs (cache s)); [discriminate|]. now inversion K.
Qed.
Lemma rel_yp s s' : rel s s' -> buf_yp (cache s') = g (buf_yp (cache s)) /\ ok (buf_yp (cache s)).
Proof.
  intros ((_ & H & _) & (_ & H1 & _) & (K & _) & _). unfold buf_yp. rewrite H1, map_length. split; [apply nth_map; lia|].
  rewrite Forall_forall in K. apply K, nth_In. lia.
Qed.
Lemma rel_h s s' : rel s s' -> hstep s' = hstep s. Proof. intros H. apply H. Qed.
Lemma rel_len s s' : rel s s' -> length (ys (cache s)) = S (S L) /\ length (ys (cache s')) = S (S L).
Proof. intros ((_ & H & _) & (_ & H1 & _) & _). rewrite H1, map_length. auto. Qed.

(** corresponding arrays: views are rows of the history *)
Definition rarr (a a' : arr) : Prop :=
  match a, a' with
  | Own v, Own v' => v' = g v /\ ok v
  | CacheRow i, CacheRow i' => i' = i /\ i < S (S L)
  | _, _ => False
  end.
Lemma rarr_corr a a' : rarr a a' -> corr_arr g a a'.
Proof. destruct a, a'; cbn; tauto. Qed.
Lemma rarr_deref a a' s s' : rarr a a' -> rel s s' -> deref (cache s') a' = g (deref (cache s) a) /\ ok (deref (cache s) a).
Proof.
  intros Ha Hs. destruct a, a'; cbn in Ha; try tauto. cbn [deref]. destruct Ha as (-> & Hi).
  destruct Hs as ((_ & H & _) & (_ & H1 & _) & (K & _) & _). rewrite H1. split; [apply nth_map; lia|].
  rewrite Forall_forall in K. apply K, nth_In. lia.
Qed.
Definition rvec (v v' : vec) : Prop := v' = g v /\ ok v.
Definition rrow (r r' : T * vec) : Prop := corr_row f g r r' /\ ok (snd r).

(** ** the API *)
Variables (sv sv' : solver).
Hypothesis Hcore : msim (fun _ _ => True) (s_core sv) (s_core sv').
Hypothesis Hint : forall t, msim rarr (s_interp sv t) (s_interp sv' (f t)).
Hypothesis Hb : s_bound sv' = ext_map f (s_bound sv).

Lemma gt_ext_f x b : gt_ext (f x) (ext_map f b) = gt_ext x b.
Proof. destruct b; cbn; auto. Qed.
Lemma ext_lt_f x b : ext_lt (ext_map f b) (f x) = ext_lt b x.
Proof. destruct b; cbn; auto. Qed.
Lemma ext_gt_f a b : ext_gt (ext_map f a) (ext_map f b) = ext_gt a b.
Proof. destruct a, b; cbn; auto. Qed.

Lemma sim_step_ b : msim eq (step_ sv b) (step_ sv' (ext_map f b)).
Proof.
  intros s s' Hs. unfold step_. rewrite (rel_t _ _ Hs), (rel_h _ _ Hs), f_add, gt_ext_f.
  destruct (gt_ext _ b); [split; [now constructor|exact Hs]|].
  refine (sim_bind _ eq _ _ _ _ Hcore _ s s' Hs). intros _ _ _. now apply sim_ret.
Qed.
Lemma sim_check b : msim eq (check_time sv b) (check_time sv' (ext_map f b)).
Proof. unfold check_time. rewrite Hb. apply sim_if; [apply ext_gt_f|apply sim_raise|now apply sim_ret]. Qed.
Lemma rrow_now x x' : rel x x' -> rrow (buf_t (cache x), buf_y (cache x)) (buf_t (cache x'), buf_y (cache x')).
Proof. intros H. destruct (rel_y _ _ H) as (E1 & E2). unfold rrow, corr_row. cbn. rewrite E1, (rel_t _ _ H). auto. Qed.
Lemma sim_steps fuel b : msim (Forall2 rrow) (steps_ sv fuel b) (steps_ sv' fuel (ext_map f b)).
Proof.
  induction fuel as [|fuel IH]; [apply sim_loop|]. cbn [steps_]. eapply sim_bind; [apply sim_step_|]. intros a ? <-.
  destruct a; [|apply sim_ret; constructor]. apply sim_get. intros x x' Hx. eapply sim_bind; [exact IH|].
  intros r r' Hr. apply sim_ret. constructor; auto. now apply rrow_now.
Qed.
Lemma sim_nsteps n b : msim (fun p p' => Forall2 rrow (fst p) (fst p') /\ snd p' = snd p) (nsteps_ sv n b) (nsteps_ sv' n (ext_map f b)).
Proof.
  induction n as [|n IH]; [apply sim_ret; split; constructor|]. cbn [nsteps_]. eapply sim_bind; [apply sim_step_|]. intros a ? <-.
  destruct a; [|apply sim_ret; split; [constructor|reflexivity]]. apply sim_get. intros x x' Hx. eapply sim_bind; [exact IH|].
  intros r r' (Hr & Hs). apply sim_ret. split; [|exact Hs]. constructor; auto. now apply rrow_now.
Qed.
Lemma sim_skip_ fuel b : msim eq (skip_ sv fuel b) (skip_ sv' fuel (ext_map f b)).
Proof.
  induction fuel as [|fuel IH]; [apply sim_loop|]. cbn [skip_]. eapply sim_bind; [apply sim_step_|]. intros a ? <-.
  destruct a; [exact IH|now apply sim_ret].
Qed.
Lemma sim_nskip n b : msim eq (nskip_ sv n b) (nskip_ sv' n (ext_map f b)).
Proof.
  induction n as [|n IH]; [now apply sim_ret|]. cbn [nskip_]. eapply sim_bind; [apply sim_step_|]. intros a ? <-.
  destruct a; [exact IH|now apply sim_ret].
Qed.
Definition rstep (r r' : step_ret) : Prop :=
  match r, r' with
  | RNone, RNone => True
  | ROne t y, ROne t' y' => t' = f t /\ rarr y y'
  | RMany l, RMany l' => Forall2 rrow l l'
  | _, _ => False
  end.
Lemma sim_step fuel n u : msim rstep (step sv fuel n u) (step sv' fuel n (option_map (ext_map f) u)).
Proof.
  intros s s' Hs. unfold step. destruct u as [u|]; cbn [option_map].
  - rewrite (rel_t _ _ Hs), ext_lt_f. destruct (ext_lt u _); [split; [constructor; constructor|exact Hs]|].
    destruct n as [k|]; refine (sim_bind eq rstep _ _ _ _ (sim_check u) _ s s' Hs); intros _ _ _.
    + apply sim_if; [reflexivity|apply sim_raise|]. eapply sim_bind; [apply sim_nsteps|]. intros p p' (Hp & _). now apply sim_ret.
    + eapply sim_bind; [apply sim_steps|]. intros r r' Hr. now apply sim_ret.
  - destruct n as [k|].
    + refine (sim_if rstep _ _ _ _ _ _ eq_refl _ _ s s' Hs); [apply sim_raise|]. rewrite Hb. eapply sim_bind; [apply sim_nsteps|].
      intros p p' (Hp & Hq). apply sim_if; [exact Hq|apply sim_raise|now apply sim_ret].
    + rewrite Hb. refine (sim_bind eq rstep _ _ _ _ (sim_step_ _) _ s s' Hs). intros a ? <-. destruct a; [|now apply sim_ret].
      apply sim_get. intros x x' Hx. apply sim_ret. cbn. rewrite (rel_t _ _ Hx). destruct (rel_len _ _ Hx) as (E1 & E2). rewrite E1, E2. split; [reflexivity|]. lia.
Qed.
Lemma sim_skip fuel n u : msim eq (skip sv fuel n u) (skip sv' fuel n (option_map (ext_map f) u)).
Proof.
  intros s s' Hs. unfold skip. destruct u as [u|]; cbn [option_map].
  - rewrite (rel_t _ _ Hs), ext_lt_f. destruct (ext_lt u _); [split; [now constructor|exact Hs]|].
    destruct n as [k|]; refine (sim_bind eq eq _ _ _ _ (sim_check u) _ s s' Hs); intros _ _ _.
    + eapply sim_bind; [apply sim_nskip|]. intros. now apply sim_ret.
    + apply sim_skip_.
  - rewrite Hb. destruct n as [k|]; refine (sim_bind eq eq _ _ _ _ (sim_nskip _ _) _ s s' Hs); intros a ? <-; [|now apply sim_ret].
    destruct a; [apply sim_raise|now apply sim_ret].
Qed.
Lemma sim_interpolate t : msim rarr (interpolate sv t) (interpolate sv' (f t)).
Proof.
  intros s s' Hs. unfold interpolate. rewrite (rel_t _ _ Hs), (rel_t0 _ _ Hs), !f_le. destruct (negb _); [split; [constructor|exact Hs]|].
  now apply Hint.
Qed.
Lemma sim_until fuel t : msim eq (run_until sv fuel t) (run_until sv' fuel (f t)).
Proof.
  induction fuel as [|fuel IH]; intros s s' Hs; cbn [run_until]; rewrite (rel_t _ _ Hs), f_lt;
    (destruct (ltb _ t); [|split; [now constructor|exact Hs]]).
  - split; [constructor|exact Hs].
  - rewrite Hb. refine (sim_bind eq eq _ _ _ _ (sim_step_ _) _ s s' Hs). intros a ? <-. destruct a; [exact IH|now apply sim_ret].
Qed.
Lemma sim_copy ip ip' t t' : msim rarr (ip t) (ip' t') -> msim rvec (interp_copy ip t) (interp_copy ip' t').
Proof.
  intros H. unfold interp_copy. eapply sim_bind; [exact H|]. intros a a' Ha. apply sim_get. intros x x' Hx. apply sim_ret.
  now apply rarr_deref.
Qed.
Lemma sim_eval fuel t : msim (Forall2 rvec) (run_eval_ sv fuel t) (run_eval_ sv' fuel (map f t)).
Proof.
  induction t as [|ti t IH]; [apply sim_ret; constructor|]. cbn [run_eval_ map]. eapply sim_bind; [apply sim_until|]. intros a ? <-.
  destruct a; [|apply sim_ret; constructor]. eapply sim_bind; [apply sim_copy, Hint|]. intros y y' Hy.
  eapply sim_bind; [exact IH|]. intros l l' Hl. apply sim_ret. now constructor.
Qed.

(** ** events *)
Definition rfun (h h' : T -> vec -> outcome T) : Prop := forall t y, ok y -> h' (f t) (g y) = h t y.
Definition revent (e e' : event) : Prop :=
  rfun (ev_fun e) (ev_fun e') /\ ev_term e' = ev_term e /\ ev_dir e' = ev_dir e /\ ev_last_t e' = f (ev_last_t e) /\
  ev_last_v e' = ev_last_v e /\ ev_ts e' = map f (ev_ts e) /\ Forall2 rarr (ev_ys e) (ev_ys e').
Lemma corr_eq_refl {A} (o : outcome A) : corr eq o o. Proof. destruct o; now constructor. Qed.
Lemma sim_at_sol h h' t : rfun h h' -> msim eq (event_at_sol sv h t) (event_at_sol sv' h' (f t)).
Proof.
  intros H. unfold event_at_sol. eapply sim_bind; [apply sim_copy, Hint|]. intros y y' (-> & Hy). apply sim_lift. rewrite H by auto. apply corr_eq_refl.
Qed.
Definition ft (t t' : T) : Prop := t' = f t.
Lemma sim_bisect_loop fn fn' tol rtol : (forall t, msim eq (fn t) (fn' (f t))) -> forall todo l r yl mid mid', mid' = option_map f mid ->
  msim ft (bisect_loop fn tol rtol todo l r yl mid) (bisect_loop fn' tol rtol todo (f l) (f r) yl mid').
Proof.
  intros H. induction todo as [|todo IH]; intros l r yl mid mid' ->; cbn [bisect_loop].
  - destruct mid; [now apply sim_ret|apply sim_raise].
  - rewrite f_mid. eapply sim_bind; [apply H|]. intros ym ? <-. apply sim_if; [reflexivity|now apply sim_ret|].
    apply sim_if; [reflexivity| |]; now apply IH.
Qed.
Lemma sim_bisect fn fn' l r tol rtol k : (forall t, msim eq (fn t) (fn' (f t))) ->
  msim ft (bisect fn l r tol rtol k) (bisect fn' (f l) (f r) tol rtol k).
Proof.
  intros H. unfold bisect. rewrite f_lt. apply sim_if; [reflexivity|apply sim_raise|]. eapply sim_bind; [apply H|]. intros yl ? <-.
  apply sim_if; [reflexivity|now apply sim_ret|]. eapply sim_bind; [apply H|]. intros yr ? <-.
  apply sim_if; [reflexivity|now apply sim_ret|]. apply sim_if; [reflexivity|apply sim_raise|]. now apply sim_bisect_loop.
Qed.
Lemma last_opt_map {A B} (h : A -> B) l : last_opt (map h l) = option_map h (last_opt l).
Proof. unfold last_opt. rewrite <- map_rev. destruct (rev l); reflexivity. Qed.
Lemma sim_evaluate e e' : revent e e' -> msim (fun p p' => fst p' = fst p /\ revent (snd p) (snd p')) (ev_evaluate sv e) (ev_evaluate sv' e').
Proof.
  intros (Hf & Ht & Hd & Hl & Hv & Hts & Hys) s s' Hs. unfold ev_evaluate. cbn zeta.
  destruct (rel_y _ _ Hs) as (Ey & Hy). rewrite (rel_t _ _ Hs), Ey, Hd, Hv, Ht. set (t := buf_t (cache s)).
  match goal with |- corr ?R _ _ /\ _ => refine (sim_bind eq R _ _ _ _ _ _ s s' Hs) end.
  - apply sim_lift. rewrite Hf by auto. apply corr_eq_refl.
  - intros v ? <-. eapply (sim_bind (fun p p' => fst p' = map f (fst p) /\ Forall2 rarr (snd p) (snd p'))).
    + apply sim_if; [reflexivity| |apply sim_ret; split; auto].
      eapply (sim_bind ft).
      * apply sim_if; [reflexivity|now apply sim_ret|]. rewrite Hl. apply sim_bisect. intros. now apply sim_at_sol.
      * intros root ? ->. rewrite Hts, last_opt_map. apply sim_if.
        -- destruct (last_opt (ev_ts e)); cbn [option_map]; auto.
        -- apply sim_ret. split; auto.
        -- eapply sim_bind; [apply Hint|]. intros a a' Ha. apply sim_ret. cbn [fst snd]. split; [now rewrite map_app|].
           apply Forall2_app; auto.
    + intros p p' (Hp & Hq). apply sim_ret. cbn [fst snd]. split; [reflexivity|]. unfold revent. cbn. auto 10.
Qed.
Definition rlast (o o' : option (T * arr)) : Prop :=
  match o, o' with None, None => True | Some (t, a), Some (t', a') => t' = f t /\ rarr a a' | _, _ => False end.
Lemma last_opt_rel {A B} (R : A -> B -> Prop) l l' : Forall2 R l l' ->
  match last_opt l, last_opt l' with None, None => True | Some a, Some b => R a b | _, _ => False end.
Proof.
  intros H. unfold last_opt. assert (K : Forall2 R (rev l) (rev l')).
  { induction H; cbn; [constructor|]. apply Forall2_app; auto. }
  destruct K; auto.
Qed.
Lemma ev_last_rel e e' : revent e e' -> rlast (ev_last e) (ev_last e').
Proof.
  intros (_ & _ & _ & _ & _ & Hts & Hys). unfold ev_last. rewrite Hts, last_opt_map. pose proof (last_opt_rel _ _ _ Hys) as K.
  destruct (last_opt (ev_ts e)); cbn [option_map]; [|now destruct (last_opt (ev_ys e)), (last_opt (ev_ys e'))].
  destruct (last_opt (ev_ys e)), (last_opt (ev_ys e')); cbn; tauto.
Qed.
Definition rhand (p p' : bool * list event * option (T * arr)) : Prop :=
  fst (fst p') = fst (fst p) /\ Forall2 revent (snd (fst p)) (snd (fst p')) /\ rlast (snd p) (snd p').
Lemma sim_handler evs evs' : Forall2 revent evs evs' -> forall last last', rlast last last' ->
  msim rhand (handler_evaluate sv evs last) (handler_evaluate sv' evs' last').
Proof.
  induction 1 as [|e e' evs evs' He Hes IH]; intros la la' Hla; cbn [handler_evaluate].
  - apply sim_ret. split; [reflexivity|]. split; [constructor|exact Hla].
  - eapply sim_bind; [now apply sim_evaluate|]. intros (fired & e1) (fired' & e1') (Hf & He1). cbn [fst snd] in Hf, He1. subst fired'.
    assert (Hl : rlast (if fired then match ev_last e1 with Some (t, y) => if leb t t then Some (t, y) else la | None => la end else la)
      (if fired then match ev_last e1' with Some (t, y) => if leb t t then Some (t, y) else la' | None => la' end else la')).
    { destruct fired; auto. pose proof (ev_last_rel _ _ He1) as K. destruct (ev_last e1) as [(t & a)|], (ev_last e1') as [(t' & a')|]; cbn in K; try tauto.
      destruct K as (-> & K). rewrite f_le. destruct (leb t t); cbn; auto. }
    eapply sim_bind; [exact (IH _ _ Hl)|]. intros ((term & r) & l2) ((term' & r') & l2') (K1 & K2 & K3). cbn [fst snd] in *. subst term'.
    apply sim_ret. split; [reflexivity|]. split; [|exact K3]. cbn. constructor; auto.
Qed.
Definition rhs_st (h h' : hstate) : Prop := Forall2 revent (fst h) (fst h') /\ rlast (snd h) (snd h').
Definition rres (o o' : option (option (T * vec))) : Prop :=
  match o, o' with
  | None, None => True | Some None, Some None => True
  | Some (Some r), Some (Some r') => rrow r r'
  | _, _ => False end.
Lemma sim_until_ev fuel t : forall h h', rhs_st h h' ->
  msim (fun p p' => rres (fst p) (fst p') /\ rhs_st (snd p) (snd p')) (run_until_ev sv fuel t h) (run_until_ev sv' fuel (f t) h').
Proof.
  induction fuel as [|fuel IH]; intros h h' Hh s s' Hs; cbn [run_until_ev]; rewrite (rel_t _ _ Hs), f_lt;
    (destruct (ltb _ t); [|split; [constructor; cbn; auto|exact Hs]]).
  - split; [constructor|exact Hs].
  - rewrite Hb. match goal with |- corr ?R _ _ /\ _ => refine (sim_bind eq R _ _ _ _ (sim_step_ _) _ s s' Hs) end.
    intros a ? <-. destruct a; [|apply sim_ret; cbn; auto].
    eapply sim_bind; [apply sim_handler; apply Hh|]. intros ((term & r) & l2) ((term' & r') & l2') (K1 & K2 & K3). cbn [fst snd] in *. subst term'.
    destruct term; [|apply IH; split; auto].
    destruct l2 as [(t2 & a2)|], l2' as [(t2' & a2')|]; cbn in K3; try tauto; [|apply sim_raise].
    destruct K3 as (-> & K3). apply sim_get. intros x x' Hx. apply sim_ret. cbn [fst snd rres].
    split; [|split; cbn; auto]. destruct (rarr_deref _ _ _ _ K3 Hx) as (E1 & E2). unfold rrow, corr_row. cbn. rewrite E1. auto.
Qed.
Lemma sim_eval_ev fuel t : forall h h', rhs_st h h' ->
  msim (fun p p' => Forall2 rrow (fst p) (fst p') /\ rhs_st (snd p) (snd p')) (run_eval_events_ sv fuel t h) (run_eval_events_ sv' fuel (map f t) h').
Proof.
  induction t as [|ti t IH]; intros h h' Hh; cbn [run_eval_events_ map]; [apply sim_ret; cbn; auto|].
  eapply sim_bind; [now apply sim_until_ev|]. intros (o & h1) (o' & h1') (Ho & Hh1). cbn [fst snd] in *.
  destruct o as [[r|]|], o' as [[r'|]|]; cbn in Ho; try tauto.
  - apply sim_ret. cbn. auto.
  - apply sim_ret. cbn. auto.
  - eapply sim_bind; [apply sim_copy, Hint|]. intros y y' (-> & Hy). eapply sim_bind; [now apply IH|].
    intros (l & h2) (l' & h2') (Hl & Hh2). apply sim_ret. cbn [fst snd] in *. split; auto. constructor; auto. split; cbn; auto. reflexivity.
Qed.
Lemma sim_build u u' s s' : corr_event f g ok u u' -> rel s s' ->
  corr revent (build_event (buf_t (cache s)) (buf_y (cache s)) u) (build_event (buf_t (cache s')) (buf_y (cache s')) u').
Proof.
  intros (H1 & H2 & H3) Hs. unfold build_event. destruct (rel_y _ _ Hs) as (Ey & Hy). rewrite H3, (rel_t _ _ Hs), Ey, H1, H2 by auto.
  destruct (dir_of (ue_direction u)); cbn [obind]; [|constructor|constructor]. destruct (ue_fun u _ _); cbn [obind]; constructor.
  unfold revent, rfun. cbn. auto 10.
Qed.
Lemma sim_handler0 us us' s s' : Forall2 (corr_event f g ok) us us' -> rel s s' ->
  corr (Forall2 revent) (build_handler us (buf_t (cache s)) (buf_y (cache s))) (build_handler us' (buf_t (cache s')) (buf_y (cache s'))).
Proof.
  intros H Hs. unfold build_handler. induction H as [|u u' us us' Hu Hus IH]; cbn [omapM]; [constructor; constructor|].
  destruct (sim_build u u' s s' Hu Hs) as [e e' He|e|]; cbn [obind]; [|constructor|constructor].
  destruct IH as [l l' Hl|x|]; cbn [obind]; constructor. now constructor.
Qed.

(** ** run *)
Lemma sorted_f t : is_sorted (map f t) = is_sorted t.
Proof.
  induction t as [|a t IH]; [reflexivity|]. destruct t as [|b t]; [reflexivity|].
  change (leb (f a) (f b) && is_sorted (map f (b :: t)) = (leb a b && is_sorted (b :: t))). now rewrite f_le, IH.
Qed.
Lemma list_max_f t : forall a, list_max (f a) (map f t) = f (list_max a t).
Proof. unfold list_max. induction t as [|b t IH]; intros a; [reflexivity|]. cbn. rewrite f_max. apply IH. Qed.
Lemma filter_f p p' t : (forall x, p' (f x) = p x) -> List.filter p' (map f t) = map f (List.filter p t).
Proof. intros H. induction t as [|a t IH]; [reflexivity|]. cbn. rewrite H. destruct (p a); cbn; now rewrite IH. Qed.
Lemma fancy_rel {A B} (R : A -> B -> Prop) l l' idx : Forall2 R l l' -> corr (Forall2 R) (fancy l idx) (fancy l' idx).
Proof.
  intros H. unfold fancy. induction idx as [|i idx IH]; cbn [omapM]; [constructor; constructor|].
  assert (K : corr R (match nth_error l i with Some x => Ret x | None => Raise IndexError end) (match nth_error l' i with Some x => Ret x | None => Raise IndexError end)).
  { clear IH. revert i. induction H as [|a b l l' Hab _ IH]; intros [|i]; cbn; try constructor; auto. }
  destruct K as [a b Hab|e|]; cbn [obind]; [|constructor|constructor]. destruct IH; cbn [obind]; constructor. now constructor.
Qed.
Lemma Forall2_map_f t : Forall2 ft t (map f t). Proof. induction t; constructor; auto. reflexivity. Qed.
Lemma Forall2_ft t t' : Forall2 ft t t' -> t' = map f t. Proof. induction 1; cbn; congruence. Qed.
Lemma sim_mapM t : msim (Forall2 rvec) (mapM (fun x => interp_copy (interpolate sv) x) t) (mapM (fun x => interp_copy (interpolate sv') x) (map f t)).
Proof.
  induction t as [|a t IH]; cbn [mapM map]; [apply sim_ret; constructor|]. eapply sim_bind; [apply sim_copy, sim_interpolate|].
  intros y y' Hy. eapply sim_bind; [exact IH|]. intros l l' Hl. apply sim_ret. now constructor.
Qed.
Lemma rows_rel t l l' : Forall2 rvec l l' -> Forall2 rrow (combine t l) (combine (map f t) l').
Proof.
  intros H. revert t. induction H as [|y y' l l' (-> & Hy) _ IH]; intros [|a t]; cbn; constructor; auto. split; [reflexivity|exact Hy].
Qed.
Definition rrun (r r' : run_ret) : Prop :=
  Forall2 rrow (rr_rows r) (rr_rows r') /\ rr_tev r' = map (map f) (rr_tev r) /\ Forall2 (Forall2 rarr) (rr_yev r) (rr_yev r').
Lemma sim_run_events fuel t us us' : Forall2 (corr_event f g ok) us us' ->
  msim rrun (run_events sv fuel t us) (run_events sv' fuel (map f t) us').
Proof.
  intros Hu s s' Hs. unfold run_events. rewrite sorted_f, f_sort. cbn zeta.
  match goal with |- corr ?R _ _ /\ _ => refine (sim_bind (Forall2 ft) R _ _ _ _ _ _ s s' Hs) end.
  { apply sim_if; [reflexivity|apply sim_ret, Forall2_map_f|]. apply sim_lift. apply fancy_rel, Forall2_map_f. }
  intros t1 t1' Ht. apply Forall2_ft in Ht as ->. destruct t1 as [|ta tr]; cbn [map]; [apply sim_raise|].
  rewrite (rel_t0 _ _ Hs), f_lt. apply sim_if; [reflexivity|apply sim_raise|].
  rewrite list_max_f. eapply sim_bind; [exact (sim_check (Fin _))|]. intros _ _ _. cbn zeta. rewrite (rel_t _ _ Hs).
  change (f ta :: map f tr) with (map f (ta :: tr)).
  rewrite (filter_f (fun x => leb x (buf_t (cache s))) (fun x => leb x (f (buf_t (cache s))))) by (intros; apply f_le).
  rewrite (filter_f (fun x => negb (leb x (buf_t (cache s)))) (fun x => negb (leb x (f (buf_t (cache s)))))) by (intros; now rewrite f_le).
  set (told := List.filter _ _). set (trun := List.filter _ _).
  eapply sim_bind; [apply sim_mapM|]. intros yo yo' Hyo.
  eapply (sim_bind rrun).
  - destruct Hu as [|u u' us us' Hu1 Hu2].
    + eapply sim_bind; [apply sim_eval|]. intros l l' Hl. apply sim_ret. split; [|split; [reflexivity|constructor]]. cbn. now apply rows_rel.
    + apply sim_get. intros x x' Hx. eapply sim_bind; [apply sim_lift, sim_handler0; auto|].
      intros evs evs' Hevs. eapply sim_bind; [apply sim_eval_ev; split; [exact Hevs|exact I]|].
      intros (rows & h) (rows' & h') (Hr & Hh & _). cbn [fst snd] in *. apply sim_ret. split; [exact Hr|]. cbn. split.
      * clear -Hh. induction Hh as [|e e' l l' He _ IH]; cbn; [reflexivity|]. rewrite IH. f_equal. apply He.
      * clear -Hh. induction Hh as [|e e' l l' He _ IH]; cbn; constructor; auto. apply He.
  - intros r r' (H1 & H2 & H3).
    assert (Hany : match map f told with [] => false | _ => true end = match told with [] => false | _ => true end) by (destruct told; reflexivity).
    rewrite Hany. apply sim_if; [|apply sim_raise|].
    + f_equal. destruct Hu; reflexivity.
    + assert (Hrows : Forall2 rrow (combine told yo ++ rr_rows r) (combine (map f told) yo' ++ rr_rows r')) by (apply Forall2_app; auto; now apply rows_rel).
      apply sim_if; [reflexivity|apply sim_ret; split; auto|].
      eapply sim_bind; [apply sim_lift, fancy_rel, Hrows|]. intros l l' Hl. apply sim_ret. split; auto.
Qed.
Lemma sim_run fuel t : msim (Forall2 rrow) (run sv fuel t) (run sv' fuel (map f t)).
Proof. unfold run. eapply sim_bind; [apply sim_run_events; constructor|]. intros r r' Hr. apply sim_ret. apply Hr. Qed.

(** ** calls and sessions *)
Lemma forget_corr {A B} (R : A -> B -> Prop) o o' : corr R o o' -> corr eq (forget o) (forget o').
Proof. intros []; now constructor. Qed.
Lemma sim_call fuel c c' : corr_call f g ok c c' -> msim eq (exec_call sv fuel c) (exec_call sv' fuel c').
Proof.
  intros Hc s s' Hs. destruct Hc as [n u|n u|t|t us us' Hu|t]; cbn [exec_call].
  - destruct (sim_step fuel n u s s' Hs) as (H1 & H2). destruct (step sv _ _ _ s), (step sv' _ _ _ s'). split; [eapply forget_corr; eauto|exact H2].
  - exact (sim_skip fuel n u s s' Hs).
  - destruct (sim_run fuel t s s' Hs) as (H1 & H2). destruct (run sv _ _ s), (run sv' _ _ s'). split; [eapply forget_corr; eauto|exact H2].
  - destruct (sim_run_events fuel t us us' Hu s s' Hs) as (H1 & H2). destruct (run_events sv _ _ _ s), (run_events sv' _ _ _ s'). split; [eapply forget_corr; eauto|exact H2].
  - destruct (sim_interpolate t s s' Hs) as (H1 & H2). destruct (interpolate sv _ s), (interpolate sv' _ s'). split; [eapply forget_corr; eauto|exact H2].
Qed.
Lemma sim_session fuel cs cs' : Forall2 (corr_call f g ok) cs cs' -> forall s s', rel s s' -> rel (session sv fuel cs s) (session sv' fuel cs' s').
Proof.
  induction 1 as [|c c' cs cs' Hc _ IH]; intros s s' Hs; [exact Hs|]. cbn [session].
  destruct (sim_call fuel c c' Hc s s' Hs) as (H1 & H2). destruct (exec_call sv fuel c s) as [o s1], (exec_call sv' fuel c' s') as [o' s1'].
  cbn [fst snd] in *. destruct H1; auto.
Qed.
End Eqv.
