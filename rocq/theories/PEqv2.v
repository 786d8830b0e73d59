(** Corresponding problems: the step functions. *)
From Coq Require Import List ZArith Bool Arith Lia FunctionalExtensionality.
From Verif Require Import Base Scalar Vec MBuffer MZeros MSteps MApi MClasses Spec SpecEqv PCore PEqv1.
Import ListNotations.

Section Core.
Context {OT : Ops} {E : Env}.
Variables (f : T -> T) (g : vec -> vec) (ok : vec -> Prop) (L nK : nat) (vr : bool).
Hypothesis f_lt : forall a b, ltb (f a) (f b) = ltb a b.
Hypothesis f_eq : forall a b, eqb (f a) (f b) = eqb a b.
Hypothesis f_add : forall a h, add (f a) h = f (add a h).
Hypothesis f_sub : forall a b, sub (f a) (f b) = sub a b.
Hypothesis g_add : forall u v, ok u -> ok v -> vadd (g u) (g v) = g (vadd u v) /\ ok (vadd u v).
Hypothesis g_sub : forall u v, ok u -> ok v -> vsub (g u) (g v) = g (vsub u v) /\ ok (vsub u v).
Hypothesis g_scale : forall c u, ok u -> vscale c (g u) = g (vscale c u) /\ ok (vscale c u).
Hypothesis g_lin : forall y c K, ok y -> Forall ok K -> lincomb (length (g y)) c (map g K) = g (lincomb (length y) c K) /\ ok (lincomb (length y) c K).
Variables (rhs rhs' : rhs_t).
Hypothesis Hr : corr_rhs f g ok rhs rhs'.
Hypothesis Hd : forall t y k, ok y -> rhs t y = Ret k -> ok k.
Notation rel := (rel f g ok L nK vr).
Notation msim := (msim f g ok L nK vr).
Notation rvec := (rvec g ok).

Lemma sim_rhs t y y' : rvec y y' -> corr_out rvec (rhs t y) (rhs' (f t) y').
Proof. intros (-> & H). rewrite (Hr t y H). destruct (rhs t y) eqn:e; constructor. split; [reflexivity|]. eapply Hd; eauto. Qed.
Lemma map_removelast {A B} (h : A -> B) l : removelast (map h l) = map h (removelast l).
Proof. induction l as [|a l IH]; [reflexivity|]. destruct l as [|b l]; [reflexivity|]. cbn [map removelast] in *. now rewrite IH. Qed.
Lemma map_set_last {A B} (h : A -> B) l x : set_last (map h l) (h x) = map h (set_last l x).
Proof. unfold set_last. destruct l as [|a l]; [reflexivity|]. change (map h (a :: l)) with (h a :: map h l) at 1. cbn iota. rewrite map_removelast, map_app. reflexivity. Qed.
Lemma map_shift {A B} (h : A -> B) l d d' : shift_down d' (map h l) = map h (shift_down d l).
Proof.
  destruct l as [|a l]; [reflexivity|]. change (map h l ++ [last (map h (a :: l)) d'] = map h (l ++ [last (a :: l) d])).
  rewrite map_app, (last_map h _ d) by discriminate. reflexivity.
Qed.
Lemma Forall_removelast {A} (P : A -> Prop) l : Forall P l -> Forall P (removelast l).
Proof. induction 1 as [|a l H _ IH]; [constructor|]. destruct l; [constructor|]. now constructor. Qed.
Lemma shift_Forall {A} (P : A -> Prop) d l : Forall P l -> Forall P (shift_down d l).
Proof.
  intros H. unfold shift_down. destruct l as [|a l]; [constructor|]. apply Forall_app. split.
  - inversion H. exact H3.
  - constructor; [|constructor]. rewrite Forall_forall in H. apply H. apply last_in. discriminate.
Qed.
Lemma set_last_Forall {A} (P : A -> Prop) l x : Forall P l -> P x -> Forall P (set_last l x).
Proof. intros H Hx. unfold set_last. destruct l as [|a l]; [constructor|]. apply Forall_app. split; [now apply Forall_removelast|]. constructor; auto. Qed.
Lemma shift_len {A} (d : A) l : length (shift_down d l) = length l.
Proof. unfold shift_down. destruct l; [reflexivity|]. rewrite app_length. cbn. lia. Qed.
Lemma removelast_len {A} (l : list A) : length (removelast l) = length l - 1.
Proof. induction l as [|a l IH]; [reflexivity|]. destruct l as [|b l]; [reflexivity|]. change (S (length (removelast (b :: l))) = S (S (length l)) - 1). rewrite IH. cbn. lia. Qed.
Lemma set_last_len {A} (l : list A) x : length (set_last l x) = length l.
Proof. unfold set_last. destruct l as [|a l]; [reflexivity|]. rewrite app_length, removelast_len. cbn. lia. Qed.

Lemma rel_push s s' t y k y' k' : rel s s' -> rvec y y' -> rvec k k' -> rel (set_cache (push (cache s) t y k) s) (set_cache (push (cache s') (f t) y' k') s').
Proof.
  intros ((H1 & H2 & H3) & (E1 & E2 & E3) & (K1 & K2 & K3) & E4 & E5 & E6) (-> & Hy) (-> & Hk).
  unfold PEqv1.rel. unfold push, set_cache. cbn [cache ts ys fs hstep stages interp]. rewrite !set_last_len, !shift_len.
  split; [auto|]. split; [|split; [|auto]].
  - unfold corr_hist, push. cbn [ts ys fs cache]. rewrite E1, E2, E3. split; [|split]; (rewrite <- map_set_last; f_equal; apply map_shift).
  - split; [|split; [|exact K3]]; apply set_last_Forall; auto using shift_Forall.
Qed.
Lemma sim_push t y k y' k' : rvec y y' -> rvec k k' -> msim (fun _ _ => True) (push_st t y k) (push_st (f t) y' k').
Proof. intros Hy Hk s s' Hs. split; [now constructor|]. now apply rel_push. Qed.
Lemma map_list_set {A B} (h : A -> B) l i x : list_set (map h l) i (h x) = map h (list_set l i x).
Proof. revert i. induction l as [|a l IH]; intros [|i]; cbn; auto. now rewrite IH. Qed.
Lemma Forall_list_set {A} (P : A -> Prop) l i x : Forall P l -> P x -> Forall P (list_set l i x).
Proof. intros H Hx. revert i. induction H; intros [|i]; cbn; constructor; auto. Qed.
Lemma list_set_len {A} (l : list A) i x : length (list_set l i x) = length l.
Proof. revert i. induction l as [|a l IH]; intros [|i]; cbn; auto. Qed.
Lemma sim_setK i k k' : rvec k k' -> msim (fun _ _ => True) (set_K i k) (set_K i k').
Proof.
  intros (-> & Hk) s s' ((H1 & H2 & H3) & (E1 & E2 & E3) & (K1 & K2 & K3) & E4 & E5 & E6). split; [now constructor|].
  destruct E5 as (E5 & E5' & E7). unfold PEqv1.rel. cbn. rewrite !list_set_len. split; [auto|]. split; [split; auto|]. split; [|split; [auto|]].
  - split; [auto|]. split; [auto|]. intros Hv. apply Forall_list_set; auto.
  - split; [|auto]. split; [auto|]. split; [auto|]. intros Hv. rewrite (E7 Hv). apply map_list_set.
Qed.

Lemma g_add' u v u' v' : rvec u u' -> rvec v v' -> rvec (vadd u v) (vadd u' v').
Proof. intros (-> & Hu) (-> & Hv). split; now apply g_add. Qed.
Lemma g_sub' u v u' v' : rvec u u' -> rvec v v' -> rvec (vsub u v) (vsub u' v').
Proof. intros (-> & Hu) (-> & Hv). split; now apply g_sub. Qed.
Lemma g_scale' c u u' : rvec u u' -> rvec (vscale c u) (vscale c u').
Proof. intros (-> & Hu). split; now apply g_scale. Qed.
Lemma g_lin' y y' c K : rvec y y' -> Forall ok K -> rvec (lincomb (length y) c K) (lincomb (length y') c (map g K)).
Proof. intros (-> & Hy) HK. split; now apply g_lin. Qed.
Lemma Forall_skipn' {A} (P : A -> Prop) n l : Forall P l -> Forall P (skipn n l).
Proof. revert n. induction l as [|a l IH]; intros [|n] H; cbn; auto. apply IH. now inversion H. Qed.
Lemma Forall_firstn' {A} (P : A -> Prop) n l : Forall P l -> Forall P (firstn n l).
Proof. revert n. induction l as [|a l IH]; intros [|n] H; cbn; constructor; inversion H; auto. Qed.

Lemma sim_comb A B s s' : rel s s' -> rvec (ms_combination A B (cache s) (hstep s)) (ms_combination A B (cache s') (hstep s')).
Proof.
  intros Hs. pose proof (rel_y _ _ _ _ _ _ _ _ Hs) as Hy. destruct Hs as ((H1 & H2 & H3) & (E1 & E2 & E3) & (K1 & K2 & K3) & E4 & E5 & E6).
  unfold ms_combination, ysize. rewrite E2, E3, E4, !skipn_map.
  destruct (_ || _)%bool; apply g_sub'; apply g_lin'; auto using Forall_skipn'.
Qed.
Lemma sim_expl A B : msim (fun _ _ => True) (core_expl_ms A B rhs) (core_expl_ms A B rhs').
Proof.
  intros s s' Hs. unfold core_expl_ms, expl_ms_fixed_step. pose proof (sim_comb A B s s' Hs) as Hc.
  rewrite (rel_t _ _ _ _ _ _ _ _ Hs), (rel_h _ _ _ _ _ _ _ _ Hs) in *. rewrite f_add.
  refine (sim_bind _ _ _ _ _ _ rvec (fun _ _ => True) _ _ _ _ _ _ s s' Hs); [now apply sim_lift, sim_rhs|].
  intros k k' Hk. now apply sim_push.
Qed.
Definition rty (p p' : T * vec) : Prop := fst p' = f (fst p) /\ rvec (snd p) (snd p').
Lemma sim_stages t y y' h : vr = true -> rvec y y' -> forall rows s cs, msim (fun _ _ => True) (erk_stages rhs t y h s rows cs) (erk_stages rhs' (f t) y' h s rows cs).
Proof.
  intros Hv Hy. induction rows as [|a rows IH]; intros s cs; cbn [erk_stages]; [now apply sim_ret|]. destruct cs as [|c cs]; [now apply sim_ret|].
  apply sim_get. intros x x' Hx. cbn zeta. rewrite f_add. eapply (sim_bind _ _ _ _ _ _ rvec).
  - apply sim_lift, sim_rhs. apply g_add'; auto. apply g_scale'. destruct Hx as (_ & _ & (_ & _ & K) & _ & (_ & _ & Ex) & _). rewrite (Ex Hv), firstn_map.
    apply g_lin'; auto using Forall_firstn'.
  - intros k k' Hk. eapply sim_bind; [now apply sim_setK|]. intros _ _ _. apply IH.
Qed.
Definition relS (k : nat) (s s' : st) : Prop :=
  rel s s' /\ firstn k (stages s') = map g (firstn k (stages s)) /\ Forall ok (firstn k (stages s)).
Lemma firstn_set {A} (l : list A) k x : k < length l -> firstn (k + 1) (list_set l k x) = firstn k l ++ [x].
Proof. revert k. induction l as [|a l IH]; intros [|k] H; cbn in *; try lia; [reflexivity|]. rewrite IH by lia. reflexivity. Qed.
Lemma relS_set k s s' x x' : k < nK -> relS k s s' -> rvec x x' -> relS (k + 1) (snd (set_K k x s)) (snd (set_K k x' s')).
Proof.
  intros Hk (Hs & H1 & H2) Hx. split; [exact (proj2 (sim_setK k x x' Hx s s' Hs))|].
  pose proof Hs as (_ & _ & _ & _ & (L1 & L2 & _) & _). destruct Hx as (-> & Hx).
  cbn [set_K snd set_stages stages]. rewrite !firstn_set by lia. rewrite H1, map_app. split; [reflexivity|]. apply Forall_app; auto.
Qed.
Lemma erk_stages_S t y y' h : rvec y y' -> forall rows k cs s s', k + length rows = nK -> length cs = length rows -> relS k s s' ->
  corr_out (fun _ _ => True) (fst (erk_stages rhs t y h k rows cs s)) (fst (erk_stages rhs' (f t) y' h k rows cs s')) /\
  rel (snd (erk_stages rhs t y h k rows cs s)) (snd (erk_stages rhs' (f t) y' h k rows cs s')) /\
  (fst (erk_stages rhs t y h k rows cs s) = Ret tt -> relS nK (snd (erk_stages rhs t y h k rows cs s)) (snd (erk_stages rhs' (f t) y' h k rows cs s'))).
Proof.
  intros Hy. induction rows as [|a rows IH]; intros k cs s s' Hk Hc Hs; cbn [erk_stages].
  - cbn in Hk. rewrite Nat.add_0_r in Hk. subst k. split; [now constructor|]. split; [apply Hs|auto].
  - destruct cs as [|c cs]; [discriminate|]. cbn [length] in Hk, Hc. unfold bind, get, lift. cbn zeta. rewrite f_add.
    pose proof Hs as (Hr0 & H1 & H2). rewrite H1.
    assert (Ha : rvec (vadd y (vscale h (lincomb (length y) (firstn k a) (firstn k (stages s)))))
      (vadd y' (vscale h (lincomb (length y') (firstn k a) (map g (firstn k (stages s))))))) by (apply g_add'; auto; apply g_scale'; now apply g_lin').
    destruct (sim_rhs (add t (mul h c)) _ _ Ha) as [x x' Hx|e|]; [|split; [constructor|split; [exact Hr0|discriminate]]|split; [constructor|split; [exact Hr0|discriminate]]].
    apply (IH (k + 1) cs); [lia|lia|]. apply (relS_set k s s' x x'); auto. lia.
Qed.
Lemma sim_erk_fixed A B C : length A = nK -> length C = length A -> A <> [] -> msim rty (erk_fixed_step A B C rhs) (erk_fixed_step A B C rhs').
Proof.
  intros HA HC HA0 s s' Hs. unfold erk_fixed_step. cbn zeta. pose proof (rel_y _ _ _ _ _ _ _ _ Hs) as Hy. pose proof (rel_f _ _ _ _ _ _ _ _ Hs) as Hf.
  rewrite (rel_t _ _ _ _ _ _ _ _ Hs), (rel_h _ _ _ _ _ _ _ _ Hs).
  destruct A as [|a A]; [congruence|]. destruct C as [|c C]; [discriminate|]. cbn [length] in *. cbn [skipn].
  assert (H0 : relS 0 s s') by (split; [exact Hs|cbn; auto]).
  pose proof (relS_set 0 s s' _ _ ltac:(lia) H0 Hf) as H1.
  unfold bind at 1. unfold bind at 2. unfold set_K. cbn [fst snd]. unfold set_K in H1. cbn [snd] in H1.
  destruct (erk_stages_S (buf_t (cache s)) _ _ (hstep s) Hy A 1 C _ _ ltac:(lia) ltac:(lia) H1) as (K1 & K2 & K3).
  unfold bind. cbn [Nat.add] in *.
  destruct (erk_stages rhs _ _ _ _ _ _ _) as [o x], (erk_stages rhs' _ _ _ _ _ _ _) as [o' x']. cbn [fst snd] in *.
  destruct K1 as [[] b _|e|]; [|split; [constructor|exact K2]|split; [constructor|exact K2]].
  destruct (K3 eq_refl) as (_ & Q1 & Q2). pose proof K2 as (_ & _ & _ & _ & (L1 & L2 & _) & _).
  rewrite (firstn_all2 (stages x)) in Q1, Q2 by lia. rewrite (firstn_all2 (stages x')) in Q1 by lia.
  cbn [fst snd]. split; [|exact K2]. unfold get, ret. constructor. split; cbn [fst snd]; [apply f_add|]. apply g_add'; auto. rewrite Q1. now apply g_lin'.
Qed.
Lemma sim_erk A B C : length A = nK -> length C = length A -> A <> [] -> msim (fun _ _ => True) (core_erk A B C rhs) (core_erk A B C rhs').
Proof.
  intros HA HC HA0. unfold core_erk. eapply sim_bind; [now apply sim_erk_fixed|]. intros (t & y) (t' & y') (Et & Hy). cbn [fst snd] in *. subst t'.
  eapply (sim_bind _ _ _ _ _ _ rvec); [now apply sim_lift, sim_rhs|]. intros k k' Hk. now apply sim_push.
Qed.
Lemma sim_hermite t : msim (rarr g ok L) (interp_default t) (interp_default (f t)).
Proof.
  intros s s' Hs. unfold interp_default. cbn [fst snd]. split; [|exact Hs]. unfold hermite.
  pose proof (rel_y _ _ _ _ _ _ _ _ Hs) as Hy. pose proof (rel_f _ _ _ _ _ _ _ _ Hs) as Hf.
  pose proof (rel_y0 _ _ _ _ _ _ _ _ Hs) as Hy0. pose proof (rel_f0 _ _ _ _ _ _ _ _ Hs) as Hf0.
  rewrite (rel_t0 _ _ _ _ _ _ _ _ Hs), (rel_t _ _ _ _ _ _ _ _ Hs), f_eq, !f_sub. destruct (eqb t _); [constructor; cbn; split; [reflexivity|lia]|].
  destruct (sdiv _ _) as [X| |]; cbn [obind]; constructor. cbn [rarr].
  assert (K : forall u u', rvec u u' -> u' = g u /\ ok u) by auto. apply K. clear K.
  auto 10 using g_add', g_sub', g_scale'.
Qed.
Lemma sim_fsal_fixed A B C : vr = true -> msim rty (fsal_fixed_step A B C rhs) (fsal_fixed_step A B C rhs').
Proof.
  intros Hv s s' Hs. unfold fsal_fixed_step. cbn zeta. pose proof (rel_y _ _ _ _ _ _ _ _ Hs) as Hy. pose proof (rel_f _ _ _ _ _ _ _ _ Hs) as Hf.
  rewrite (rel_t _ _ _ _ _ _ _ _ Hs), (rel_h _ _ _ _ _ _ _ _ Hs).
  refine (sim_bind _ _ _ _ _ _ _ rty _ _ _ _ (sim_setK _ _ _ Hf) _ s s' Hs). intros _ _ _.
  eapply sim_bind; [now apply sim_stages|]. intros _ _ _. apply sim_get. intros x x' Hx. rewrite f_add.
  destruct Hx as (_ & _ & (_ & _ & K) & _ & (_ & _ & Ex) & _). specialize (K Hv). specialize (Ex Hv).
  assert (Hy' : rvec (vadd (buf_y (cache s)) (lincomb (length (buf_y (cache s))) (map (mul (hstep s)) B) (removelast (stages x))))
     (vadd (buf_y (cache s')) (lincomb (length (buf_y (cache s'))) (map (mul (hstep s)) B) (removelast (stages x'))))).
  { apply g_add'; auto. rewrite Ex, map_removelast. apply g_lin'; auto. now apply Forall_removelast. }
  eapply (sim_bind _ _ _ _ _ _ rvec); [now apply sim_lift, sim_rhs|]. intros k k' Hk. rewrite Ex, map_length.
  eapply sim_bind; [now apply sim_setK|]. intros _ _ _. apply sim_ret. split; cbn [fst snd]; auto. rewrite <- Ex. exact Hy'.
Qed.
Variables (o : options) (expo : T) (norm : options -> vec -> st -> outcome T).
Hypothesis Hnorm : forall y y' x x', rvec y y' -> rel x x' -> norm o y' x' = norm o y x.
Lemma sim_set_h c s s' : rel s s' -> rel (set_h c s) (set_h c s').
Proof. intros (H1 & H2 & H3 & E4 & E5 & E6). split; [exact H1|]. split; [exact H2|]. split; [exact H3|]. split; [reflexivity|]. split; [exact E5|exact E6]. Qed.
Lemma sim_update e : msim eq (step_update e o expo) (step_update e o expo).
Proof.
  intros s s' Hs. unfold step_update. rewrite (rel_h _ _ _ _ _ _ _ _ Hs). destruct (eqb e zero); [split; [now constructor|now apply sim_set_h]|].
  refine (sim_bind _ _ _ _ _ _ eq eq _ _ _ _ _ _ s s' Hs); [apply sim_lift, corr_eq_refl|]. intros a ? <- x x' Hx. rewrite (rel_h _ _ _ _ _ _ _ _ Hx).
  split; [now constructor|now apply sim_set_h].
Qed.
Lemma map_last (g0 : vec -> vec) (l : list vec) : g0 [] = [] -> last (map g0 l) [] = g0 (last l []).
Proof. destruct l as [|a l]; intros H; [symmetry; exact H|]. apply last_map. discriminate. Qed.
Hypothesis g_nil : g [] = [] /\ ok [].
Lemma sim_fsal fuel A B C : vr = true -> msim (fun _ _ => True) (core_fsal fuel A B C norm o expo rhs) (core_fsal fuel A B C norm o expo rhs').
Proof.
  intros Hv. induction fuel as [|fuel IH]; [apply sim_loop|]. cbn [core_fsal]. eapply sim_bind; [now apply sim_fsal_fixed|].
  intros (t & y) (t' & y') (Et & Hy). cbn [fst snd] in *. subst t'. apply sim_get. intros x x' Hx. rewrite (Hnorm _ _ _ _ Hy Hx).
  eapply (sim_bind _ _ _ _ _ _ eq); [apply sim_lift, corr_eq_refl|]. intros e ? <-. eapply sim_bind; [apply sim_update|]. intros b ? <-.
  destruct b; [|exact IH]. apply sim_get. intros z z' Hz. apply sim_push; auto.
  destruct Hz as (_ & _ & (_ & _ & K) & _ & (_ & _ & Ez) & _). specialize (K Hv). rewrite (Ez Hv), map_last by apply g_nil. split; [reflexivity|].
  destruct (stages z) as [|k ks]; [apply g_nil|]. rewrite Forall_forall in K. apply K, last_in. discriminate.
Qed.
End Core.
