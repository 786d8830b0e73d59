(** Calls return or raise the error of a step, when every step that completes moves on by
    at least a fixed amount. *)
From Coq Require Import List ZArith Bool Arith Lia Reals Lra.
From Verif Require Import Base Scalar Vec MBuffer MZeros MSteps MApi MClasses Laws Spec SpecInst
  PStep PKeeps PCore PHist PBound PRun PRun2 PRun3 PFwd PTerm PVar3 PVL4.
Import ListNotations.
Open Scope R_scope.

Section A.
Context {E : @Env Rops}.
Variables (m : @meth Rops) (fuelc : nat) (o : @options Rops) (rhs : @rhs_t Rops) (tb : @ext Rops).
Let sv := solver_of (E := E) m fuelc o rhs tb.
Variables (I : @st Rops -> Prop) (fl te : R) (ex : exn).
Hypothesis Hfl : 0 < fl.
Hypothesis Hcore : forall x, I x -> ~ would_pass tb x -> now x <= te ->
  exists r x', core_of (E := E) m fuelc o rhs x = (r, x') /\
    (r = Raise ex \/ r = Ret tt /\ I x' /\ buf_t0 (cache x') <= now x /\ now x + fl <= now x' <= now x + hstep x).

(** step(upto_t=x) *)
Lemma steps_or (x : R) k : x <= te -> @gt_ext Rops x tb = false -> forall s, I s -> now s <= x -> x - now s < INR k * fl ->
  exists r s', (forall fuel, (k <= fuel)%nat -> steps_ sv fuel (@Fin Rops x) s = (r, s')) /\
    (r = Raise ex \/ exists rows, r = Ret rows /\ now s' <= x < now s' + hstep s').
Proof.
  intros Hx Hb. induction k as [|k IH]; intros s Is Hs Hk; [cbn in Hk; lra|]. rewrite S_INR in Hk.
  destruct (step_cases sv (@Fin Rops x) s) as [[Hp He]|[Hp He]].
  - exists (Ret []), s. split; [intros [|fuel] Hf; [lia|]; cbn [steps_]; unfold bind; rewrite He; reflexivity|]. right. exists []. split; [reflexivity|].
    unfold would_pass in Hp. cbn in Hp. apply Rltb_true in Hp. split; [exact Hs|exact Hp].
  - assert (Hw : ~ would_pass tb s) by (refine (allowed_pass sv (@Fin Rops x) s _ Hp); left; exact Hb).
    assert (Hp' : now s + hstep s <= x) by (destruct (Rle_dec (now s + hstep s) x) as [Q|Q]; [exact Q|]; exfalso; apply Hp; unfold would_pass; cbn; apply Rltb_true; lra).
    destruct (Hcore s Is Hw ltac:(lra)) as (r & s1 & C1 & [->|(-> & I1 & _ & N1)]); change (s_core sv s) with (core_of (E := E) m fuelc o rhs s) in He; rewrite C1 in He.
    + exists (Raise ex), s1. split; [|now left]. intros [|fuel] Hf; [lia|]. cbn [steps_]. unfold bind. rewrite He. reflexivity.
    + destruct (IH s1 I1 ltac:(lra) ltac:(lra)) as (r & s' & H1 & H2).
      exists (match r with Ret rows => Ret (row s1 :: rows) | Raise e => Raise e | Loop => Loop end), s'. split.
      * intros [|fuel] Hf; [lia|]. cbn [steps_]. unfold bind at 1. rewrite He. cbn. unfold bind. rewrite H1 by lia. destruct r; reflexivity.
      * destruct H2 as [->|(rows & -> & H2)]; [now left|right]. exists (row s1 :: rows). auto.
Qed.
Lemma step_or s (x : R) : I s -> now s <= x <= te -> @gt_ext Rops x tb = false ->
  exists N s', (forall fuel, (N <= fuel)%nat -> step sv fuel None (Some (@Fin Rops x)) s = (Raise ex, s') /\ skip sv fuel None (Some (@Fin Rops x)) s = (Raise ex, s')) \/
    exists rows, now s' <= x < now s' + hstep s' /\ forall fuel, (N <= fuel)%nat -> step sv fuel None (Some (@Fin Rops x)) s = (Ret (RMany rows), s') /\
      skip sv fuel None (Some (@Fin Rops x)) s = (Ret tt, s').
Proof.
  intros Is Hx Hb. destruct (steps_needed fl Hfl (x - now s)) as (k & Hk).
  destruct (steps_or x k (proj2 Hx) Hb s Is (proj1 Hx) Hk) as (r & s' & H1 & H2). exists k, s'.
  assert (St : forall fuel, (k <= fuel)%nat -> step sv fuel None (Some (@Fin Rops x)) s = (match r with Ret rows => Ret (RMany rows) | Raise e => Raise e | Loop => Loop end, s')).
  { intros fuel Hf. rewrite not_lt_upto. 2:{ cbn. apply Rltb_false. apply Hx. }
    change (ext_gt (@Fin Rops x) (s_bound sv)) with (@gt_ext Rops x tb). rewrite Hb, (H1 fuel Hf). destruct r; reflexivity. }
  destruct H2 as [->|(rows & -> & H2)]; [left|right; exists rows; split; [exact H2|]].
  - intros fuel Hf. split; [exact (St fuel Hf)|]. rewrite (C02_lemma sv) by discriminate. now rewrite (St fuel Hf).
  - intros fuel Hf. split; [exact (St fuel Hf)|]. rewrite (C02_lemma sv) by discriminate. now rewrite (St fuel Hf).
Qed.

Hypothesis Hinterp : forall t x, I x -> buf_t0 (cache x) <= t <= now x ->
  exists a x', interp_of (E := E) m rhs t x = (Ret a, x') /\ I x' /\ cache x' = cache x.
Lemma run_until_or (ti : R) k : ti <= te -> forall s, I s -> ti - now s < INR k * fl ->
  exists r s', (forall fuel, (k <= fuel)%nat -> run_until sv fuel ti s = (r, s')) /\ (r = Raise ex \/ exists b, r = Ret b /\ I s' /\
    (b = true -> ti <= now s' /\ (s' = s \/ buf_t0 (cache s') <= ti)) /\ (b = false -> would_pass tb s' /\ now s' < ti)).
Proof.
  intros Hti. induction k as [|k IH]; intros s Is Hk.
  - cbn in Hk. exists (Ret true), s. assert (K : @ltb Rops (buf_t (cache s)) ti = false) by (apply Rltb_false; unfold now in Hk; lra).
    split; [intros [|fuel] _; cbn [run_until]; now rewrite K|]. right. exists true. split; [reflexivity|]. split; [exact Is|]. split; [|discriminate]. intros _. split; [lra|now left].
  - destruct (@ltb Rops (buf_t (cache s)) ti) eqn:K.
    2:{ exists (Ret true), s. split; [intros [|fuel] _; cbn [run_until]; now rewrite K|]. right. exists true. split; [reflexivity|]. split; [exact Is|]. split; [|discriminate]. intros _. apply Rltb_false in K. split; [exact K|now left]. }
    destruct (step_cases sv (s_bound sv) s) as [[Hw He] | [Hw He]].
    + exists (Ret false), s. split; [intros [|fuel] Hfu; [lia|]; cbn [run_until]; rewrite K; unfold bind; now rewrite He|]. right. exists false. split; [reflexivity|]. split; [exact Is|]. split; [discriminate|]. intros _. split; [exact Hw|]. apply Rltb_true in K. exact K.
    + apply Rltb_true in K as K'. change (now s < ti) in K'. destruct (Hcore s Is Hw ltac:(lra)) as (r & s1 & Hc & [->|(-> & I1 & W1 & N1)]);
      change (s_core sv s) with (core_of (E := E) m fuelc o rhs s) in He; rewrite Hc in He.
      * exists (Raise ex), s1. split; [|now left]. intros [|fuel] Hfu; [lia|]. cbn [run_until]. rewrite K. unfold bind. rewrite He. reflexivity.
      * rewrite S_INR in Hk. destruct (IH s1 I1 ltac:(lra)) as (r & s' & H1 & H2).
        exists r, s'. split; [intros [|fuel] Hfu; [lia|]; cbn [run_until]; rewrite K; unfold bind; rewrite He; apply H1; lia|].
        destruct H2 as [H2|(b & Hr & H2 & H3 & H4)]; [now left|right]. exists b. split; [exact Hr|].
        split; [exact H2|]. split; [|exact H4]. intros Hb. destruct (H3 Hb) as (Q1 & Q2). split; [exact Q1|]. right. destruct Q2 as [->|Q2]; [lra|exact Q2].
Qed.
Lemma run_eval_or (t : list R) : forall s, I s -> is_sorted (OT := Rops) t = true -> (forall x, In x t -> buf_t0 (cache s) <= x <= te) ->
  exists N r s', (forall fuel, (N <= fuel)%nat -> run_eval_ sv fuel t s = (r, s')) /\ (r = Raise ex \/ exists vs, r = Ret vs /\ I s' /\ (length vs = length t \/ would_pass tb s' /\ exists x, In x t /\ now s' < x)).
Proof.
  induction t as [|ti t IH]; intros s Is Hs Hr.
  - exists 0%nat, (Ret []), s. split; [reflexivity|]. right. exists []. split; [reflexivity|]. split; [exact Is|now left].
  - destruct (steps_needed fl Hfl (ti - now s)) as (k & Hk). destruct (Hr ti (or_introl eq_refl)) as (R1 & R2).
    destruct (run_until_or ti k R2 s Is Hk) as (r & s1 & Hru & [->|(b & -> & I1 & Ht & Hf)]).
    + exists k, (Raise ex), s1. split; [|now left]. intros fuel Hfu. cbn [run_eval_]. unfold bind. rewrite Hru by lia. reflexivity.
    + destruct b.
      * destruct (Ht eq_refl) as (N1 & Q). assert (W1 : buf_t0 (cache s1) <= ti) by (destruct Q as [->|Q]; assumption).
        destruct (Hinterp ti s1 I1 (conj W1 N1)) as (a & s2 & Hi & I2 & Ec).
        destruct (sorted_cons _ _ Hs) as (Hs1 & Hs2). rewrite Forall_forall in Hs2.
        destruct (IH s2 I2 Hs1) as (N & r & s' & H & Hd).
        { intros x Hx. rewrite Ec. split; [|apply Hr; now right]. apply Rle_trans with ti; [exact W1|]. specialize (Hs2 x Hx). apply Rleb_true. exact Hs2. }
        exists (max N k), (match r with Ret vs => Ret (deref (cache s2) a :: vs) | Raise e => Raise e | Loop => Loop end), s'. split.
        -- intros fuel Hfu. cbn [run_eval_]. unfold bind. rewrite Hru by lia. unfold interp_copy, bind.
           change (s_interp sv ti s1) with (interp_of (E := E) m rhs ti s1). rewrite Hi. cbn [get ret]. rewrite H by lia. destruct r; reflexivity.
        -- destruct Hd as [->|(vs & -> & I' & Hd)]; [now left|right]. exists (deref (cache s2) a :: vs). split; [reflexivity|]. split; [exact I'|]. destruct Hd as [Hd|(Hd & x & Hx & Hd')]; [left; cbn; lia|right; split; [exact Hd|]; exists x; split; [now right|exact Hd']].
      * exists k, (Ret []), s1. split; [intros fuel Hfu; cbn [run_eval_]; unfold bind; rewrite Hru by lia; reflexivity|]. right. exists []. split; [reflexivity|]. split; [exact I1|]. right. destruct (Hf eq_refl) as (Hf1 & Hf2). split; [exact Hf1|]. exists ti. split; [now left|exact Hf2].
Qed.
Lemma run_or s (t : list R) : I s -> t <> [] -> is_sorted (OT := Rops) t = true ->
  (forall x, In x t -> buf_t0 (cache s) <= x <= te /\ @gt_ext Rops x tb = false) ->
  exists N s', (forall fuel, (N <= fuel)%nat -> run (E := E) sv fuel t s = (Raise ex, s')) \/
    exists rows, (map fst rows = t \/ would_pass tb s' /\ exists x, In x t /\ now s' < x) /\ I s' /\ forall fuel, (N <= fuel)%nat -> run (E := E) sv fuel t s = (Ret rows, s').
Proof.
  intros Is Ht Hs Hr. destruct t as [|ta tr]; [congruence|].
  destruct (run_eval_or (ta :: tr) s Is Hs) as (N & r & s' & H & Hd); [intros x Hx; now apply Hr|]. exists N, s'.
  assert (K : forall fuel, (N <= fuel)%nat -> run (E := E) sv fuel (ta :: tr) s = (match r with Ret vs => Ret (combine (ta :: tr) vs) | Raise e => Raise e | Loop => Loop end, s')).
  { intros fuel Hfu. pose proof (run_as_eval m fuelc o rhs tb fuel ta tr s Hs) as K. fold sv in K.
    refine (eq_trans (K _ _ _) _).
    + apply Rleb_true. lra.
    + apply Rltb_false. apply Hr. now left.
    + refine (proj2 (Hr _ (list_max_in (OT := Rops) tr ta _))). apply Forall_forall; intros; apply Rleb_true; lra.
    + rewrite H by lia. destruct r; reflexivity. }
  destruct Hd as [->|(vs & -> & I' & Hd)]; [left; exact K|right]. exists (combine (ta :: tr) vs). split; [|split; [exact I'|exact K]].
  destruct Hd as [Hd|Hd]; [left|now right]. clear - Hd. revert Hd. generalize (ta :: tr). intros l. revert vs.
  induction l as [|x l IH]; intros [|v vs] Hd; try discriminate; [reflexivity|]. cbn [combine map fst]. f_equal. apply IH. cbn in Hd. lia.
Qed.
End A.
