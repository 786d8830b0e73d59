(** Calls return when every step completes and moves on by at least a fixed amount. *)
From Coq Require Import List ZArith Bool Arith Lia Reals Lra.
From Verif Require Import Base Scalar Vec MBuffer MZeros MSteps MApi MClasses Laws Spec SpecInst
  PStep PKeeps PCore PHist PBound PRun PRun2 PRun3 PFwd PTerm PVar3.
Import ListNotations.
Open Scope R_scope.

Section A.
Context {E : @Env Rops}.
Variables (m : @meth Rops) (fuelc : nat) (o : @options Rops) (rhs : @rhs_t Rops) (tb : @ext Rops).
Let sv := solver_of (E := E) m fuelc o rhs tb.
Variables (I : @st Rops -> Prop) (fl te : R).
Hypothesis Hfl : 0 < fl.
Hypothesis Hcore : forall x, I x -> ~ would_pass tb x -> now x <= te ->
  exists x', core_of (E := E) m fuelc o rhs x = (Ret tt, x') /\ I x' /\ buf_t0 (cache x') <= now x /\ now x + fl <= now x' <= now x + hstep x.
Hypothesis Hinterp : forall t x, I x -> buf_t0 (cache x) <= t <= now x ->
  exists a x', interp_of (E := E) m rhs t x = (Ret a, x') /\ I x' /\ cache x' = cache x.

Lemma pass_fin (x : R) (s : @st Rops) : ~ would_pass (@Fin Rops x) s <-> now s + hstep s <= x.
Proof.
  unfold would_pass. cbn. destruct (Rltb x (now s + hstep s)) eqn:e; [apply Rltb_true in e|apply Rltb_false in e].
  - split; [intros H; exfalso; apply H; reflexivity|intros H; lra].
  - split; [intros _; exact e|intros _ H; discriminate].
Qed.
Lemma steps_needed d : exists k, d < INR k * fl.
Proof.
  destruct (Rle_dec 0 d) as [Hd|Hd]; [|exists 0%nat; cbn; lra]. destruct (floor_exists d fl Hfl Hd) as (k & _ & Hk). now exists (S k).
Qed.

(** step(upto_t=x) *)
Lemma chain_live (x : R) k : x <= te -> @gt_ext Rops x tb = false -> forall s, I s -> now s <= x -> x - now s < INR k * fl ->
  exists l s', chain sv (@Fin Rops x) s l s' /\ would_pass (@Fin Rops x) s' /\ (length l < k)%nat /\ I s' /\ now s' <= x.
Proof.
  intros Hx Hb. induction k as [|k IH]; intros s Is Hs Hk; [cbn in Hk; lra|].
  destruct (Rle_dec (now s + hstep s) x) as [Hp|Hp].
  - apply pass_fin in Hp as Hp'. assert (Hw : ~ would_pass tb s).
    { refine (allowed_pass sv (@Fin Rops x) s _ Hp'). left. exact Hb. }
    destruct (Hcore s Is Hw ltac:(lra)) as (s1 & C1 & I1 & _ & N1). rewrite S_INR in Hk.
    destruct (IH s1 I1 ltac:(lra) ltac:(lra)) as (l & s' & H1 & H2 & H3 & H4 & H5).
    exists (s1 :: l), s'. split; [econstructor; [split; [exact Hp'|exact C1]|exact H1]|]. split; [exact H2|]. split; [cbn [length]; lia|]. auto.
  - exists [], s. split; [constructor|]. split; [|split; [cbn; lia|auto]].
    unfold would_pass. cbn. apply Rltb_true. lra.
Qed.
Lemma step_returns s (x : R) : I s -> now s <= x <= te -> @gt_ext Rops x tb = false ->
  exists N rows s', (forall fuel, (N <= fuel)%nat -> step sv fuel None (Some (@Fin Rops x)) s = (Ret (RMany rows), s') /\
    skip sv fuel None (Some (@Fin Rops x)) s = (Ret tt, s')) /\ now s' <= x < now s' + hstep s'.
Proof.
  intros Is Hx Hb. destruct (steps_needed (x - now s)) as (k & Hk).
  destruct (chain_live x k (proj2 Hx) Hb s Is (proj1 Hx) Hk) as (l & s' & C & W & Hl & _ & Hn).
  exists k, (map row l), s'. split.
  - intros fuel Hfu.
    assert (St : step sv fuel None (Some (@Fin Rops x)) s = (Ret (RMany (map row l)), s')).
    { rewrite not_lt_upto. 2:{ cbn. apply Rltb_false. apply Hx. }
      change (ext_gt (@Fin Rops x) (s_bound sv)) with (@gt_ext Rops x tb). rewrite Hb.
      rewrite (steps_complete sv (@Fin Rops x) s l s' C W); [reflexivity|lia]. }
    split; [exact St|]. rewrite (C02_lemma sv) by discriminate. now rewrite St.
  - split; [exact Hn|]. unfold would_pass in W. cbn in W. now apply Rltb_true in W.
Qed.

(** run *)
Lemma run_until_live (ti : R) k : ti <= te -> forall s, I s -> ti - now s < INR k * fl ->
  exists r s', (forall fuel, (k <= fuel)%nat -> run_until sv fuel ti s = (Ret r, s')) /\ I s' /\
    (r = true -> ti <= now s' /\ (s' = s \/ buf_t0 (cache s') <= ti)) /\ (r = false -> would_pass tb s' /\ now s' < ti).
Proof.
  intros Hti. induction k as [|k IH]; intros s Is Hk.
  - cbn in Hk. exists true, s. assert (K : @ltb Rops (buf_t (cache s)) ti = false) by (apply Rltb_false; unfold now in Hk; lra).
    split; [intros [|fuel] _; cbn [run_until]; now rewrite K|]. split; [exact Is|]. split; [|discriminate]. intros _. split; [lra|now left].
  - destruct (@ltb Rops (buf_t (cache s)) ti) eqn:K.
    2:{ exists true, s. split; [intros [|fuel] _; cbn [run_until]; now rewrite K|]. split; [exact Is|]. split; [|discriminate]. intros _. apply Rltb_false in K. split; [exact K|now left]. }
    destruct (step_cases sv (s_bound sv) s) as [[Hw He] | [Hw He]].
    + exists false, s. split; [intros [|fuel] Hfu; [lia|]; cbn [run_until]; rewrite K; unfold bind; now rewrite He|]. split; [exact Is|]. split; [discriminate|]. intros _. split; [exact Hw|]. apply Rltb_true in K. exact K.
    + apply Rltb_true in K as K'. change (now s < ti) in K'. destruct (Hcore s Is Hw ltac:(lra)) as (s1 & Hc & I1 & W1 & N1).
      change (s_core sv s) with (core_of (E := E) m fuelc o rhs s) in He. rewrite Hc in He. rewrite S_INR in Hk.
      destruct (IH s1 I1 ltac:(lra)) as (r & s' & H1 & H2 & H3 & H4).
      exists r, s'. split; [intros [|fuel] Hfu; [lia|]; cbn [run_until]; rewrite K; unfold bind; rewrite He; apply H1; lia|].
      split; [exact H2|]. split; [|exact H4]. intros Hr. destruct (H3 Hr) as (Q1 & Q2). split; [exact Q1|]. right. destruct Q2 as [->|Q2]; [lra|exact Q2].
Qed.
Lemma run_eval_live (t : list R) : forall s, I s -> is_sorted (OT := Rops) t = true -> (forall x, In x t -> buf_t0 (cache s) <= x <= te) ->
  exists N vs s', (forall fuel, (N <= fuel)%nat -> run_eval_ sv fuel t s = (Ret vs, s')) /\ I s' /\ (length vs = length t \/ would_pass tb s' /\ now s' < te).
Proof.
  induction t as [|ti t IH]; intros s Is Hs Hr.
  - exists 0%nat, [], s. split; [reflexivity|]. split; [exact Is|now left].
  - destruct (steps_needed (ti - now s)) as (k & Hk). destruct (Hr ti (or_introl eq_refl)) as (R1 & R2).
    destruct (run_until_live ti k R2 s Is Hk) as (r & s1 & Hru & I1 & Ht & Hf). destruct r.
    + destruct (Ht eq_refl) as (N1 & Q). assert (W1 : buf_t0 (cache s1) <= ti) by (destruct Q as [->|Q]; assumption).
      destruct (Hinterp ti s1 I1 (conj W1 N1)) as (a & s2 & Hi & I2 & Ec).
      destruct (sorted_cons _ _ Hs) as (Hs1 & Hs2). rewrite Forall_forall in Hs2.
      destruct (IH s2 I2 Hs1) as (N & vs & s' & H & I' & Hd).
      { intros x Hx. rewrite Ec. split; [|apply Hr; now right]. apply Rle_trans with ti; [exact W1|]. specialize (Hs2 x Hx). apply Rleb_true. exact Hs2. }
      exists (max N k), (deref (cache s2) a :: vs), s'. split; [|split; [exact I'|destruct Hd as [Hd|Hd]; [left; cbn; lia|now right]]].
      intros fuel Hfu. cbn [run_eval_]. unfold bind. rewrite Hru by lia. unfold interp_copy, bind.
      change (s_interp sv ti s1) with (interp_of (E := E) m rhs ti s1). rewrite Hi. cbn [get ret]. rewrite H by lia. reflexivity.
    + exists k, [], s1. split; [intros fuel Hfu; cbn [run_eval_]; unfold bind; rewrite Hru by lia; reflexivity|]. split; [exact I1|]. right. destruct (Hf eq_refl) as (Hf1 & Hf2). split; [exact Hf1|lra].
Qed.
Lemma run_returns s (t : list R) : I s -> t <> [] -> is_sorted (OT := Rops) t = true ->
  (forall x, In x t -> buf_t0 (cache s) <= x <= te /\ @gt_ext Rops x tb = false) ->
  exists N rows s', (forall fuel, (N <= fuel)%nat -> run (E := E) sv fuel t s = (Ret rows, s')) /\ I s' /\
    (map fst rows = t \/ would_pass tb s' /\ now s' < te).
Proof.
  intros Is Ht Hs Hr. destruct t as [|ta tr]; [congruence|].
  destruct (run_eval_live (ta :: tr) s Is Hs) as (N & vs & s' & H & I' & Hd); [intros x Hx; now apply Hr|].
  exists N, (combine (ta :: tr) vs), s'. split.
  - intros fuel Hfu. pose proof (run_as_eval m fuelc o rhs tb fuel ta tr s Hs) as K. fold sv in K.
    refine (eq_trans (K _ _ _) _).
    + apply Rleb_true. lra.
    + apply Rltb_false. apply Hr. now left.
    + refine (proj2 (Hr _ (list_max_in (OT := Rops) tr ta _))). apply Forall_forall; intros; apply Rleb_true; lra.
    + rewrite H by lia. reflexivity.
  - split; [exact I'|]. destruct Hd as [Hd|Hd]; [left|now right]. clear - Hd. revert Hd. generalize (ta :: tr). intros l. revert vs.
    induction l as [|x l IH]; intros [|v vs] Hd; try discriminate; [reflexivity|]. cbn [combine map fst]. f_equal. apply IH. cbn in Hd. lia.
Qed.
End A.
