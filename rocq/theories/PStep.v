(** Proofs about step and skip. *)
From Coq Require Import List ZArith Bool Arith Lia.
From Verif Require Import Base Scalar Vec MBuffer MZeros MSteps MApi Laws Spec.
Import ListNotations.

(** destruct the scrutinee of a match/if in a hypothesis or the goal *)
Ltac dmatch :=
  match goal with
  | |- context [match ?x with _ => _ end] =>
      lazymatch x with
      | context [match _ with _ => _ end] => fail
      | _ => let e := fresh "E" in destruct x eqn:e
      end
  end.
Ltac dmatch_in H :=
  match type of H with
  | context [match ?x with _ => _ end] =>
      lazymatch x with
      | context [match _ with _ => _ end] => fail
      | _ => let e := fresh "E" in destruct x eqn:e
      end
  end.
Ltac inv H := inversion H; subst; clear H.

Section PStep.
Context {OT : Ops} {E : Env}.
Variable sv : solver.

Lemma step_cases b s :
  (would_pass b s /\ step_ sv b s = (Ret false, s)) \/
  (~ would_pass b s /\
   step_ sv b s = match s_core sv s with
                  | (Ret _, s') => (Ret true, s')
                  | (Raise e, s') => (Raise e, s')
                  | (Loop, s') => (Loop, s')
                  end).
Proof.
  unfold step_, would_pass, now. destruct (gt_ext _ b) eqn:e; [left | right]; split; auto; congruence.
Qed.

Lemma chain_app b s1 l1 s2 l2 s3 :
  chain sv b s1 l1 s2 -> chain sv b s2 l2 s3 -> chain sv b s1 (l1 ++ l2) s3.
Proof. induction 1; cbn; intros; auto. econstructor; eauto. Qed.

Lemma chain_split b s1 l1 l2 s3 :
  chain sv b s1 (l1 ++ l2) s3 -> exists s2, chain sv b s1 l1 s2 /\ chain sv b s2 l2 s3.
Proof.
  revert s1; induction l1; cbn; intros s1 H.
  - exists s1; split; auto. constructor.
  - inv H. destruct (IHl1 _ H5) as (s2 & A & B). exists s2; split; auto. econstructor; eauto.
Qed.

Lemma chain_last b s l s' : chain sv b s l s' -> s' = last l s.
Proof.
  induction 1; auto. destruct l.
  - inv H0; auto.
  - cbn [last] in *. rewrite IHchain. clear. revert s0; induction l; intros; auto.
    cbn [last] in *. destruct l; auto.
Qed.

(** chains from the same state are prefixes of each other *)
Lemma chain_det b s l1 s1 l2 s2 :
  chain sv b s l1 s1 -> chain sv b s l2 s2 -> length l1 = length l2 -> l1 = l2 /\ s1 = s2.
Proof.
  intros H; revert l2 s2; induction H; intros l2 s2' H2 Hl; inv H2; cbn in Hl; try lia; auto.
  destruct H as (_ & H), H1 as (_ & H1). rewrite H in H1; inv H1.
  destruct (IHchain _ _ H3 ltac:(lia)); subst; auto.
Qed.

Lemma chain_stuck_le b s l1 s1 l2 s2 :
  chain sv b s l1 s1 -> would_pass b s1 -> chain sv b s l2 s2 -> length l2 <= length l1.
Proof.
  intros H; revert l2 s2; induction H; intros l2 s2' Hw H2.
  - inv H2; auto. destruct H as (n & _); contradiction.
  - inv H2; cbn; try lia.
    destruct H as (_ & H), H1 as (_ & H1). rewrite H in H1; inv H1.
    apply le_n_S. eapply IHchain; eauto.
Qed.

(** ** nsteps *)
Definition outcome_spec (b : ext) (n : nat) (s : st) (o : outcome (list (T * vec) * bool)) (s' : st) : Prop :=
  match o with
  | Ret (rows, stop) =>
      exists l, chain sv b s l s' /\ rows = map row l /\
      (if stop then length l < n /\ would_pass b s' else length l = n)
  | Raise e => exists l s1, chain sv b s l s1 /\ length l < n /\ ~ would_pass b s1
                            /\ s_core sv s1 = (Raise e, s')
  | Loop => exists l s1, chain sv b s l s1 /\ length l < n /\ ~ would_pass b s1
                            /\ s_core sv s1 = (Loop, s')
  end.

Lemma nsteps_spec n : forall b s o s',
  nsteps_ sv n b s = (o, s') -> outcome_spec b n s o s'.
Proof.
  induction n; intros b s o s' H.
  - cbn in H. inv H. exists []; repeat split; constructor.
  - cbn [nsteps_] in H. unfold bind in H.
    destruct (step_cases b s) as [[Hw He] | [Hw He]]; rewrite He in H.
    + inv H. exists []. split; [apply chain_nil | split; [auto | split; [cbn; lia | auto]]].
    + destruct (s_core sv s) as [[[]|e|] s1] eqn:Ec; cbn in H.
      * assert (Hc : completes sv b s s1) by (split; auto).
        destruct (nsteps_ sv n b s1) as [o1 s2] eqn:En. apply IHn in En.
        destruct o1 as [[rows stop]|e|]; cbn in H; inv H; cbn in *.
        -- destruct En as (l & A & B & C). exists (s1 :: l). repeat split; subst; auto.
           econstructor; eauto. destruct stop; cbn; intuition lia.
        -- destruct En as (l & t1 & A & B & C & D). exists (s1 :: l), t1. repeat split; auto.
           econstructor; eauto. cbn; lia.
        -- destruct En as (l & t1 & A & B & C & D). exists (s1 :: l), t1. repeat split; auto.
           econstructor; eauto. cbn; lia.
      * inv H. exists [], s. repeat split; auto. constructor. cbn; lia.
      * inv H. exists [], s. repeat split; auto. constructor. cbn; lia.
Qed.

(** nsteps computes the outcome its specification describes *)
Lemma outcome_spec_det b n s o1 s1 o2 s2 :
  outcome_spec b n s o1 s1 -> outcome_spec b n s o2 s2 -> o1 = o2 /\ s1 = s2.
Proof.
  (* reduce to chains that end in a situation where no further step is possible *)
  assert (key : forall l1 t1 l2 t2, chain sv b s l1 t1 -> chain sv b s l2 t2 ->
     length l1 < length l2 -> (would_pass b t1 \/ exists o x, s_core sv t1 = (o, x) /\ o <> Ret tt) -> False).
  { clear. intros l1 t1 l2 t2 H. revert l2 t2. induction H; intros l2 t2 H2 Hl Hs.
    - inv H2; cbn in Hl; try lia. destruct H as (A & B). destruct Hs as [Hs | (o & x & Hs & Hn)].
      contradiction. rewrite B in Hs; inv Hs. congruence.
    - inv H2; cbn in Hl; try lia.
      destruct H as (_ & H), H1 as (_ & H1). rewrite H in H1; inv H1.
      eapply IHchain; eauto. lia. }
  assert (key2 : forall l1 t1 l2 t2, chain sv b s l1 t1 -> chain sv b s l2 t2 ->
     (would_pass b t1 \/ exists o x, s_core sv t1 = (o, x) /\ o <> Ret tt) ->
     (would_pass b t2 \/ exists o x, s_core sv t2 = (o, x) /\ o <> Ret tt) -> l1 = l2 /\ t1 = t2).
  { intros l1 t1 l2 t2 A B C D.
    destruct (lt_eq_lt_dec (length l1) (length l2)) as [[h|h]|h].
    - exfalso; eauto.
    - eapply chain_det; eauto.
    - exfalso; eauto. }
  intros H1 H2.
  destruct o1 as [[r1 p1]|e1|], o2 as [[r2 p2]|e2|]; cbn in H1, H2.
  - destruct H1 as (l1 & A1 & B1 & C1), H2 as (l2 & A2 & B2 & C2).
    destruct p1, p2.
    + destruct (key2 _ _ _ _ A1 A2) as [? ?]; [left; tauto | left; tauto | subst; auto].
    + exfalso. eapply key with (l1 := l1) (l2 := l2); eauto; intuition lia.
    + exfalso. eapply key with (l1 := l2) (l2 := l1); eauto; intuition lia.
    + destruct (chain_det _ _ _ _ _ _ A1 A2) as [? ?]; [lia | subst; auto].
  - exfalso. destruct H1 as (l1 & A1 & B1 & C1), H2 as (l2 & t2 & A2 & B2 & C2 & D2).
    destruct p1.
    + destruct (key2 _ _ _ _ A1 A2) as [? ?]; [left; tauto | right; do 2 eexists; split; eauto; congruence |].
      subst; tauto.
    + eapply key with (l1 := l2) (l2 := l1); eauto; [lia | right; do 2 eexists; split; eauto; congruence].
  - exfalso. destruct H1 as (l1 & A1 & B1 & C1), H2 as (l2 & t2 & A2 & B2 & C2 & D2).
    destruct p1.
    + destruct (key2 _ _ _ _ A1 A2) as [? ?]; [left; tauto | right; do 2 eexists; split; eauto; congruence |].
      subst; tauto.
    + eapply key with (l1 := l2) (l2 := l1); eauto; [lia | right; do 2 eexists; split; eauto; congruence].
  - exfalso. destruct H2 as (l1 & A1 & B1 & C1), H1 as (l2 & t2 & A2 & B2 & C2 & D2).
    destruct p2.
    + destruct (key2 _ _ _ _ A1 A2) as [? ?]; [left; tauto | right; do 2 eexists; split; eauto; congruence |].
      subst; tauto.
    + eapply key with (l1 := l2) (l2 := l1); eauto; [lia | right; do 2 eexists; split; eauto; congruence].
  - destruct H1 as (l1 & t1 & A1 & B1 & C1 & D1), H2 as (l2 & t2 & A2 & B2 & C2 & D2).
    destruct (key2 _ _ _ _ A1 A2) as [? ?];
      [right; do 2 eexists; split; eauto; congruence | right; do 2 eexists; split; eauto; congruence |].
    subst. rewrite D1 in D2; inv D2; auto.
  - exfalso. destruct H1 as (l1 & t1 & A1 & B1 & C1 & D1), H2 as (l2 & t2 & A2 & B2 & C2 & D2).
    destruct (key2 _ _ _ _ A1 A2) as [? ?];
      [right; do 2 eexists; split; eauto; congruence | right; do 2 eexists; split; eauto; congruence |].
    subst. rewrite D1 in D2; inv D2; auto.
  - exfalso. destruct H2 as (l1 & A1 & B1 & C1), H1 as (l2 & t2 & A2 & B2 & C2 & D2).
    destruct p2.
    + destruct (key2 _ _ _ _ A1 A2) as [? ?]; [left; tauto | right; do 2 eexists; split; eauto; congruence |].
      subst; tauto.
    + eapply key with (l1 := l2) (l2 := l1); eauto; [lia | right; do 2 eexists; split; eauto; congruence].
  - exfalso. destruct H1 as (l1 & t1 & A1 & B1 & C1 & D1), H2 as (l2 & t2 & A2 & B2 & C2 & D2).
    destruct (key2 _ _ _ _ A1 A2) as [? ?];
      [right; do 2 eexists; split; eauto; congruence | right; do 2 eexists; split; eauto; congruence |].
    subst. rewrite D1 in D2; inv D2; auto.
  - destruct H1 as (l1 & t1 & A1 & B1 & C1 & D1), H2 as (l2 & t2 & A2 & B2 & C2 & D2).
    destruct (key2 _ _ _ _ A1 A2) as [? ?];
      [right; do 2 eexists; split; eauto; congruence | right; do 2 eexists; split; eauto; congruence |].
    subst. rewrite D1 in D2; inv D2; auto.
Qed.

Lemma nsteps_iff n b s o s' :
  nsteps_ sv n b s = (o, s') <-> outcome_spec b n s o s'.
Proof.
  split; [apply nsteps_spec |]. intros H.
  destruct (nsteps_ sv n b s) as [o1 s1] eqn:e. apply nsteps_spec in e.
  destruct (outcome_spec_det _ _ _ _ _ _ _ H e); subst; auto.
Qed.

Lemma nsteps_add a : forall b bd s,
  nsteps_ sv (a + b) bd s =
  match nsteps_ sv a bd s with
  | (Ret (r1, false), s1) =>
      match nsteps_ sv b bd s1 with
      | (Ret (r2, stop), s2) => (Ret (r1 ++ r2, stop), s2)
      | (Raise e, s2) => (Raise e, s2)
      | (Loop, s2) => (Loop, s2)
      end
  | (o, s1) => (o, s1)
  end.
Proof.
  induction a; intros b bd s.
  - cbn. destruct (nsteps_ sv b bd s) as [[[]| |] ?]; auto.
  - cbn [nsteps_ Nat.add]. unfold bind.
    destruct (step_ sv bd s) as [[[]| |] s1]; auto. cbn.
    rewrite IHa. destruct (nsteps_ sv a bd s1) as [[[r1 []]| |] s2]; auto; cbn.
    destruct (nsteps_ sv b bd s2) as [[[]| |] ?]; auto.
Qed.

Lemma C01_lemma fuel a b s : (0 <= a)%Z -> (0 <= b)%Z ->
  step sv fuel (Some (a + b)%Z) None s =
  match step sv fuel (Some a) None s with
  | (Ret (RMany r1), s1) =>
      match step sv fuel (Some b) None s1 with
      | (Ret (RMany r2), s2) => (Ret (RMany (r1 ++ r2)), s2)
      | other => other
      end
  | other => other
  end.
Proof.
  intros Ha Hb. unfold step. unfold bind.
  replace (a + b <? 0)%Z with false by (symmetry; apply Z.ltb_ge; lia).
  replace (a <? 0)%Z with false by (symmetry; apply Z.ltb_ge; lia).
  replace (b <? 0)%Z with false by (symmetry; apply Z.ltb_ge; lia).
  rewrite Z2Nat.inj_add by auto. rewrite nsteps_add.
  destruct (nsteps_ sv (Z.to_nat a) (s_bound sv) s) as [[[r1 []]| |] s1]; cbn; auto.
  destruct (nsteps_ sv (Z.to_nat b) (s_bound sv) s1) as [[[r2 []]| |] s2]; cbn; auto.
Qed.

(** ** skip = step *)
Lemma nskip_nsteps n : forall b s,
  nskip_ sv n b s = match nsteps_ sv n b s with
                    | (Ret (_, stop), s') => (Ret stop, s')
                    | (Raise e, s') => (Raise e, s')
                    | (Loop, s') => (Loop, s')
                    end.
Proof.
  induction n; intros; auto. cbn [nskip_ nsteps_]. unfold bind.
  destruct (step_ sv b s) as [[[]| |] s1]; auto. rewrite IHn. cbn.
  destruct (nsteps_ sv n b s1) as [[[]| |] ?]; auto.
Qed.
Lemma skip_steps fuel : forall b s,
  skip_ sv fuel b s = match steps_ sv fuel b s with
                    | (Ret _, s') => (Ret tt, s')
                    | (Raise e, s') => (Raise e, s')
                    | (Loop, s') => (Loop, s')
                    end.
Proof.
  induction fuel; intros; auto. cbn [skip_ steps_]. unfold bind.
  destruct (step_ sv b s) as [[[]| |] s1]; auto. rewrite IHfuel. cbn.
  destruct (steps_ sv fuel b s1) as [[| |] ?]; auto.
Qed.

Lemma C02_lemma fuel n u s : (forall k, n = Some k -> (0 <= k)%Z) ->
  skip sv fuel n u s = (forget (fst (step sv fuel n u s)), snd (step sv fuel n u s)).
Proof.
  intros Hn. unfold skip, step.
  destruct u as [u|].
  - destruct (ext_lt u (buf_t (cache s))); auto.
    destruct n as [k|]; unfold bind, check_time; destruct (ext_gt u (s_bound sv)); cbn; auto.
    + replace (k <? 0)%Z with false by (symmetry; apply Z.ltb_ge; auto).
      rewrite nskip_nsteps. destruct (nsteps_ sv (Z.to_nat k) u s) as [[[]| |] ?]; auto.
    + rewrite skip_steps. destruct (steps_ sv fuel u s) as [[| |] ?]; auto.
  - destruct n as [k|]; unfold bind.
    + replace (k <? 0)%Z with false by (symmetry; apply Z.ltb_ge; auto).
      rewrite nskip_nsteps.
      destruct (nsteps_ sv (Z.to_nat k) (s_bound sv) s) as [[[? []]| |] ?]; auto.
    + cbn [nskip_]. unfold bind. destruct (step_ sv (s_bound sv) s) as [[[]| |] s1]; auto.
Qed.

(** ** steps (upto) *)
Lemma steps_spec fuel : forall b s o s',
  steps_ sv fuel b s = (o, s') ->
  match o with
  | Ret rows => exists l, chain sv b s l s' /\ rows = map row l /\ length l < fuel /\ would_pass b s'
  | Raise e => exists l s1, chain sv b s l s1 /\ length l < fuel /\ ~ would_pass b s1
                            /\ s_core sv s1 = (Raise e, s')
  | Loop => (exists l s1, chain sv b s l s1 /\ length l < fuel /\ ~ would_pass b s1
                            /\ s_core sv s1 = (Loop, s'))
            \/ exists l, chain sv b s l s' /\ length l = fuel
  end.
Proof.
  induction fuel; intros b s o s' H.
  - cbn in H. inv H. right. exists []; split; auto; constructor.
  - cbn [steps_] in H. unfold bind in H.
    destruct (step_cases b s) as [[Hw He] | [Hw He]]; rewrite He in H.
    + inv H. exists []. split; [apply chain_nil | split; [auto | split; [cbn; lia | auto]]].
    + destruct (s_core sv s) as [[[]|e|] s1] eqn:Ec; cbn in H.
      * assert (Hc : completes sv b s s1) by (split; auto).
        destruct (steps_ sv fuel b s1) as [o1 s2] eqn:En. apply IHfuel in En.
        destruct o1 as [rows|e|]; cbn in H; inv H; cbn in *.
        -- destruct En as (l & A & B & C & D). exists (s1 :: l). repeat split; subst; auto.
           econstructor; eauto. cbn; lia.
        -- destruct En as (l & t1 & A & B & C & D). exists (s1 :: l), t1. repeat split; auto.
           econstructor; eauto. cbn; lia.
        -- destruct En as [(l & t1 & A & B & C & D) | (l & A & B)].
           ++ left. exists (s1 :: l), t1. repeat split; auto. econstructor; eauto. cbn; lia.
           ++ right. exists (s1 :: l). split. econstructor; eauto. cbn; lia.
      * inv H. exists [], s. repeat split; auto. constructor. cbn; lia.
      * inv H. left. exists [], s. repeat split; auto. constructor. cbn; lia.
Qed.

Lemma steps_complete b s l s' : chain sv b s l s' -> would_pass b s' ->
  forall fuel, length l < fuel -> steps_ sv fuel b s = (Ret (map row l), s').
Proof.
  induction 1; intros Hw fuel Hf; (destruct fuel; [cbn in Hf; lia |]); cbn [steps_]; unfold bind.
  - destruct (step_cases b s) as [[_ He] | [Hn _]]; [rewrite He; auto | contradiction].
  - destruct H as (Hn & Hc). destruct (step_cases b s) as [[? _] | [_ He]]; [contradiction |].
    rewrite He, Hc. cbn. rewrite IHchain; auto. cbn in Hf; lia.
Qed.

Lemma not_lt_upto u s : ext_lt u (now s) = false ->
  forall fuel n, step sv fuel n (Some u) s =
  match n with
  | None => if ext_gt u (s_bound sv) then (Raise ValueError, s)
            else match steps_ sv fuel u s with
                 | (Ret rows, s') => (Ret (RMany rows), s')
                 | (Raise e, s') => (Raise e, s')
                 | (Loop, s') => (Loop, s')
                 end
  | Some k => if ext_gt u (s_bound sv) then (Raise ValueError, s)
              else if (k <? 0)%Z then (Raise ValueError, s)
              else match nsteps_ sv (Z.to_nat k) u s with
                 | (Ret p, s') => (Ret (RMany (fst p)), s')
                 | (Raise e, s') => (Raise e, s')
                 | (Loop, s') => (Loop, s')
                 end
  end.
Proof.
  intros H fuel n. unfold step. unfold now in H. rewrite H.
  destruct n as [k|]; unfold bind, check_time; destruct (ext_gt u (s_bound sv)); cbn; auto.
  destruct (k <? 0)%Z; auto.
Qed.

(** C06 *)
Lemma C06_lemma u s s' rows :
  ext_lt u (now s) = false -> ext_gt u (s_bound sv) = false ->
  ((exists fuel, step sv fuel None (Some u) s = (Ret (RMany rows), s'))
   <-> exists l, chain sv u s l s' /\ rows = map row l /\ would_pass u s').
Proof.
  intros H1 H2. split.
  - intros (fuel & H). rewrite not_lt_upto, H2 in H by auto.
    destruct (steps_ sv fuel u s) as [[rows1| |] s1] eqn:e; inv H.
    apply steps_spec in e as (l & A & B & C & D). eauto.
  - intros (l & A & B & C). exists (S (length l)). rewrite not_lt_upto, H2 by auto.
    rewrite (steps_complete _ _ _ _ A C) by lia. subst; auto.
Qed.

(** C07 *)
Lemma C07_lemma fuel n u s : ext_lt u (now s) = true ->
  step sv fuel n (Some u) s = (Ret (RMany []), s) /\ skip sv fuel n (Some u) s = (Ret tt, s).
Proof. intros H. unfold now in H. unfold step, skip. rewrite H; auto. Qed.

(** C08 *)
Lemma C08_step fuel n u s : ext_lt u (now s) = false -> ext_gt u (s_bound sv) = true ->
  step sv fuel n (Some u) s = (Raise ValueError, s) /\
  skip sv fuel n (Some u) s = (Raise ValueError, s).
Proof.
  intros H H2. split.
  - rewrite not_lt_upto, H2 by auto. now destruct n.
  - unfold now in H. unfold skip. rewrite H. unfold check_time. rewrite H2.
    destruct n; cbn; auto.
Qed.

(** C09 *)
Lemma C09_lemma fuel n s s' : (0 <= n)%Z ->
  step sv fuel (Some n) None s = (Raise RuntimeError, s') <->
  (exists l, chain sv (s_bound sv) s l s' /\ (Z.of_nat (length l) < n)%Z /\ would_pass (s_bound sv) s')
  \/ (exists l s1, chain sv (s_bound sv) s l s1 /\ (Z.of_nat (length l) < n)%Z
        /\ ~ would_pass (s_bound sv) s1 /\ s_core sv s1 = (Raise RuntimeError, s')).
Proof.
  intros Hn. unfold step, bind. replace (n <? 0)%Z with false by (symmetry; apply Z.ltb_ge; auto).
  destruct (nsteps_ sv (Z.to_nat n) (s_bound sv) s) as [o s1] eqn:e.
  split.
  - intros H. apply nsteps_spec in e. destruct o as [[rows []]|x|]; cbn in H; inv H; cbn in e.
    + left. destruct e as (l & A & B & C & D). exists l; repeat split; auto; lia.
    + right. destruct e as (l & t & A & B & C & D). exists l, t; repeat split; auto; lia.
  - intros [(l & A & B & C) | (l & t & A & B & C & D)].
    + assert (e' : nsteps_ sv (Z.to_nat n) (s_bound sv) s = (Ret (map row l, true), s')).
      { apply nsteps_iff. exists l; repeat split; auto; lia. }
      rewrite e in e'; inv e'. cbn. auto.
    + assert (e' : nsteps_ sv (Z.to_nat n) (s_bound sv) s = (Raise RuntimeError, s')).
      { apply nsteps_iff. exists l, t; repeat split; auto; lia. }
      rewrite e in e'; inv e'. auto.
Qed.

Lemma C09_success fuel n s s' rows : (0 <= n)%Z ->
  step sv fuel (Some n) None s = (Ret (RMany rows), s') <->
  exists l, chain sv (s_bound sv) s l s' /\ Z.of_nat (length l) = n /\ rows = map row l.
Proof.
  intros Hn. unfold step, bind. replace (n <? 0)%Z with false by (symmetry; apply Z.ltb_ge; auto).
  destruct (nsteps_ sv (Z.to_nat n) (s_bound sv) s) as [o s1] eqn:e.
  split.
  - intros H. apply nsteps_spec in e. destruct o as [[rows1 []]|x|]; cbn in H; inv H; cbn in e.
    destruct e as (l & A & B & C). exists l; repeat split; auto; lia.
  - intros (l & A & B & C).
    assert (e' : nsteps_ sv (Z.to_nat n) (s_bound sv) s = (Ret (map row l, false), s')).
    { apply nsteps_iff. exists l; repeat split; auto; lia. }
    rewrite e in e'; inv e'. cbn. subst; auto.
Qed.

(** C03 *)
Lemma C03_step1 fuel s :
  (~ would_pass (s_bound sv) s ->
   match step sv fuel (Some 1%Z) None s with
   | (Ret r, s') => r = RMany [row s'] /\
                    step sv fuel None None s =
                      (Ret (ROne (now s') (CacheRow (length (ys (cache s')) - 1))), s')
   | (Raise e, s') => step sv fuel None None s = (Raise e, s')
   | (Loop, s') => step sv fuel None None s = (Loop, s')
   end) /\
  (would_pass (s_bound sv) s ->
   step sv fuel None None s = (Ret RNone, s) /\
   step sv fuel (Some 1%Z) None s = (Raise RuntimeError, s)).
Proof.
  split; intros H; unfold step, bind; cbn [Z.ltb Z.compare Z.to_nat Pos.to_nat Pos.iter_op nsteps_];
    change (Pos.to_nat 1) with 1; cbn [nsteps_]; unfold bind;
    (destruct (step_cases (s_bound sv) s) as [[Hw He] | [Hw He]]; try contradiction); rewrite He; auto.
  destruct (s_core sv s) as [[[]| |] s1]; cbn; auto.
Qed.

Lemma C03_inf fuel k s : s_bound sv = PInf -> (0 <= k)%Z ->
  step sv fuel (Some k) (Some PInf) s = step sv fuel (Some k) None s.
Proof.
  intros Hb Hk. rewrite not_lt_upto by auto. unfold step, bind. rewrite Hb. cbn [ext_gt].
  replace (k <? 0)%Z with false by (symmetry; apply Z.ltb_ge; auto).
  destruct (nsteps_ sv (Z.to_nat k) PInf s) as [[[rows []]| |] s1] eqn:e; auto.
  apply nsteps_spec in e as (l & _ & _ & _ & A). discriminate.
Qed.
Lemma C03_inf_bad fuel k s tb : s_bound sv = Fin tb ->
  step sv fuel (Some k) (Some PInf) s = (Raise ValueError, s).
Proof. intros Hb. rewrite not_lt_upto by auto. rewrite Hb. reflexivity. Qed.

Lemma C03_upto u s s' rows :
  ext_lt u (now s) = false ->
  (exists fuel, step sv fuel None (Some u) s = (Ret (RMany rows), s')) <->
  (exists N, forall k fuel, (N <= k)%Z -> step sv fuel (Some k) (Some u) s = (Ret (RMany rows), s'))
  /\ would_pass u s'.
Proof.
  intros H1. destruct (ext_gt u (s_bound sv)) eqn:H2.
  - split.
    + intros (fuel & H). rewrite not_lt_upto, H2 in H by auto. discriminate.
    + intros ((N & H) & _). specialize (H N 0 ltac:(lia)). rewrite not_lt_upto, H2 in H by auto. discriminate.
  - rewrite C06_lemma by auto. split.
    + intros (l & A & B & C). split; auto. exists (Z.of_nat (length l) + 1)%Z. intros k fuel Hk.
      rewrite not_lt_upto, H2 by auto.
      replace (k <? 0)%Z with false by (symmetry; apply Z.ltb_ge; lia).
      assert (e' : nsteps_ sv (Z.to_nat k) u s = (Ret (map row l, true), s')).
      { apply nsteps_iff. exists l; repeat split; auto; lia. }
      rewrite e'; cbn; subst; auto.
    + intros ((N & H) & C). specialize (H (Z.max N 0) 0 ltac:(lia)).
      rewrite not_lt_upto, H2 in H by auto.
      replace (Z.max N 0 <? 0)%Z with false in H by (symmetry; apply Z.ltb_ge; lia).
      destruct (nsteps_ sv (Z.to_nat (Z.max N 0)) u s) as [[[r st]| |] s1] eqn:e; inv H.
      apply nsteps_spec in e as (l & A & B & D). exists l; auto.
Qed.
End PStep.
