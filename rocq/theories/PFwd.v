(** Steps go forward in time: fixed step classes in any arithmetic where adding
    a non-negative number does not decrease, variable step classes over R. *)
From Coq Require Import List ZArith Bool Arith Lia Reals Lra QArith Qcanon.
From Verif Require Import Base Scalar Vec MBuffer MZeros MSteps MApi MClasses Laws Spec SpecInst
  PStep PKeeps PCore PHist PBound PRun PRun2 PRun3.
Import ListNotations.

Class AddLaws (O : Ops) : Prop := {
  al_mono : forall t h : T, (exists x, ltb x t = true) -> leb zero h = true -> leb t (add t h) = true
}.
#[global] Instance Rops_add : AddLaws Rops.
Proof.
  constructor. intros t h _ H. cbn in *. apply Rleb_true in H. apply Rleb_true.
  change (@zero Rops <= h)%R in H. rewrite zero_R in H. lra.
Qed.
#[global] Instance Qcops_add sq pw : AddLaws (Qcops sq pw).
Proof.
  constructor. intros t h _ H. cbn in *. unfold zero in H. cbn in H. apply Qcleb_true in H. apply Qcleb_true.
  change (t <= t + h)%Qc. change (Q2Qc 0 <= h)%Qc in H.
  rewrite <- (Qcplus_0_r t) at 1. apply Qcplus_le_compat; auto. apply Qcle_refl.
Qed.

Section A.
Context {OT : Ops} {L : OrdLaws OT} {AL : AddLaws OT} {E : Env}.
Variable m : meth.
Variables (fuelc : nat) (o : options) (rhs : rhs_t) (tb : ext).
Let sv := solver_of m fuelc o rhs tb.

Lemma forward_fixed s : is_fixed m = true -> wf m s -> leb zero (hstep s) = true ->
  (exists x, ltb x (now s) = true) -> forward sv s.
Proof.
  intros Hf W Hh Hx.
  assert (one_step : forall x x', wf m x -> completes sv tb x x' ->
     now x' = add (now x) (hstep x) /\ hstep x' = hstep x /\ wf m x').
  { intros x x' Wx (_ & Hc). pose proof (core_wf m fuelc o rhs x Wx) as K. cbn in Hc. rewrite Hc in K. cbn in K.
    apply core_of_ok in Hc; [|intros; congruence]. destruct Hc as (_ & _ & A2 & t & y & f & (P1 & P2) & D).
    specialize (D Hf). destruct (len_history_pos m) as (k & Hk). destruct Wx as (Wx & _). rewrite Hk in Wx.
    split; [|split; [exact (A2 Hf)|exact K]]. unfold now. now rewrite P1, (push_t _ _ _ _ _ Wx), D. }
  intros l x x' C Hc.
  assert (K : wf m x /\ hstep x = hstep s /\ exists z, ltb z (now x) = true).
  { clear Hc x'. revert W Hh Hx. change (s_bound sv) with tb in C.
    induction C as [s|s s1 l s2 Hs C IH]; intros W Hh Hx; auto.
    destruct (one_step _ _ W Hs) as (N1 & N2 & N3). rewrite <- N2. apply IH; auto.
    - now rewrite N2.
    - destruct Hx as (z & Hz). exists z. rewrite N1. eapply ol_lt_le_trans; eauto. apply al_mono; eauto. }
  destruct K as (K1 & K2 & K3). destruct (one_step _ _ K1 Hc) as (N1 & _). rewrite N1.
  apply al_mono; auto. now rewrite K2.
Qed.

Lemma reachable_good (OT' : Ops) (E' : @Env OT') (rhs' : rhs_t) m' fuel' o' tb' s :
  reachable rhs' m' fuel' o' tb' s -> good rhs' m' s.
Proof.
  intros (s0 & f & cs & B & ->). apply session_good. eapply built_good; eauto.
Qed.

(** recorded times stay in order *)
Lemma in_order_session s fuel cs : is_fixed m = true -> good rhs m s -> leb zero (hstep s) = true ->
  (exists x, ltb x (now s) = true) -> in_order s ->
  in_order (session sv fuel cs s) /\ hstep (session sv fuel cs s) = hstep s.
Proof.
  intros Hf G Hh Hx O.
  enough (K : (fun x => good rhs m x /\ hstep x = hstep s /\ (exists z, ltb z (now x) = true) /\ in_order x) (session sv fuel cs s)) by (cbv beta in K; tauto).
  apply (session_inv sv (fun x => good rhs m x /\ hstep x = hstep s /\ (exists z, ltb z (now x) = true) /\ in_order x)); auto.
  - intros b x _ Hw (Gx & Hhx & Hzx & Ox).
    pose proof (good_core rhs m fuelc o x Gx) as G'. cbn [s_core sv solver_of].
    destruct (core_of m fuelc o rhs x) as [r x'] eqn:e. cbn [snd] in *. split; auto.
    destruct r as [[]| |].
    + assert (Hn : now x' = add (now x) (hstep x) /\ hstep x' = hstep x).
      { pose proof e as e'. apply core_of_ok in e'; [|intros; congruence].
        destruct e' as (_ & _ & A2 & t & y & f & (P1 & P2) & D). specialize (D Hf).
        destruct Gx as ((Wx & _) & _). destruct (len_history_pos m) as (k & Hk). rewrite Hk in Wx.
        split; auto. unfold now. now rewrite P1, (push_t _ _ _ _ _ Wx), D. }
      destruct Hn as (N1 & N2).
      assert (Hle : leb (now x) (now x') = true) by (rewrite N1; apply al_mono; auto; now rewrite Hhx).
      split; [congruence|]. split.
      * destruct Hzx as (z & Hz). exists z. eapply ol_lt_le_trans; eauto.
      * destruct Gx as (Wx & _). eapply (core_in_order m fuelc o rhs tb b x x'); auto. split; auto.
    + apply core_of_ok in e; [|intros; congruence]. destruct e as (_ & _ & A2 & D). rewrite (A2 Hf).
      unfold in_order, now. rewrite D. auto.
    + apply core_of_ok in e; [|intros; congruence]. destruct e as (_ & _ & A2 & D). rewrite (A2 Hf).
      unfold in_order, now. rewrite D. auto.
  - intros t x (Gx & Hhx & Hzx & Ox). split. now apply good_interp. cbn [s_interp sv solver_of].
    destruct (interp_of m rhs t x) as [r x'] eqn:e. apply interp_of_ok in e as (A & B & _).
    cbn. unfold in_order, now. rewrite A, B. auto.
Qed.
End A.

Section R.
Context {E : @Env Rops}.
Existing Instance Rops.
Variable m : @meth Rops.
Variables (fuelc : nat) (o : @options Rops) (rhs : @rhs_t Rops) (tb : @ext Rops).
Let sv := solver_of m fuelc o rhs tb.
Lemma forward_var s : is_fixed m = false -> wf m s -> sane o -> (0 <= hstep s)%R -> forward sv s.
Proof.
  intros Hf W Ho Hh.
  assert (one_step : forall x x', wf m x -> (0 <= hstep x)%R -> completes sv tb x x' ->
     (now x <= now x')%R /\ (0 <= hstep x')%R /\ wf m x').
  { intros x x' Wx Hhx (_ & Hc). pose proof (core_wf m fuelc o rhs x Wx) as K. cbn in Hc. rewrite Hc in K. cbn in K.
    destruct (len_history_pos m) as (k & Hk). destruct Wx as (Wx & _). rewrite Hk in Wx.
    assert (K' : (0 <= hstep x')%R /\ (now x <= now x' <= now x + hstep x)%R).
    { destruct m; try discriminate; cbn [core_of] in Hc;
      exact (core_fsal_R _ _ _ _ _ _ _ _ _ _ _ _ Ho (error_exponent_pos _) Wx Hc Hhx). }
    intuition lra. }
  intros l x x' C Hc.
  assert (K : wf m x /\ (0 <= hstep x)%R).
  { clear Hc x'. revert W Hh. change (s_bound sv) with tb in C.
    induction C as [s|s s1 l s2 Hs C IH]; intros W Hh; auto.
    destruct (one_step _ _ W Hh Hs) as (_ & N2 & N3). auto. }
  destruct K as (K1 & K2). destruct (one_step _ _ K1 K2 Hc) as (N & _).
  apply Rleb_true. exact N.
Qed.
End R.
