(** Events: the API call. *)
From Coq Require Import List ZArith QArith Bool Arith Lia Reals Lra Sorted.
From Verif Require Import Base Scalar Vec MBuffer MZeros MSteps MApi MClasses Laws Spec SpecInst SpecEv
  PStep PKeeps PCore PHist PBound PRun PRun2 PRun3 PEv1 PEv2.
Import ListNotations.
Open Scope nat_scope.

Section Api.
Context {OT : Ops} {L : OrdLaws OT} {E : Env}.
Variables (m : meth) (fuelc : nat) (o : options) (rhs : rhs_t) (tb : ext).
Let sv := solver_of m fuelc o rhs tb.

Lemma filter_nil {A} (f : A -> bool) l : filter f l = [] -> Forall (fun x => f x = false) l.
Proof. induction l as [|a l IH]; cbn; auto. destruct (f a) eqn:e; [discriminate|]. auto. Qed.
Lemma fetch t t' (s : st) : ordered t t' -> (if is_sorted t then ret t else lift (fancy t (np_argsort t))) s = (Ret t', s).
Proof. intros [(-> & ->)|(-> & _ & H & _)]; auto. unfold lift. now rewrite H. Qed.

(** a call that returns: all requests are in the future, the handler was built,
    and the rows were put in the requested order *)
Lemma run_events_inv fuel t t' evs s r s' : ordered t t' -> evs <> [] ->
  run_events sv fuel t evs s = (Ret r, s') ->
  exists es rows es' last', t' <> [] /\ Forall (fun x => leb x (now s) = false) t' /\
    build_handler evs (now s) (state s) = Ret es /\
    run_eval_events_ sv fuel t' (es, None) s = (Ret (rows, (es', last')), s') /\
    rr_tev r = map ev_ts es' /\ rr_yev r = map ev_ys es' /\
    (if is_sorted t then rr_rows r = rows else fancy rows (inv_perm (np_argsort t)) = Ret (rr_rows r)) /\
    (forall vs z', run_eval_ sv fuel t' s = (Ret vs, z') -> combine t' vs = rows -> run sv fuel t s = (Ret (rr_rows r), z')).
Proof.
  intros Ho He H. unfold run_events in H. cbv zeta in H. unfold bind at 1 in H. rewrite (fetch t t' s Ho) in H.
  destruct t' as [|ta tr]; [discriminate|].
  destruct (ltb ta (buf_t0 (cache s))) eqn:e0; [discriminate|].
  unfold bind at 1 in H. unfold check_time in H. destruct (ext_gt _ _) eqn:e1; [discriminate|]. unfold ret at 1 in H.
  fold (now s) in H.
  set (told := filter (fun x => leb x (now s)) (ta :: tr)) in *.
  set (trun := filter (fun x => negb (leb x (now s))) (ta :: tr)) in *.
  destruct told as [|x told0] eqn:eo.
  2:{ exfalso. unfold bind at 1 in H. destruct (mapM _ _ s) as [[yold| |] s1]; try discriminate.
      unfold bind at 1 in H. match type of H with context [match ?f s1 with _ => _ end] => destruct (f s1) as [[res| |] s2] end; try discriminate.
      destruct evs; [congruence|]. cbn [andb] in H. discriminate. }
  assert (Hf : Forall (fun x => leb x (now s) = false) (ta :: tr)).
  { apply filter_nil. unfold told in *. exact eo. }
  assert (Ht : trun = ta :: tr).
  { unfold trun. apply filter_all. eapply Forall_impl; [|exact Hf]. cbn. intros x ->. reflexivity. }
  rewrite Ht in H. cbn [mapM] in H. unfold bind at 1 in H. unfold ret at 1 in H. 
  destruct evs as [|u evs]; [congruence|]. unfold bind at 1 in H. unfold bind at 1 in H. unfold get at 1 in H.
  unfold bind at 1 in H. unfold lift at 1 in H. fold (now s) (state s) in H.
  destruct (build_handler (u :: evs) (now s) (state s)) as [es| |] eqn:eb; try discriminate.
  unfold bind at 1 in H. fold sv in H.
  destruct (run_eval_events_ sv fuel (ta :: tr) (es, None) s) as [[[rows [es' last']]| |] s2] eqn:er; try discriminate.
  unfold ret at 1 in H. cbn [andb combine app fst snd rr_rows rr_tev rr_yev] in H.
  assert (Hrun : forall vs z', run_eval_ sv fuel (ta :: tr) s = (Ret vs, z') ->
     run sv fuel t s = (if is_sorted t then (Ret (combine (ta :: tr) vs), z') else
       match fancy (combine (ta :: tr) vs) (inv_perm (np_argsort t)) with Ret x => (Ret x, z') | Raise e => (Raise e, z') | Loop => (Loop, z') end)).
  { intros vs z' Hev. unfold run, run_events. cbv zeta. unfold bind at 1. unfold bind at 1. rewrite (fetch t (ta :: tr) s Ho).
    rewrite e0. unfold bind at 1. unfold check_time. rewrite e1. unfold ret at 1. fold (now s).
    fold told trun. rewrite eo, Ht. cbn [mapM]. unfold bind at 1. unfold ret at 1. unfold bind at 1. unfold bind at 1.
    fold sv. rewrite Hev. unfold ret at 1. cbn [andb combine app rr_rows rr_tev rr_yev].
    destruct (is_sorted t). reflexivity. unfold bind, lift. match goal with |- _ = match ?f with _ => _ end => destruct f end; reflexivity. }
  destruct (is_sorted t) eqn:es0.
  - unfold ret in H. inv H. exists es, rows, es', last'. cbn [rr_rows rr_tev rr_yev].
    split; [discriminate|]. split; [exact Hf|]. split; [first [exact eb|reflexivity]|]. split; [first [exact er|reflexivity]|]. repeat (split; [reflexivity|]).
    intros vs z' Hev Hc. rewrite (Hrun vs z' Hev). now rewrite <- Hc.
  - unfold bind, lift in H. destruct (fancy rows (inv_perm (np_argsort t))) as [rows2| |] eqn:ef; try discriminate.
    unfold ret in H. inv H. exists es, rows, es', last'. cbn [rr_rows rr_tev rr_yev].
    split; [discriminate|]. split; [exact Hf|]. split; [first [exact eb|reflexivity]|]. split; [first [exact er|reflexivity]|]. repeat (split; [reflexivity|]). split; [exact ef|].
    intros vs z' Hev Hc. rewrite (Hrun vs z' Hev). rewrite Hc, ef. reflexivity.
Qed.

Lemma omapM_nth {A B} (f : A -> outcome B) : forall l r, omapM f l = Ret r ->
  length r = length l /\ forall j a, nth_error l j = Some a -> exists b, nth_error r j = Some b /\ f a = Ret b.
Proof.
  induction l as [|a l IH]; intros r H; cbn [omapM] in H.
  - injection H as <-. split; auto. intros [|j] a H; discriminate.
  - destruct (f a) as [b| |] eqn:e; cbn [obind] in H; try discriminate.
    destruct (omapM f l) as [bs| |] eqn:e2; cbn [obind] in H; try discriminate. injection H as <-.
    destruct (IH bs eq_refl) as (L1 & L2). split; [cbn; now rewrite L1|].
    intros [|j] a' Ha; cbn in *; [injection Ha as <-; eauto | eauto].
Qed.
End Api.

Section Quiet.
Context {OT : Ops} {L : OrdLaws OT} {E : Env}.
Variables (m : meth) (fuelc : nat) (o : options) (rhs : rhs_t) (tb : ext).
Let sv := solver_of m fuelc o rhs tb.
Variables (J : st -> Prop) (inr : st -> T -> Prop).
Hypothesis J_core : forall s s', J s -> s_core sv s = (Ret tt, s') -> J s'.
Hypothesis J_interp : forall t s, J s -> J (snd (s_interp sv t s)).
Hypothesis agree : forall t x s, J x -> J s -> sim x s -> inr s t ->
  fst (s_interp sv t x) = fst (s_interp sv t s).
Hypothesis inr_mid : forall s a b, inr s a -> inr s b -> inr s (div (add a b) two).
Hypothesis inr_ends : forall s s', J s -> s_core sv s = (Ret tt, s') -> inr s' (now s) /\ inr s' (now s').
Hypothesis inr_target : forall s s' t, J s -> s_core sv s = (Ret tt, s') ->
  ltb (now s) t = true -> ltb (now s') t = false -> inr s' t.
Hypothesis inr_later : forall s t t', inr s t -> leb t t' = true -> ltb (now s) t' = false -> inr s t'.

(** everything a returning call tells, in terms of plain steps *)
Lemma call_spec fuel t t' evs s r s' : J s -> ordered t t' -> evs <> [] ->
  (forall x, leb x (now s) = false -> ltb (now s) x = true \/ inr s x) ->
  run_events sv fuel t evs s = (Ret r, s') ->
  exists es es' l s1, build_handler evs (now s) (state s) = Ret es /\
    chain sv tb s l s1 /\ sim s' s1 /\ J s1 /\ rr_tev r = map ev_ts es' /\ rr_yev r = map ev_ys es' /\
    t' <> [] /\ Forall (fun x => leb x (now s) = false) t' /\
    ((evolves m fuelc o rhs tb es l es' /\ exists z', run sv fuel t s = (Ret (rr_rows r), z') /\ sim z' s1) \/
     exists ty k vs s0, ended m fuelc o rhs tb es l s1 es' ty /\
       (if is_sorted t then rr_rows r = combine (firstn k t') vs ++ [ty]
        else fancy (combine (firstn k t') vs ++ [ty]) (inv_perm (np_argsort t)) = Ret (rr_rows r)) /\
       length vs = k /\ run_eval_ sv fuel (firstn k t') s = (Ret vs, s0) /\
       exists tk, nth_error t' k = Some tk /\ ltb (now (before_last s l)) tk = true).
Proof.
  intros Js Ho He Hh H. apply (run_events_inv m fuelc o rhs tb fuel t t') in H as (es & rows & es' & last' & H1 & H2 & H3 & H4 & H5 & H6 & H7 & H8); auto.
  destruct (ordered_perm _ _ Ho) as (_ & Hso).
  assert (Fe : Forall (fun e => ev_last_t e = now s) es).
  { apply Forall_forall. intros e Hin. apply In_nth_error in Hin as (j & Hj).
    apply omapM_nth in H3 as (Ln & Hn). destruct (nth_error evs j) as [u|] eqn:eu.
    - destruct (Hn j u eu) as (e' & A & B). assert (e' = e) by congruence. subst e'.
      unfold build_event in B. destruct (dir_of _); cbn [obind] in B; try discriminate.
      destruct (ue_fun _ _ _); cbn [obind] in B; try discriminate. injection B as <-. reflexivity.
    - apply nth_error_None in eu. assert (j < length es) by (apply nth_error_Some; congruence). lia. }
  apply (eval_ev_spec m fuelc o rhs tb J inr J_core J_interp agree inr_mid inr_ends inr_target inr_later fuel t' es s s) in H4
    as (l & s1 & C & S & Jx & J1 & HC); auto; [|apply sim_refl|].
  2:{ intros ti Hti. apply Hh. destruct t' as [|a t'']; [discriminate|]. injection Hti as ->. now inversion H2. }
  exists es, es', l, s1. repeat (split; [assumption|]).
  destruct HC as [(D1 & vs & D2 & D3) | (ty & k & vs & s0 & D1 & -> & D3 & D4 & tk & D5 & D6)].
  - left. split; auto. destruct (D3 s Js (sim_refl s)) as (z' & R1 & R2). exists z'. split; auto. apply (H8 vs z'); auto.
  - destruct (D4 s Js (sim_refl s)) as (z' & R1 & R2). right. exists ty, k, vs, z'. split; auto. split; [exact H7|]. split; auto.
    split; [exact R1|]. exists tk. auto.
Qed.

(** C46: nothing but the interpolator can differ from a plain run *)
Lemma quiet_lemma fuel t t' evs s r s' : J s -> ordered t t' -> evs <> [] ->
  (forall x, leb x (now s) = false -> ltb (now s) x = true \/ inr s x) ->
  (forall u, In u evs -> ue_terminal u <> Some true) ->
  run_events sv fuel t evs s = (Ret r, s') ->
  exists s1, run sv fuel t s = (Ret (rr_rows r), s1) /\ cache s1 = cache s' /\ hstep s1 = hstep s' /\ stages s1 = stages s'.
Proof.
  intros Js Ho He Hh Hq H.
  apply (call_spec fuel t t') in H as (es & es' & l & s1 & H1 & H2 & H3 & H4 & H5 & H6 & H7 & H8 & HC); auto.
  destruct HC as [(D1 & z' & D2 & D3) | (ty & k & vs & s0 & D1 & _)].
  - exists z'. split; auto. apply sim_iff. eapply sim_trans; [exact D3|]. now apply sim_sym.
  - exfalso. assert (Fq : Forall (fun e => ev_term e = false) es).
    { apply Forall_forall. intros e Hin. apply In_nth_error in Hin as (j & Hj).
      apply omapM_nth in H1 as (Ln & Hn). destruct (nth_error evs j) as [u|] eqn:eu.
      - destruct (Hn j u eu) as (e' & A & B). assert (e' = e) by congruence. subst e'.
        unfold build_event in B. destruct (dir_of _); cbn [obind] in B; try discriminate.
        destruct (ue_fun _ _ _); cbn [obind] in B; try discriminate. injection B as <-. cbn.
        apply nth_error_In in eu. specialize (Hq u eu). destruct (ue_terminal u) as [[]|]; congruence.
      - apply nth_error_None in eu. assert (j < length es) by (apply nth_error_Some; congruence). lia. }
    assert (Q1 : forall x es1 bs es2, evolves1s m fuelc o rhs tb x es1 bs es2 -> Forall (fun e => ev_term e = false) es1 ->
       Forall (fun e => ev_term e = false) es2 /\ existsb (fun b => b) bs = false).
    { induction 1 as [|e b e' es1 bs es2 HH _ IH]; intros F; [split; [constructor|reflexivity]|]. inversion F; subst.
      rename H9 into Hte. destruct (IH H10) as (F2 & B2). pose proof HH as HK. apply evolves1_keeps in HK as (_ & K2 & _ & _).
      split; [constructor; [congruence|auto]|]. cbn. rewrite B2, orb_false_r.
      unfold evolves1, ev_evaluate, bind, lift, ret in HH. destruct (ev_fun e _ _); try discriminate.
      match type of HH with context [let (_, _) := ?f x in _] => destruct (f x) as [[rec| |] x1] end; try discriminate.
      cbn [fst] in HH. injection HH as <- _. rewrite Hte. apply andb_false_r. }
    destruct D1 as (l0 & es0 & bs & a & -> & A1 & A2 & A3 & _).
    assert (F0 : Forall (fun e => ev_term e = false) es0).
    { clear - A1 Fq Q1. induction A1; auto. apply IHA1. now apply (Q1 _ _ _ _ H). }
    destruct (Q1 _ _ _ _ A2 F0) as (_ & B). congruence.
Qed.
End Quiet.
