(** run without events: C13-C18. *)
From Coq Require Import List ZArith Bool Arith Lia.
From Verif Require Import Base Scalar Vec MBuffer MZeros MSteps MApi MClasses Laws Spec SpecInst
  PStep PKeeps PCore PHist.
Import ListNotations.

Section Indep.
Context {OT : Ops} {E : Env}.

(** the step does not look at the interpolator *)
Definition commutes {A} (m : M st A) : Prop :=
  forall i s, m (set_interp i s) = (fst (m s), set_interp i (snd (m s))).

Lemma commutes_bind {A B} (m : M st A) (k : A -> M st B) :
  commutes m -> (forall a, commutes (k a)) -> commutes (bind m k).
Proof.
  intros Hm Hk i s. unfold bind. rewrite Hm. destruct (m s) as [[a| |] s1]; cbn; auto. apply Hk.
Qed.
Lemma commutes_lift {A} (o : outcome A) : commutes (lift o). Proof. intros i s; auto. Qed.
Lemma commutes_ret {A} (o : A) : commutes (ret o). Proof. intros i s; auto. Qed.
Lemma commutes_push t y f : commutes (push_st t y f). Proof. intros i s; auto. Qed.
Lemma commutes_setK i v : commutes (set_K i v). Proof. intros j s; auto. Qed.
(** reading only fields other than the interpolator *)
Lemma commutes_fun {A} (f : st -> M st A) :
  (forall i s, f (set_interp i s) = f s) -> (forall s, commutes (f s)) -> commutes (fun s => f s s).
Proof. intros H1 H2 i s. rewrite H1. apply H2. Qed.

Lemma commutes_get {A} (f : st -> M st A) :
  (forall i s, f (set_interp i s) = f s) -> (forall s, commutes (f s)) -> commutes (bind get f).
Proof. intros H1 H2 i s. unfold bind, get. rewrite H1. apply H2. Qed.

Lemma commutes_erk_stages rhs t y h rows : forall cs k, commutes (erk_stages rhs t y h k rows cs).
Proof.
  induction rows; intros [|c cs] k; cbn [erk_stages]; try apply commutes_ret.
  apply commutes_get. reflexivity. intros s. cbn.
  apply commutes_bind. apply commutes_lift. intros. apply commutes_bind. apply commutes_setK. intros; apply IHrows.
Qed.
Lemma commutes_erk A B C rhs : commutes (erk_fixed_step A B C rhs).
Proof.
  unfold erk_fixed_step. apply (commutes_fun (fun s0 => _)). reflexivity. intros s.
  apply commutes_bind. apply commutes_setK. intros _. apply commutes_bind. apply commutes_erk_stages.
  intros _. apply commutes_get. reflexivity. intros. apply commutes_ret.
Qed.
Lemma commutes_fsal A B C rhs : commutes (fsal_fixed_step A B C rhs).
Proof.
  unfold fsal_fixed_step. apply (commutes_fun (fun s0 => _)). reflexivity. intros s.
  apply commutes_bind. apply commutes_setK. intros _. apply commutes_bind. apply commutes_erk_stages.
  intros _. apply commutes_get. reflexivity. intros x. cbv zeta. apply commutes_bind. apply commutes_lift.
  intros. apply commutes_bind. apply commutes_setK. intros; apply commutes_ret.
Qed.
Lemma commutes_update en o e : commutes (step_update en o e).
Proof.
  unfold step_update. intros i s. destruct (eqb en zero); auto.
  unfold bind, lift. destruct (sdiv _ _); auto.
Qed.
Lemma commutes_core_fsal fuel A B C norm o e rhs :
  (forall o y i s, norm o y (set_interp i s) = norm o y s) ->
  commutes (core_fsal fuel A B C norm o e rhs).
Proof.
  intros Hn. induction fuel; cbn [core_fsal]. intros i s; auto.
  apply commutes_bind. apply commutes_fsal. intros [t y]. apply commutes_get.
  intros; now rewrite Hn. intros s. apply commutes_bind. apply commutes_lift. intros en.
  apply commutes_bind. apply commutes_update. intros []; auto.
  apply commutes_get. reflexivity. intros; apply commutes_push.
Qed.
Lemma commutes_core m fuel o rhs : commutes (core_of m fuel o rhs).
Proof.
  destruct m; cbn [core_of].
  - intros i s. unfold core_expl_ms, expl_ms_fixed_step. cbn [cache hstep set_interp].
    refine (commutes_bind _ _ _ _ i s). apply commutes_lift. intros; apply commutes_push.
  - intros i s. unfold core_impl_ms. cbn [cache hstep set_interp].
    refine (commutes_bind _ _ _ _ i s). apply commutes_lift. intros [t y].
    apply commutes_bind. apply commutes_lift. intros; apply commutes_push.
  - unfold core_erk. apply commutes_bind. apply commutes_erk. intros [t y].
    apply commutes_bind. apply commutes_lift. intros; apply commutes_push.
  - apply commutes_core_fsal. reflexivity.
  - apply commutes_core_fsal. reflexivity.
Qed.

(** equal up to the interpolator *)
Definition sim (s s' : st) : Prop := set_interp (interp s) s' = s.
Lemma sim_iff s s' : sim s s' <-> cache s = cache s' /\ hstep s = hstep s' /\ stages s = stages s'.
Proof. unfold sim, set_interp. destruct s, s'; cbn. split; [intros H; inv H; auto | intros (-> & -> & ->); auto]. Qed.
Lemma sim_refl s : sim s s. Proof. now apply sim_iff. Qed.
Lemma sim_sym s s' : sim s s' -> sim s' s. Proof. rewrite !sim_iff. intuition congruence. Qed.
Lemma sim_trans a b c : sim a b -> sim b c -> sim a c. Proof. rewrite !sim_iff. intuition congruence. Qed.

Lemma sim_core m fuel o rhs s s' : sim s s' ->
  fst (core_of m fuel o rhs s) = fst (core_of m fuel o rhs s') /\
  sim (snd (core_of m fuel o rhs s)) (snd (core_of m fuel o rhs s')).
Proof.
  intros H. unfold sim in H. rewrite <- H. rewrite (commutes_core m fuel o rhs (interp s) s'). cbn.
  split; auto. apply sim_iff. auto.
Qed.
Lemma sim_now s s' : sim s s' -> now s = now s'. Proof. rewrite sim_iff. unfold now. intuition congruence. Qed.
Lemma sim_pass b s s' : sim s s' -> (would_pass b s <-> would_pass b s').
Proof. rewrite sim_iff. unfold would_pass, now. intros (-> & -> & _). tauto. Qed.

Lemma interp_sim m rhs t s r s' : interp_of m rhs t s = (r, s') -> sim s' s.
Proof. intros H. apply interp_of_ok in H as (A & B & C). now apply sim_iff. Qed.
End Indep.

Section Run.
Context {OT : Ops} {E : Env}.
Variable m : meth.
Variables (fuelc : nat) (o : options) (rhs : rhs_t) (tb : ext).
Let sv := solver_of m fuelc o rhs tb.

Lemma sim_chain b s l s' : chain sv b s l s' -> forall x, sim x s ->
  exists lx x', chain sv b x lx x' /\ sim x' s' /\ Forall2 sim lx l.
Proof.
  induction 1; intros x Hx.
  - exists [], x. repeat split; auto. constructor.
  - destruct H as (Hw & Hc). destruct (sim_core m fuelc o rhs x s Hx) as (A & B).
    cbn in Hc. rewrite Hc in A, B. cbn in A, B.
    destruct (core_of m fuelc o rhs x) as [r x1] eqn:e. cbn in A, B. subst r.
    destruct (IHchain x1 B) as (lx & x' & P1 & P2 & P3).
    exists (x1 :: lx), x'. repeat split; auto. econstructor; eauto. split; auto.
    intro W. apply Hw. eapply sim_pass; [|exact W]. now apply sim_sym.
Qed.

(** ** one target time: steps are taken while now < ti *)
Lemma run_until_spec fuel ti : forall s r s', run_until sv fuel ti s = (r, s') ->
  match r with
  | Ret true => exists l, upto_target sv ti s l s' /\ ltb (now s') ti = false
  | Ret false => exists l, upto_target sv ti s l s' /\ ltb (now s') ti = true /\ would_pass tb s'
  | Raise e => exists l s1, upto_target sv ti s l s1 /\ ltb (now s1) ti = true /\ ~ would_pass tb s1
               /\ s_core sv s1 = (Raise e, s')
  | Loop => True
  end.
Proof.
  assert (cons : forall s s1 l s2, ltb (now s) ti = true -> completes sv tb s s1 ->
             upto_target sv ti s1 l s2 -> upto_target sv ti s (s1 :: l) s2).
  { intros s s1 l s2 H1 H2 (C & F). split. econstructor; eauto.
    change (removelast (s :: s1 :: l)) with (s :: removelast (s1 :: l)). constructor; auto. }
  induction fuel; intros s r s' H; cbn [run_until] in H.
  - destruct (ltb (buf_t (cache s)) ti) eqn:e; inv H; auto.
    exists []. repeat split; auto. constructor. constructor.
  - destruct (ltb (buf_t (cache s)) ti) eqn:e.
    2:{ inv H. exists []. repeat split; auto; constructor. }
    unfold bind in H. destruct (step_cases sv (s_bound sv) s) as [[Hw He] | [Hw He]]; rewrite He in H.
    + inv H. exists []. split; [split; constructor|]. split; auto.
    + destruct (s_core sv s) as [[[]| |] s1] eqn:ec.
      * apply IHfuel in H.
        assert (Hc : completes sv tb s s1) by (split; auto).
        destruct r as [[]| |]; auto.
        -- destruct H as (l & A & B). exists (s1 :: l). split; [now apply cons | auto].
        -- destruct H as (l & A & B & C). exists (s1 :: l). split; [now apply cons | auto].
        -- destruct H as (l & x & A & B). exists (s1 :: l), x. split; [now apply cons | auto].
      * inv H. exists [], s. split; [split; constructor|]. auto.
      * inv H. auto.
Qed.

(** more than enough fuel *)
Lemma run_until_complete ti l : forall s s', upto_target sv ti s l s' -> ltb (now s') ti = false ->
  forall fuel, length l <= fuel -> run_until sv fuel ti s = (Ret true, s').
Proof.
  induction l as [|s1 l IH]; intros s s' (C & F) Hn fuel Hl.
  - inv C. destruct fuel; cbn [run_until]; unfold now in Hn; now rewrite Hn.
  - inv C. change (removelast (s :: s1 :: l)) with (s :: removelast (s1 :: l)) in F. inv F.
    destruct fuel; [cbn in Hl; lia|]. cbn [run_until]. unfold now in H1. rewrite H1. unfold bind.
    destruct H2 as (Hw & Hc). destruct (step_cases sv (s_bound sv) s) as [[? _] | [_ He]]; [contradiction|].
    rewrite He, Hc. apply IH; auto. split; auto. cbn in Hl; lia.
Qed.

(** ** several target times *)
Lemma sampled_app s t1 v1 s1 t2 v2 s2 : sampled sv s t1 v1 s1 -> sampled sv s1 t2 v2 s2 ->
  sampled sv s (t1 ++ t2) (v1 ++ v2) s2.
Proof. induction 1; cbn; intros; auto. econstructor; eauto. Qed.
Lemma sampled_len s t v s' : sampled sv s t v s' -> length v = length t.
Proof. induction 1; cbn; auto. Qed.

Lemma run_eval_spec fuel ts : forall s vs s', run_eval_ sv fuel ts s = (Ret vs, s') ->
  exists t1 t2 s1, ts = t1 ++ t2 /\ sampled sv s t1 vs s1 /\
  ((t2 = [] /\ s' = s1) \/ exists tj t3, t2 = tj :: t3 /\ refused sv tj s1 s').
Proof.
  induction ts as [|ti ts IH]; intros s vs s' H; cbn [run_eval_] in H.
  - inv H. exists [], [], s'. repeat split; auto. constructor.
  - unfold bind in H. destruct (run_until sv fuel ti s) as [[[]| |] s1] eqn:e; try discriminate;
      apply run_until_spec in e.
    + destruct e as (l & A & B). unfold interp_copy, bind, get, ret in H.
      cbn [s_interp sv solver_of] in H.
      destruct (interp_of m rhs ti s1) as [[a| |] s2] eqn:ei; try discriminate.
      destruct (run_eval_ sv fuel ts s2) as [[vs'| |] s3] eqn:er; inv H.
      apply IH in er as (t1 & t2 & s4 & -> & C & D).
      exists (ti :: t1), t2, s4. split; auto. split; auto. econstructor; eauto.
    + inv H. exists [], (ti :: ts), s. split; auto. split. constructor.
      right. exists ti, ts. split; auto. 
Qed.

Lemma mapM_interp_spec told : forall s vs s',
  Forall (fun x => ltb (now s) x = false) told ->
  mapM (fun x => interp_copy (interpolate sv) x) told s = (Ret vs, s') ->
  sampled sv s told vs s' /\ now s' = now s.
Proof.
  induction told as [|x told IH]; intros s vs s' Hf H; cbn [mapM] in H.
  - inv H. split; [constructor | auto].
  - inv Hf. unfold bind in H at 1. unfold interp_copy at 1 in H. unfold bind in H at 1.
    unfold interpolate at 1 in H. destruct (negb _); [discriminate|].
    cbn [s_interp sv solver_of] in H.
    destruct (interp_of m rhs x s) as [[a| |] s1] eqn:ei; try discriminate.
    unfold bind, get, ret in H. 
    assert (Hn : now s1 = now s). { apply interp_of_ok in ei as (K & _). unfold now. now rewrite K. }
    match type of H with context [mapM ?f told s1] => destruct (mapM f told s1) as [[vs'| |] s2] eqn:er end; inv H.
    apply IH in er as (C & D); [|now rewrite Hn]. split; [|congruence].
    econstructor; eauto. split; constructor.
Qed.
End Run.

Section Sorted.
Context {OT : Ops} {L : OrdLaws OT} {E : Env}.

Lemma sorted_cons a t : is_sorted (a :: t) = true -> is_sorted t = true /\ Forall (fun x => leb a x = true) t.
Proof.
  revert a; induction t as [|b t IH]; intros a H; [split; auto|].
  cbn [is_sorted] in H. apply andb_true_iff in H as (A & B). split; auto.
  destruct (IH b B) as (_ & C). constructor; auto. eapply Forall_impl; [|exact C].
  intros x Hx. eapply ol_trans; eauto.
Qed.

Lemma filter_none {A} (f : A -> bool) l : Forall (fun x => f x = false) l -> List.filter f l = [].
Proof. induction 1; cbn; auto. now rewrite H. Qed.
Lemma filter_all {A} (f : A -> bool) l : Forall (fun x => f x = true) l -> List.filter f l = l.
Proof. induction 1; cbn; auto. now rewrite H, IHForall. Qed.

Lemma sorted_split now t : is_sorted t = true ->
  List.filter (fun x => leb x now) t ++ List.filter (fun x => negb (leb x now)) t = t.
Proof.
  induction t as [|a t IH]; intros H; auto.
  destruct (sorted_cons _ _ H) as (H1 & H2). cbn [List.filter]. destruct (leb a now) eqn:e; cbn [negb].
  - cbn. now rewrite IH.
  - rewrite filter_none.
    + cbn. f_equal. apply filter_all. eapply Forall_impl; [|exact H2]. cbn. intros x Hx.
      destruct (leb x now) eqn:ex; auto. rewrite (ol_trans _ _ _ Hx ex) in e. discriminate.
    + eapply Forall_impl; [|exact H2]. cbn. intros x Hx.
      destruct (leb x now) eqn:ex; auto. rewrite (ol_trans _ _ _ Hx ex) in e. discriminate.
Qed.

Variable m : meth.
Variables (fuelc : nat) (o : options) (rhs : rhs_t) (tb : ext).
Let sv := solver_of m fuelc o rhs tb.

(** run on a sorted list, checks spelled out *)
Lemma run_sorted_eq fuel ta tr s : is_sorted (ta :: tr) = true ->
  run sv fuel (ta :: tr) s =
  if ltb ta (buf_t0 (cache s)) then (Raise ValueError, s)
  else if ext_gt (Fin (list_max ta tr)) tb then (Raise ValueError, s)
  else
    let told := List.filter (fun x => leb x (now s)) (ta :: tr) in
    let trun := List.filter (fun x => negb (leb x (now s))) (ta :: tr) in
    match mapM (fun x => interp_copy (interpolate sv) x) told s with
    | (Ret yold, s1) =>
        match run_eval_ sv fuel trun s1 with
        | (Ret vs, s2) => (Ret (combine told yold ++ combine trun vs), s2)
        | (Raise e, s2) => (Raise e, s2)
        | (Loop, s2) => (Loop, s2)
        end
    | (Raise e, s1) => (Raise e, s1)
    | (Loop, s1) => (Loop, s1)
    end.
Proof.
  intros Hs. unfold run, run_events. cbv zeta. rewrite Hs. unfold bind at 1. unfold bind at 1. unfold ret at 1.
  unfold now. destruct (ltb ta (buf_t0 (cache s))) eqn:e1; [reflexivity|].
  unfold bind at 1. unfold check_time. change (s_bound sv) with tb.
  destruct (ext_gt (Fin (list_max ta tr)) tb); [reflexivity|]. unfold ret at 1.
  unfold bind at 1.
  match goal with |- context [mapM ?f ?l s] => destruct (mapM f l s) as [[yold| |] s1] end; auto.
  unfold bind. 
  match goal with |- context [run_eval_ sv fuel ?l s1] => destruct (run_eval_ sv fuel l s1) as [[vs| |] s2] end; auto.
  cbn [ret]. rewrite andb_false_r. reflexivity.
Qed.

Lemma combine_fst {A B} (l : list A) (r : list B) : map fst (combine l r) = firstn (length r) l.
Proof.
  revert r; induction l; intros [|b r]; cbn; auto. now rewrite IHl.
Qed.
Lemma combine_snd {A B} (l : list A) (r : list B) : length r <= length l -> map snd (combine l r) = r.
Proof. revert r; induction l; intros [|b r]; cbn; intros; auto; try lia. rewrite IHl; auto; lia. Qed.

(** C13 *)
Lemma C13_lemma fuel t s rows s' : is_sorted t = true -> run sv fuel t s = (Ret rows, s') ->
  exists s1, map fst rows = firstn (length rows) t /\
    sampled sv s (map fst rows) (map snd rows) s1 /\
    ((length rows = length t /\ s' = s1) \/
     exists tj, nth_error t (length rows) = Some tj /\ refused sv tj s1 s').
Proof.
  intros Hs H. destruct t as [|ta tr]; [discriminate|].
  rewrite run_sorted_eq in H by auto.
  destruct (ltb ta _); [discriminate|]. destruct (ext_gt _ tb); [discriminate|]. cbv zeta in H.
  pose proof (sorted_split (now s) (ta :: tr) Hs) as Hsp.
  set (told := List.filter (fun x => leb x (now s)) (ta :: tr)) in *.
  set (trun := List.filter (fun x => negb (leb x (now s))) (ta :: tr)) in *.
  destruct (mapM (fun x => interp_copy (interpolate sv) x) told s) as [[yold| |] s1] eqn:em; try discriminate.
  destruct (run_eval_ sv fuel trun s1) as [[vs| |] s2] eqn:er; inv H.
  apply mapM_interp_spec in em as (A & An).
  2:{ apply Forall_forall. intros x Hx. apply filter_In in Hx as (_ & Hx). now apply le_nlt. }
  apply run_eval_spec in er as (t1 & t2 & s3 & Ht & B & C).
  pose proof (sampled_len _ _ _ _ _ _ _ _ _ A) as La. pose proof (sampled_len _ _ _ _ _ _ _ _ _ B) as Lb.
  assert (Hlen : length trun = length t1 + length t2) by (rewrite Ht, app_length; auto).
  assert (R1 : map fst (combine told yold ++ combine trun vs) = told ++ t1).
  { rewrite map_app, !combine_fst, La, firstn_all. f_equal. rewrite Ht, Lb, firstn_app, Nat.sub_diag, firstn_all.
    cbn. now rewrite app_nil_r. }
  assert (R2 : map snd (combine told yold ++ combine trun vs) = yold ++ vs).
  { rewrite map_app, !combine_snd; auto; lia. }
  assert (R3 : length (combine told yold ++ combine trun vs) = length (told ++ t1)).
  { rewrite <- R1. now rewrite map_length. }
  exists s3. rewrite R1, R2, R3. rewrite <- Hsp, Ht. split; [|split].
  - rewrite app_assoc, firstn_app, Nat.sub_diag, firstn_all. cbn. now rewrite app_nil_r.
  - eapply sampled_app; eauto.
  - destruct C as [(-> & ->) | (tj & t3 & -> & C)].
    + left. split; auto. now rewrite app_nil_r.
    + right. exists tj. split; auto. rewrite app_assoc, nth_error_app2 by lia. now rewrite Nat.sub_diag.
Qed.

(** run is the plain loop whenever its checks pass *)
Lemma run_as_eval fuel ta tr s : is_sorted (ta :: tr) = true -> num (buf_t0 (cache s)) ->
  ltb ta (buf_t0 (cache s)) = false -> ext_gt (Fin (list_max ta tr)) tb = false ->
  run sv fuel (ta :: tr) s =
  match run_eval_ sv fuel (ta :: tr) s with
  | (Ret vs, s') => (Ret (combine (ta :: tr) vs), s')
  | (Raise e, s') => (Raise e, s')
  | (Loop, s') => (Loop, s')
  end.
Proof.
  intros Hs Hn H1 H2. rewrite run_sorted_eq, H1, H2 by auto. cbv zeta.
  set (t := ta :: tr) in *.
  assert (key : forall told trun s0, cache s0 = cache s ->
     Forall (fun x => leb x (now s) = true /\ leb (buf_t0 (cache s)) x = true) told ->
     match mapM (fun x => interp_copy (interpolate sv) x) told s0 with
     | (Ret yold, s1) =>
        match run_eval_ sv fuel trun s1 with
        | (Ret vs, s2) => (Ret (combine told yold ++ combine trun vs), s2)
        | (Raise e, s2) => (Raise e, s2)
        | (Loop, s2) => (Loop, s2)
        end
     | (Raise e, s1) => (Raise e, s1)
     | (Loop, s1) => (Loop, s1)
     end =
     match run_eval_ sv fuel (told ++ trun) s0 with
     | (Ret vs, s') => (Ret (combine (told ++ trun) vs), s')
     | (Raise e, s') => (Raise e, s')
     | (Loop, s') => (Loop, s')
     end).
  { induction told as [|x told IH]; intros trun s0 Hc Hf.
    - cbn [mapM app]. unfold ret. destruct (run_eval_ sv fuel trun s0) as [[| |] ?]; auto.
    - inv Hf. destruct H3 as (Hx1 & Hx2). cbn [mapM app run_eval_]. unfold bind.
      assert (Hru : run_until sv fuel x s0 = (Ret true, s0)).
      { destruct fuel; cbn [run_until]; rewrite Hc; unfold now in Hx1; now rewrite (le_nlt _ _ Hx1). }
      rewrite Hru. unfold interp_copy, bind, get, ret.
      unfold interpolate. rewrite Hc. fold (now s). rewrite Hx1, Hx2. cbn [andb negb].
      destruct (s_interp sv x s0) as [[a| |] s1] eqn:ei; auto.
      assert (Hc1 : cache s1 = cache s).
      { cbn in ei. apply interp_of_ok in ei as (K & _). congruence. }
      specialize (IH trun s1 Hc1 H4). unfold interp_copy, bind, get, ret, interpolate in IH.
      match type of IH with context [mapM ?f told s1] => destruct (mapM f told s1) as [[yold| |] s2] end.
      + destruct (run_eval_ sv fuel trun s2) as [[vs| |] s3];
        destruct (run_eval_ sv fuel (told ++ trun) s1) as [[vs'| |] s4]; inv IH; auto.
        cbn. now rewrite H0.
      + destruct (run_eval_ sv fuel (told ++ trun) s1) as [[vs'| |] s4]; inv IH; auto.
      + destruct (run_eval_ sv fuel (told ++ trun) s1) as [[vs'| |] s4]; inv IH; auto. }
  pose proof (key (List.filter (fun x => leb x (now s)) t) (List.filter (fun x => negb (leb x (now s))) t) s eq_refl) as K.
  rewrite (sorted_split (now s) t Hs) in K. apply K. clear K key.
  apply Forall_forall. intros x Hx. apply filter_In in Hx as (Hin & Hx). split; auto.
  destruct (sorted_cons _ _ Hs) as (_ & Hall).
  assert (Hax : leb ta x = true).
  { destruct Hin as [-> | Hin]. eapply ol_num_l; eauto. rewrite Forall_forall in Hall. auto. }
  eapply ol_trans; [|exact Hax]. apply nlt_le; auto. eapply ol_num_l; eauto.
Qed.
End Sorted.
