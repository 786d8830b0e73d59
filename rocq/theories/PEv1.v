(** Events, any arithmetic: what run_events does step by step.  The states after
    an event search differ from those of plain stepping in the interpolator only. *)
From Coq Require Import List ZArith Bool Arith Lia.
From Verif Require Import Base Scalar Vec MBuffer MZeros MSteps MApi MClasses Laws Spec SpecInst
  PStep PKeeps PCore PHist PRun.
Import ListNotations.

Section Ev.
Context {OT : Ops} {E : Env}.
Variable m : meth.
Variables (fuelc : nat) (o : options) (rhs : rhs_t) (tb : ext).
Let sv := solver_of m fuelc o rhs tb.

(** [J]: an invariant; [inr s t]: times at which the interpolant of [s] does not
    depend on the interpolator's own state *)
Variables (J : st -> Prop) (inr : st -> T -> Prop).
Hypothesis J_core : forall s s', J s -> s_core sv s = (Ret tt, s') -> J s'.
Hypothesis J_interp : forall t s, J s -> J (snd (s_interp sv t s)).
Hypothesis agree : forall t x s, J x -> J s -> sim x s -> inr s t ->
  fst (s_interp sv t x) = fst (s_interp sv t s).
Hypothesis inr_sim : forall t x s, sim x s -> inr s t -> inr x t.
Hypothesis inr_mid : forall s a b, inr s a -> inr s b -> inr s (div (add a b) two).
Hypothesis inr_ends : forall s s', J s -> s_core sv s = (Ret tt, s') -> inr s' (now s) /\ inr s' (now s').
Hypothesis inr_target : forall s s' t, J s -> s_core sv s = (Ret tt, s') ->
  ltb (now s) t = true -> ltb (now s') t = false -> inr s' t.
Hypothesis inr_later : forall s t t', inr s t -> leb t t' = true -> ltb (now s) t' = false -> inr s t'.

(** same value from [x] as from [s], and nothing but the interpolator touched *)
Definition follows_at {A} (f : M st A) (s : st) : Prop :=
  forall x, J x -> sim x s -> fst (f x) = fst (f s) /\ sim (snd (f x)) s /\ J (snd (f x)).

Lemma fa_ret {A} (a : A) s : follows_at (ret a) s.
Proof. intros x Hx S. cbn. auto. Qed.
Lemma fa_raise {A} e s : follows_at (@raise st A e) s.
Proof. intros x Hx S. cbn. auto. Qed.
Lemma fa_lift {A} (a : outcome A) s : follows_at (lift a) s.
Proof. intros x Hx S. cbn. auto. Qed.
Lemma fa_bind {A B} (f : M st A) (k : A -> M st B) s : J s ->
  follows_at f s -> (forall a, follows_at (k a) s) -> follows_at (bind f k) s.
Proof.
  intros Hs Hf Hk x Hx S. destruct (Hf x Hx S) as (F1 & F2 & F3).
  destruct (Hf s Hs (sim_refl s)) as (_ & G2 & G3).
  unfold bind. destruct (f x) as [rx x1]. destruct (f s) as [rs s1]. cbn [fst snd] in *. subst rs.
  destruct rx as [a| |]; cbn [fst snd]; auto.
  destruct (Hk a x1 F3 F2) as (K1 & K2 & K3). destruct (Hk a s1 G3 G2) as (L1 & _). rewrite L1, K1. auto.
Qed.
Lemma fa_interp t s : J s -> inr s t -> follows_at (s_interp sv t) s.
Proof.
  intros Hs Ht x Hx S. split; [now apply agree|]. split; [|now apply J_interp].
  pose proof (interp_sim m rhs t x) as K. destruct (interp_of m rhs t x) as [r x'] eqn:e.
  cbn [s_interp sv solver_of]. rewrite e. cbn [snd]. eapply sim_trans; [eapply K; reflexivity | exact S].
Qed.
Lemma fa_copy t s : J s -> inr s t -> follows_at (interp_copy (s_interp sv) t) s.
Proof.
  intros Hs Ht. unfold interp_copy. apply fa_bind; auto. now apply fa_interp.
  intros a x Hx S. unfold bind, get, ret. cbn. apply sim_iff in S as (S1 & S2 & S3). rewrite S1.
  split; auto. split; auto. now apply sim_iff.
Qed.
Lemma fa_at_sol f t s : J s -> inr s t -> follows_at (event_at_sol sv f t) s.
Proof. intros. unfold event_at_sol. apply fa_bind; auto. now apply fa_copy. intros; apply fa_lift. Qed.

Lemma fa_bisect_loop f tol rtol n s : J s -> forall a b ya mid, inr s a -> inr s b ->
  follows_at (bisect_loop (event_at_sol sv f) tol rtol n a b ya mid) s.
Proof.
  intros Hs. induction n; intros a b ya mid Ha Hb; cbn [bisect_loop].
  - destruct mid; [apply fa_ret | apply fa_raise].
  - apply fa_bind; auto. apply fa_at_sol; auto. intros ym.
    destruct (isclose _ _ _ _); [apply fa_ret|]. destruct (same_sign _ _); apply IHn; auto.
Qed.
Lemma fa_bisect f tol rtol n s a b : J s -> inr s a -> inr s b ->
  follows_at (bisect (event_at_sol sv f) a b tol rtol n) s.
Proof.
  intros Hs Ha Hb. unfold bisect. destruct (negb (ltb a b)); [apply fa_raise|].
  apply fa_bind; auto. apply fa_at_sol; auto. intros ya. destruct (eqb ya zero); [apply fa_ret|].
  apply fa_bind; auto. apply fa_at_sol; auto. intros yb. destruct (eqb yb zero); [apply fa_ret|].
  destruct (negb _); [apply fa_raise|]. apply fa_bisect_loop; auto.
Qed.
(** the points bisect may return *)
Lemma bisect_loop_inr f tol rtol n s : forall a b ya mid x r x', inr s a -> inr s b ->
  match mid with Some p => inr s p | None => True end ->
  bisect_loop (event_at_sol sv f) tol rtol n a b ya mid x = (Ret r, x') -> inr s r.
Proof.
  induction n; intros a b ya mid x r x' Ha Hb Hm H; cbn [bisect_loop] in H.
  - destruct mid; inv H; auto.
  - unfold bind in H. destruct (event_at_sol _ _ _ x) as [[ym| |] x1]; try discriminate.
    destruct (isclose _ _ _ _). inv H. now apply inr_mid.
    destruct (same_sign _ _); eapply IHn in H; eauto; cbn; now apply inr_mid.
Qed.
Lemma bisect_inr f tol rtol n s a b x r x' : inr s a -> inr s b ->
  bisect (event_at_sol sv f) a b tol rtol n x = (Ret r, x') -> inr s r.
Proof.
  intros Ha Hb H. unfold bisect in H. destruct (negb (ltb a b)); [discriminate|].
  unfold bind in H. destruct (event_at_sol _ _ _ x) as [[ya| |] x1]; try discriminate.
  destruct (eqb ya zero). inv H; auto.
  destruct (event_at_sol _ _ _ x1) as [[yb| |] x2]; try discriminate.
  destruct (eqb yb zero). inv H; auto. destruct (negb _); [discriminate|].
  eapply bisect_loop_inr; [| | |exact H]; auto. exact I.
Qed.

Lemma fa_evaluate e s : J s -> inr s (ev_last_t e) -> inr s (now s) -> follows_at (ev_evaluate sv e) s.
Proof.
  intros Hs Hl Hn x Hx S. pose proof S as S0. apply sim_iff in S0 as (S1 & S2 & S3).
  unfold ev_evaluate. rewrite S1.
  match goal with |- fst (?g x) = fst (?g s) /\ _ => assert (K : follows_at g s); [|exact (K x Hx S)] end.
  apply fa_bind; auto. apply fa_lift. intros v.
  apply fa_bind; auto; [|intros; apply fa_ret].
  destruct (ev_trigger _ _ _); [|apply fa_ret].
  (* the root is in range: [fa_bind] with the value remembered *)
  intros y Hy Sy.
  set (fr := if eqb v zero then ret (buf_t (cache s)) else _).
  assert (Fr : follows_at fr s).
  { subst fr. destruct (eqb v zero); [apply fa_ret | apply fa_bisect; auto]. }
  assert (Rr : forall r z z', fr z = (Ret r, z') -> inr s r).
  { subst fr. intros r z z' H. destruct (eqb v zero); [inv H; exact Hn | eapply bisect_inr; [| |exact H]; auto]. }
  destruct (Fr y Hy Sy) as (F1 & F2 & F3). destruct (Fr s Hs (sim_refl s)) as (_ & G2 & G3).
  unfold bind. destruct (fr y) as [ry y1]. destruct (fr s) as [rs s1] eqn:es. cbn [fst snd] in *. subst rs.
  destruct ry as [r| |]; cbn [fst snd]; auto. specialize (Rr r s s1 es).
  match goal with |- fst (?g y1) = fst (?g s1) /\ _ => assert (K : follows_at g s) end.
  { destruct (match last_opt (ev_ts e) with Some _ => _ | None => _ end); [apply fa_ret|].
    apply (fa_bind (s_interp sv r)); auto; [apply fa_interp; auto | intros; apply fa_ret]. }
  destruct (K y1 F3 F2) as (K1 & K2 & K3). destruct (K s1 G3 G2) as (L1 & _). rewrite L1, K1. auto.
Qed.

(** ** one step for one event *)
Definition evolves1 (s : st) (e : event) (b : bool) (e' : event) : Prop :=
  fst (ev_evaluate sv e s) = Ret (b, e').
Lemma evolves1_keeps s e b e' : evolves1 s e b e' ->
  ev_fun e' = ev_fun e /\ ev_term e' = ev_term e /\ ev_dir e' = ev_dir e /\ ev_last_t e' = now s.
Proof.
  unfold evolves1, ev_evaluate. unfold bind, lift, ret, now.
  destruct (ev_fun e _ _) as [v| |]; try discriminate.
  match goal with |- context [match ?f s with _ => _ end] => destruct (f s) as [[rec| |] s1] end; try discriminate.
  cbn. intros H. inv H. auto.
Qed.
Inductive evolves1s (s : st) : list event -> list bool -> list event -> Prop :=
| e1_nil : evolves1s s [] [] []
| e1_cons e b e' es bs es' : evolves1 s e b e' -> evolves1s s es bs es' ->
    evolves1s s (e :: es) (b :: bs) (e' :: es').
Fixpoint last_fired (bs : list bool) (es : list event) (last : option (T * arr)) : option (T * arr) :=
  match bs, es with
  | b :: bs', e :: es' =>
      last_fired bs' es' (if b then match ev_last e with
                                    | Some (t, y) => if leb t t then Some (t, y) else last
                                    | None => last end else last)
  | _, _ => last
  end.
Lemma handler_spec s : J s -> inr s (now s) -> forall es last x r x', J x -> sim x s ->
  Forall (fun e => inr s (ev_last_t e)) es ->
  handler_evaluate sv es last x = (r, x') ->
  sim x' s /\ J x' /\
  match r with
  | Ret (term, es', last') => exists bs, evolves1s s es bs es' /\ term = existsb (fun b => b) bs /\
                               last' = last_fired bs es' last
  | _ => True
  end.
Proof.
  intros Hs Hn. induction es as [|e es IH]; intros last x r x' Hx S F H; cbn [handler_evaluate] in H.
  - inv H. split; auto. split; auto. exists []. repeat split. constructor.
  - inv F. unfold bind in H. destruct (fa_evaluate e s Hs H2 Hn x Hx S) as (F1 & F2 & F3).
    destruct (ev_evaluate sv e x) as [[[b e']| |] x1] eqn:ee; cbn [fst snd] in *; [|inv H; auto|inv H; auto].
    match type of H with context [handler_evaluate sv es ?l x1] => set (last1 := l) in * end.
    destruct (handler_evaluate sv es last1 x1) as [r2 x2] eqn:eh. apply IH in eh as (E1 & E2 & E3); auto.
    destruct r2 as [[[term es'] last']| |]; inv H; auto. split; auto. split; auto.
    destruct E3 as (bs & B1 & B2 & B3). exists (b :: bs). split; [|split].
    + constructor; auto. unfold evolves1. now rewrite <- F1.
    + cbn. now rewrite B2.
    + cbn [last_fired]. now rewrite B3.
Qed.

(** ** one target time *)
(** the events over the steps [l]; no terminal event fires *)
Inductive evolves : list event -> list st -> list event -> Prop :=
| ev_nil es : evolves es [] es
| ev_cons es s1 bs es1 l es' : evolves1s s1 es bs es1 -> existsb (fun b => b) bs = false ->
    evolves es1 l es' -> evolves es (s1 :: l) es'.
Lemma evolves_app es l1 es1 l2 es2 : evolves es l1 es1 -> evolves es1 l2 es2 -> evolves es (l1 ++ l2) es2.
Proof. induction 1; cbn [app]; intros; auto. econstructor; eauto. Qed.
Lemma evolves1s_t s es bs es' : evolves1s s es bs es' -> Forall (fun e => ev_last_t e = now s) es'.
Proof. induction 1; constructor; auto. now apply evolves1_keeps in H. Qed.
Lemma last_fired_none bs : existsb (fun b => b) bs = false -> forall es l, last_fired bs es l = l.
Proof. induction bs as [|[] bs IH]; cbn; intros H [|e es] l; try discriminate; auto. Qed.
(** the run ended by a terminal event in the step to [s1] *)
Definition ended (es : list event) (l : list st) (s1 : st) (es' : list event) (ty : T * vec) : Prop :=
  exists l0 es0 bs a, l = l0 ++ [s1] /\ evolves es l0 es0 /\ evolves1s s1 es0 bs es' /\
    existsb (fun b => b) bs = true /\ last_fired bs es' None = Some (fst ty, a) /\ snd ty = deref (cache s1) a.
(** plain runs from a state equal up to the interpolator *)
Definition until_all (fuel : nat) (ti : T) (s : st) (b : bool) (s1 : st) : Prop :=
  forall z, J z -> sim z s -> exists z', run_until sv fuel ti z = (Ret b, z') /\ sim z' s1 /\ J z'.

Lemma J_chain b l s s' : chain sv b s l s' -> J s -> J s'.
Proof. induction 1 as [|s s1 l s2 (_ & Hc) _ IH]; intros Hs; auto. apply IH. eapply J_core; eauto. Qed.

Lemma until_ev_spec fuel ti : forall es s x res es' last' x', J x -> J s -> sim x s ->
  Forall (fun e => ev_last_t e = now s) es ->
  run_until_ev sv fuel ti (es, None) x = (Ret (res, (es', last')), x') ->
  exists l s1, upto_target sv ti s l s1 /\ sim x' s1 /\ J x' /\ J s1 /\
    match res with
    | None => evolves es l es' /\ ltb (now s1) ti = false /\ last' = None /\ until_all fuel ti s true s1 /\
              (l = [] \/ inr s1 ti)
    | Some None => evolves es l es' /\ ltb (now s1) ti = true /\ would_pass tb s1 /\ last' = None /\
              until_all fuel ti s false s1
    | Some (Some ty) => ended es l s1 es' ty
    end.
Proof.
  induction fuel; intros es s x res es' last' x' Hx Hs S F H; cbn [run_until_ev] in H;
    pose proof (sim_now x s S) as Sn; fold (now x) in H; rewrite Sn in H;
    destruct (ltb (now s) ti) eqn:el; try discriminate.
  - inv H. exists [], s. repeat (split; auto); try constructor.
    intros z Hz Sz. exists z. cbn [run_until]. fold (now z). rewrite (sim_now z s Sz), el. auto.
  - unfold bind in H. destruct (step_cases sv tb x) as [[Hw He] | [Hw He]];
      cbn [s_bound sv solver_of] in H; fold sv in H; rewrite He in H.
    + inv H. exists [], s. repeat (split; auto); try constructor. eapply sim_pass; [|exact Hw]. now apply sim_sym.
      intros z Hz Sz. exists z. cbn [run_until]. fold (now z). rewrite (sim_now z s Sz), el. unfold bind.
      destruct (step_cases sv tb z) as [[Hw' He'] | [Hw' He']]; cbn [s_bound sv solver_of]; fold sv; rewrite He'; auto.
      exfalso. apply Hw'. eapply sim_pass; [exact Sz|]. eapply sim_pass; [|exact Hw]. now apply sim_sym.
    + destruct (sim_core m fuelc o rhs x s S) as (C1 & C2).
      change (core_of m fuelc o rhs) with (s_core sv) in C1, C2.
      destruct (s_core sv x) as [rx x1] eqn:ex. destruct (s_core sv s) as [rs s1] eqn:es1.
      cbn [fst snd] in C1, C2. subst rs. destruct rx as [[]| |]; try discriminate.
      assert (Hws : ~ would_pass tb s) by (intro W; apply Hw; eapply sim_pass; [exact S | exact W]).
      pose proof (J_core _ _ Hx ex) as Jx1. pose proof (J_core _ _ Hs es1) as Js1.
      destruct (inr_ends _ _ Hs es1) as (I1 & I2).
      cbn [fst snd] in H.
      destruct (handler_evaluate sv es None x1) as [rh x2] eqn:eh.
      apply (handler_spec s1 Js1 I2) in eh as (S2 & J2 & Hh); auto.
      2:{ eapply Forall_impl; [|exact F]. cbn. intros e ->. exact I1. }
      destruct rh as [[[term es2] last2]| |]; try discriminate.
      destruct Hh as (bs & B1 & B2 & B3).
      assert (Hc : completes sv tb s s1) by (split; auto).
      destruct term.
      * destruct last2 as [[t a]|]; [|discriminate]. unfold get, ret in H. inv H.
        exists [s1], s1. split.
        { split. econstructor; [exact Hc | constructor]. cbn. constructor; auto. }
        repeat (split; auto). exists [], es, bs, a. repeat (split; auto). constructor.
        cbn [snd]. apply sim_iff in S2 as (-> & _). reflexivity.
      * symmetry in B2. rewrite (last_fired_none bs B2) in B3. subst last2.
        eapply (IHfuel es2 s1) in H as (l & s3 & U & V1 & V2 & V3 & V4); auto.
        2:{ eapply evolves1s_t; eauto. }
        assert (U' : upto_target sv ti s (s1 :: l) s3).
        { destruct U as (U1 & U2). split. econstructor; eauto.
          change (removelast (s :: s1 :: l)) with (s :: removelast (s1 :: l)). constructor; auto. }
        assert (Ua : forall b, until_all fuel ti s1 b s3 -> until_all (Datatypes.S fuel) ti s b s3).
        { intros b Hu z Hz Sz. cbn [run_until]. fold (now z). rewrite (sim_now z s Sz), el. unfold bind.
          destruct (step_cases sv tb z) as [[Hw' He'] | [Hw' He']]; cbn [s_bound sv solver_of]; fold sv; rewrite He'.
          - exfalso. apply Hws. eapply sim_pass; [|exact Hw']. now apply sim_sym.
          - destruct (sim_core m fuelc o rhs z s Sz) as (D1 & D2).
            change (core_of m fuelc o rhs) with (s_core sv) in D1, D2.
            destruct (s_core sv z) as [rz z1] eqn:ez. rewrite es1 in D1, D2. cbn [fst snd] in D1, D2. subst rz.
            apply Hu; auto. eapply J_core; eauto. }
        exists (s1 :: l), s3. split; auto. split; auto. split; auto. split; auto.
        destruct res as [[ty|]|].
        -- destruct V4 as (l0 & es0 & bs' & a & -> & W). exists (s1 :: l0), es0, bs', a.
           split; auto. destruct W as (W1 & W). split; auto. econstructor; eauto.
        -- destruct V4 as (W1 & W2 & W3 & W4 & W5). split. econstructor; eauto. auto.
        -- destruct V4 as (W1 & W2 & W3 & W4 & W5). split; [econstructor; eauto|]. split; [exact W2|].
           split; [exact W3|]. split; [now apply Ua|]. right. destruct W5 as [->|W5]; auto. destruct U as (U & _). inv U. exact (inr_target _ _ _ Hs es1 el W2).
  - inv H. exists [], s. repeat (split; auto); try constructor.
    intros z Hz Sz. exists z. cbn [run_until]. fold (now z). rewrite (sim_now z s Sz), el. auto.
Qed.

(** ** all target times *)
Definition eval_all (fuel : nat) (ts : list T) (s : st) (vs : list vec) (s1 : st) : Prop :=
  forall z, J z -> sim z s -> exists z', run_eval_ sv fuel ts z = (Ret vs, z') /\ sim z' s1.

Lemma sim_deref x s a : sim x s -> deref (cache x) a = deref (cache s) a.
Proof. intros S. apply sim_iff in S as (-> & _). reflexivity. Qed.

Lemma eval_cons fuel ti ts s s1 y vs s2 : until_all fuel ti s true s1 ->
  J s1 -> inr s1 ti -> fst (interp_copy (s_interp sv) ti s1) = Ret y ->
  eval_all fuel ts s1 vs s2 -> eval_all fuel (ti :: ts) s (y :: vs) s2.
Proof.
  intros Hu Js1 Hi Hy He z Hz Sz. cbn [run_eval_]. unfold bind.
  destruct (Hu z Hz Sz) as (z1 & -> & S1 & J1).
  destruct (fa_copy ti s1 Js1 Hi z1 J1 S1) as (A1 & A2 & A3).
  destruct (interp_copy (s_interp sv) ti z1) as [r z2]. cbn [fst snd] in *. rewrite Hy in A1. subst r.
  destruct (He z2 A3 A2) as (z3 & -> & S3). exists z3. auto.
Qed.

Lemma chain_app b s l1 s1 l2 s2 : chain sv b s l1 s1 -> chain sv b s1 l2 s2 -> chain sv b s (l1 ++ l2) s2.
Proof. induction 1; cbn; intros; auto. econstructor; eauto. Qed.
Lemma last_cons_d {A} (a x : A) l : last (a :: l) x = last l a.
Proof. revert a x; induction l as [|b l IH]; intros a x; auto. change (last (a :: b :: l) x) with (last (b :: l) x). rewrite IH. cbn [last]. destruct l; auto. cbn in *. rewrite <- IH with (x := a). reflexivity. Qed.
Lemma chain_last b s l s1 : chain sv b s l s1 -> s1 = last l s.
Proof. induction 1; auto. rewrite last_cons_d. auto. Qed.
(** the state before the last step *)
Definition before_last (s : st) (l : list st) : st := last (removelast l) s.
Lemma before_app s l1 l2 : l2 <> [] -> before_last s (l1 ++ l2) = before_last (last l1 s) l2.
Proof.
  intros H. unfold before_last. rewrite removelast_app by exact H. clear H.
  revert s; induction l1 as [|a l1 IH]; intros s; auto. cbn [app]. rewrite !last_cons_d. apply IH.
Qed.
Lemma upto_before ti s l s1 : upto_target sv ti s l s1 -> l <> [] -> ltb (now (before_last s l)) ti = true.
Proof.
  intros (C & F) Hl. clear C. unfold before_last. revert s F. induction l as [|a l IH]; intros s F; [congruence|].
  change (removelast (s :: a :: l)) with (s :: removelast (a :: l)) in F. inv F.
  destruct l as [|b l]; auto.
  change (removelast (a :: b :: l)) with (a :: removelast (b :: l)). rewrite last_cons_d. apply IH; [discriminate | exact H2].
Qed.

Lemma eval_ev_spec fuel : forall ts es s x rows es' last' x', J x -> J s -> sim x s ->
  Forall (fun e => ev_last_t e = now s) es -> is_sorted ts = true ->
  (forall ti, hd_error ts = Some ti -> ltb (now s) ti = true \/ inr s ti) ->
  run_eval_events_ sv fuel ts (es, None) x = (Ret (rows, (es', last')), x') ->
  exists l s1, chain sv tb s l s1 /\ sim x' s1 /\ J x' /\ J s1 /\
    ((evolves es l es' /\ exists vs, rows = combine ts vs /\ eval_all fuel ts s vs s1) \/
     exists ty k vs s0, ended es l s1 es' ty /\ rows = combine (firstn k ts) vs ++ [ty] /\
       length vs = k /\ eval_all fuel (firstn k ts) s vs s0 /\
       exists tk, nth_error ts k = Some tk /\ ltb (now (before_last s l)) tk = true).
Proof.
  induction ts as [|ti ts IH]; intros es s x rows es' last' x' Hx Hs S F Hso Hh H; cbn [run_eval_events_] in H.
  - inv H. exists [], s. split; [constructor|]. repeat (split; auto). left. split; [constructor|].
    exists []. split; auto. intros z Hz Sz. exists z. auto.
  - unfold bind in H. destruct (run_until_ev sv fuel ti (es, None) x) as [[[res [es1 last1]]| |] x1] eqn:eu; try discriminate.
    apply (until_ev_spec fuel ti es s x) in eu as (l & s1 & U & S1 & J1 & Js1 & Hr); auto.
    destruct res as [[ty|]|].
    + inv H. exists l, s1. split; [apply U|]. repeat (split; auto). right. exists ty, 0, [], s.
      repeat (split; auto).
      * intros z Hz Sz. exists z. auto.
      * exists ti. split; auto. eapply upto_before; eauto. destruct Hr as (l0 & ? & ? & ? & -> & _). now destruct l0.
    + inv H. exists l, s1. split; [apply U|]. repeat (split; auto). left. destruct Hr as (A1 & A2 & A3 & A4 & A5).
      split; auto. exists []. split; auto. intros z Hz Sz. cbn [run_eval_]. unfold bind.
      destruct (A5 z Hz Sz) as (z' & -> & Sz' & _). exists z'. auto.
    + destruct Hr as (A1 & A2 & -> & A4 & A5).
      assert (Hi : inr s1 ti).
      { destruct A5 as [->|A5]; auto. destruct U as (U & _). inv U. destruct (Hh ti eq_refl); auto. congruence. }
      destruct (fa_copy ti s1 Js1 Hi x1 J1 S1) as (C1 & C2 & C3).
      destruct (interp_copy (s_interp sv) ti x1) as [[y| |] x2] eqn:ei; try discriminate. cbn [fst snd] in *.
      destruct (run_eval_events_ sv fuel ts (es1, None) x2) as [[[rows2 [es2 last2]]| |] x3] eqn:er; try discriminate.
      unfold ret in H. cbn [fst snd] in H. inv H.
      assert (F1 : Forall (fun e => ev_last_t e = now s1) es1).
      { destruct U as (U & _). clear - A1 U F. revert s F U. induction A1; intros s F U; inv U; auto.
        eapply IHA1; [|eassumption]. eapply evolves1s_t; eauto. }
      assert (Hs1 : is_sorted ts = true) by (cbn [is_sorted] in Hso; destruct ts; auto; now apply andb_true_iff in Hso).
      eapply (IH es1 s1) in er as (l2 & s2 & B1 & B2 & B3 & B4 & B5); auto.
      2:{ intros tj Hj. destruct ts as [|tj' ts]; [discriminate|]. inv Hj.
          destruct (ltb (now s1) tj) eqn:e; auto. right. eapply inr_later; eauto.
          cbn [is_sorted] in Hso. now apply andb_true_iff in Hso. }
      pose proof (proj1 U) as Uc.
      exists (l ++ l2), s2. split; [eapply chain_app; eauto|]. repeat (split; auto).
      destruct B5 as [(D1 & vs & -> & D3) | (ty & k & vs & s0 & D1 & -> & D3 & D4 & tk & D5 & D6)].
      * left. split; [eapply evolves_app; eauto|]. exists (y :: vs). split; auto.
        eapply eval_cons; eauto.
      * right. exists ty, (Datatypes.S k), (y :: vs), s0.
        assert (Hl2 : l2 <> []) by (destruct D1 as (l0 & ? & ? & ? & -> & _); now destruct l0).
        split; [|split; [reflexivity|split; [cbn; now rewrite D3|split]]].
        -- destruct D1 as (l0 & es0 & bs & a & -> & G1 & G2). exists (l ++ l0), es0, bs, a.
           rewrite app_assoc. split; auto. split; auto. eapply evolves_app; eauto.
        -- cbn [firstn]. eapply eval_cons; eauto.
        -- exists tk. split; auto. rewrite before_app by exact Hl2. rewrite <- (chain_last _ _ _ _ Uc). exact D6.
Qed.
End Ev.
