(** run_events returns when every step completes and moves on by at least a fixed
    amount, and the interpolant takes the stored values at the ends of the step
    (C49 for the variable step classes). *)
From Coq Require Import List ZArith Bool Arith Reals Lia Lra Sorted.
From Verif Require Import Base Scalar Vec MBuffer MZeros MSteps MApi MDop853 MClasses Laws Spec SpecInst SpecRK SpecDense SpecEv
  PStep PKeeps PClean PCore PHist PBound PVecR PTerm PRun PRun2 PRun3 PFwd PInterp PRK PDim PDense PTop1 PEv1 PEv2 PEv5 PEv7
  SpecCtl SpecMS SpecConv PConv1 SpecLive SpecVL PVar1 PVL1 PVL2 PVL3 PVL4 PVL5.
Import ListNotations.
Open Scope R_scope.

Section B.
Context {S : Type} (fn : R -> M S R) (J : S -> Prop) (a b : R).
Hypothesis Hfn : forall t s, J s -> a <= t <= b -> exists v s', fn t s = (Ret v, s') /\ J s'.
Lemma bisect_loop_live tol rtol : forall k l r yl mid s, J s -> a <= l -> l <= r -> r <= b -> (k <> 0%nat \/ mid <> None) -> (forall m, mid = Some m -> a <= m <= b) ->
  exists x s', bisect_loop (OT := Rops) fn tol rtol k l r yl mid s = (Ret x, s') /\ J s' /\ a <= x <= b.
Proof.
  induction k as [|k IH]; intros l r yl mid s Js Hl Hlr Hr Hm Hmid; cbn [bisect_loop].
  - destruct mid as [x|]; [|destruct Hm; congruence]. exists x, s. split; [reflexivity|]. split; auto.
  - cbv zeta. set (mm := @div Rops (@add Rops l r) two). assert (Hmm : mm = (l + r) / 2) by (unfold mm; cbn; lra).
    assert (Hb : l <= mm <= r) by (rewrite Hmm; lra). clearbody mm. unfold bind.
    destruct (Hfn mm s Js ltac:(lra)) as (v & s1 & -> & J1). destruct (isclose _ _ _ _); [exists mm, s1; split; [reflexivity|]; split; [auto|lra]|].
    assert (Hs : forall z, Some mm = Some z -> a <= z <= b) by (intros z Hz; injection Hz as <-; lra).
    destruct (same_sign _ _); apply IH; auto; try lra; right; discriminate.
Qed.
Lemma bisect_live va vb tol rtol k s : J s -> k <> 0%nat -> a < b ->
  (forall s, J s -> exists s', fn a s = (Ret va, s') /\ J s') -> (forall s, J s -> exists s', fn b s = (Ret vb, s') /\ J s') ->
  va = 0 \/ vb = 0 \/ va * vb < 0 -> exists x s', bisect (OT := Rops) fn a b tol rtol k s = (Ret x, s') /\ J s' /\ a <= x <= b.
Proof.
  intros Js Hk Hab Ha Hb Hg. unfold bisect. replace (@ltb Rops a b) with true by (symmetry; now apply Rltb_true). cbn [negb].
  unfold bind. destruct (Ha s Js) as (s1 & -> & J1). destruct (@eqb Rops va zero) eqn:ea; [exists a, s1; split; [reflexivity|]; split; [auto|lra]|]. apply Reqb_false in ea.
  destruct (Hb s1 J1) as (s2 & -> & J2). destruct (@eqb Rops vb zero) eqn:eb; [exists b, s2; split; [reflexivity|]; split; [auto|lra]|]. apply Reqb_false in eb.
  rewrite zero_R in ea, eb. replace (@ltb Rops (@mul Rops va vb) zero) with true.
  - cbn [negb]. apply bisect_loop_live; auto; try lra. discriminate.
  - symmetry. apply Rltb_true. rewrite zero_R. cbn. destruct Hg as [K|[K|K]]; [contradiction|contradiction|exact K].
Qed.
End B.

Section R.
Context {E : @Env Rops}.
Variables (m : @meth Rops) (fuelc : nat) (o : @options Rops) (rhs : @rhs_t Rops) (tb : @ext Rops).
Let sv := solver_of (E := E) m fuelc o rhs tb.
Variables (I : @st Rops -> Prop) (fl te : R).
Hypothesis Hfl : 0 < fl.
Hypothesis Hcore : forall x, I x -> ~ would_pass tb x -> now x <= te ->
  exists x', core_of (E := E) m fuelc o rhs x = (Ret tt, x') /\ I x' /\ now x + fl <= now x' /\ prev_t x' = now x /\ prev_y x' = state x.
Hypothesis Hint : forall t x, I x -> prev_t x <= t <= now x -> exists a x', interp_of (E := E) m rhs t x = (Ret a, x') /\ I x' /\ cache x' = cache x /\
  (t = now x -> prev_t x < now x -> deref (cache x) a = state x) /\ (t = prev_t x -> prev_t x < now x -> deref (cache x) a = prev_y x).
Hypothesis Hfirst : forall x, I x -> buf_t0 (cache x) = prev_t x /\ prev_t x <= now x.

(** after the step from x *)
Definition after (x x1 : stR) : Prop := I x1 /\ prev_t x1 = now x /\ prev_y x1 = state x /\ now x < now x1.
Lemma after_same x x1 x2 : after x x1 -> I x2 -> cache x2 = cache x1 -> after x x2.
Proof. intros (_ & A1 & A2 & A3) I2 Ec. unfold after, prev_t, prev_y, now in *. rewrite Ec. auto. Qed.
Lemma after_interp x x1 t : after x x1 -> now x <= t <= now x1 -> exists a x2, s_interp sv t x1 = (Ret a, x2) /\ after x x2 /\ cache x2 = cache x1 /\
  (t = now x -> deref (cache x1) a = state x) /\ (t = now x1 -> deref (cache x1) a = state x1).
Proof.
  intros (I1 & A1 & A2 & A3) Ht. destruct (Hint t x1 I1) as (a & x2 & H1 & H2 & H3 & H4 & H5); [rewrite A1; exact Ht|].
  exists a, x2. split; [exact H1|]. split; [apply after_same with x1; auto; repeat split; auto|]. split; [exact H3|]. split; [|intros Hx; apply H4; [exact Hx|now rewrite A1]].
  intros Hx. rewrite <- A2. apply H5; [now rewrite A1|now rewrite A1].
Qed.
Lemma evaluate_live e x x1 : after x x1 -> ev_at e x -> exists b e' x2, ev_evaluate sv e x1 = (Ret (b, e'), x2) /\ after x x2 /\ cache x2 = cache x1 /\ ev_at e' x1 /\
  (b = true -> ev_last e' <> None).
Proof.
  intros P (Ht & Hl & Hv & Hn). unfold ev_evaluate, bind, lift. change (buf_t (cache x1)) with (now x1). change (buf_y (cache x1)) with (state x1).
  destruct (Ht (now x1) (state x1)) as (v1 & V1). rewrite V1.
  destruct (ev_trigger (ev_dir e) (ev_last_v e) v1) eqn:et.
  2:{ cbn [ret]. eexists; eexists; exists x1. split; [reflexivity|]. split; [exact P|]. split; [reflexivity|]. split; [repeat split; auto|]. discriminate. }
  assert (Plt : now x < now x1) by apply P.
  assert (Hroot : exists root x2, (if @eqb Rops v1 zero then ret (now x1) else bisect (event_at_sol sv (ev_fun e)) (ev_last_t e) (now x1) default_tol zero 50) x1
     = (Ret root, x2) /\ after x x2 /\ cache x2 = cache x1 /\ now x <= root <= now x1).
  { destruct (@eqb Rops v1 zero) eqn:e0; [exists (now x1), x1; split; [reflexivity|]; split; [exact P|]; split; [reflexivity|lra]|]. apply Reqb_false in e0. rewrite zero_R in e0.
    set (J := fun z => after x z /\ cache z = cache x1).
    assert (Hfn : forall t z, J z -> now x <= t <= now x1 -> exists v z', event_at_sol sv (ev_fun e) t z = (Ret v, z') /\ J z' /\
       (t = now x -> v = ev_last_v e) /\ (t = now x1 -> v = v1)).
    { intros t z (Pz & Ez) Hr. assert (Nz : now z = now x1) by (unfold now; now rewrite Ez). assert (Sz : state z = state x1) by (unfold state; now rewrite Ez).
      destruct (after_interp x z t Pz ltac:(lra)) as (a & z' & H1 & H2 & H3 & H4 & H5).
      unfold event_at_sol, interp_copy, bind, get, ret, lift. rewrite H1. destruct (Ht t (deref (cache z') a)) as (w & Hw). rewrite Hw.
      exists w, z'. split; [reflexivity|]. split; [split; [exact H2|congruence]|]. rewrite H3 in Hw.
      split; intros ->; [rewrite H4, Hv in Hw by reflexivity|rewrite H5, Sz, V1 in Hw by congruence]; now injection Hw as <-. }
    destruct (bisect_live (event_at_sol sv (ev_fun e)) J (now x) (now x1)) with (va := ev_last_v e) (vb := v1) (tol := @default_tol Rops) (rtol := @zero Rops) (k := 50%nat) (s := x1)
      as (root & z & H1 & (H2 & H3) & H4).
    - intros t z Jz Hr. destruct (Hfn t z Jz Hr) as (v & z' & K1 & K2 & _). eauto.
    - split; [exact P|reflexivity].
    - discriminate.
    - exact Plt.
    - intros z Jz. destruct (Hfn (now x) z Jz ltac:(lra)) as (v & z' & K1 & K2 & K3 & _). rewrite (K3 eq_refl) in K1. eauto.
    - intros z Jz. destruct (Hfn (now x1) z Jz ltac:(lra)) as (v & z' & K1 & K2 & _ & K3). rewrite (K3 eq_refl) in K1. eauto.
    - destruct (ev_trigger_sign _ _ _ et e0); auto.
    - exists root, z. split; [rewrite Hl; exact H1|]. auto. }
  destruct Hroot as (root & x2 & -> & P2 & E2 & Hr).
  destruct (match Base.last_opt (ev_ts e) with Some r => @eqb Rops r root | None => false end) eqn:ed.
  - cbn [ret fst snd]. eexists; eexists; exists x2. split; [reflexivity|]. split; [exact P2|]. split; [exact E2|]. split; [repeat split; auto|]. intros _.
    intros K. apply (ev_last_none _ K); cbn [ev_ts ev_ys]; auto. intros K2. rewrite K2 in ed. discriminate.
  - assert (N2 : now x2 = now x1) by (unfold now; now rewrite E2). destruct (after_interp x x2 root P2 ltac:(lra)) as (a & x3 & -> & P3 & E3 & _).
    cbn [ret fst snd]. eexists; eexists; exists x3. split; [reflexivity|]. split; [exact P3|]. split; [congruence|].
    split; [repeat split; auto; cbn [ev_ts ev_ys]; now apply len_snoc|]. intros _ K.
    apply (ev_last_none _ K); cbn [ev_ts ev_ys]; [now apply len_snoc|]. now destruct (ev_ts e).
Qed.
Lemma ev_at_same (e : @event Rops) (x x1 : stR) : cache x1 = cache x -> ev_at e x -> ev_at e x1.
Proof. unfold ev_at, now, state. intros ->. auto. Qed.

Lemma handler_live x : forall es x1 last, after x x1 -> Forall (fun e => ev_at e x) es ->
  exists b es' last' x2, handler_evaluate sv es last x1 = (Ret (b, es', last'), x2) /\ after x x2 /\ cache x2 = cache x1 /\ Forall (fun e => ev_at e x2) es' /\
    (b = true \/ last <> None -> last' <> None).
Proof.
  induction es as [|e es IH]; intros x1 last P HF; cbn [handler_evaluate].
  - exists false, [], last, x1. split; [reflexivity|]. split; auto. split; [reflexivity|]. split; [constructor|]. intros [K|K]; [discriminate|auto].
  - inversion HF as [|? ? H1 H2]; subst. unfold bind.
    destruct (evaluate_live e x x1 P H1) as (b & e' & x2 & -> & P2 & C2 & A & B).
    match goal with |- context [handler_evaluate sv es ?l x2] => destruct (IH x2 l P2 H2) as (b2 & es' & last' & x3 & E1 & E2 & E3 & E4 & E5); rewrite E1 end.
    exists (b || b2)%bool, (e' :: es'), last', x3. split; [reflexivity|]. split; [exact E2|]. split; [congruence|].
    split; [constructor; [apply (ev_at_same e' x1 x3); [congruence|exact A]|exact E4]|].
    intros K. apply E5. destruct b2; [now left|]. right. destruct b; cbn in K.
    + destruct (ev_last e') as [[t y]|] eqn:el; [|now specialize (B eq_refl)].
      replace (@leb Rops t t) with true by (symmetry; apply Rleb_true; lra). discriminate.
    + destruct K; [discriminate|auto].
Qed.

Lemma until_live ti k : ti <= te -> forall x es last, I x -> Forall (fun e => ev_at e x) es -> ti - now x < INR k * fl ->
  exists res es' last' x1, (forall fuel, (k <= fuel)%nat -> run_until_ev sv fuel ti (es, last) x = (Ret (res, (es', last')), x1)) /\
    (res = None -> I x1 /\ Forall (fun e => ev_at e x1) es' /\ ti <= now x1 /\
        (x1 = x \/ exists z, after z x1 /\ now z < ti)).
Proof.
  intros Hti. induction k as [|k IH]; intros x es last G HF Hk.
  - exists None, es, last, x. cbn in Hk. split.
    + intros fuel _. assert (K : @ltb Rops (buf_t (cache x)) ti = false) by (apply Rltb_false; unfold Spec.now in Hk; lra).
      destruct fuel; cbn [run_until_ev]; now rewrite K.
    + intros _. repeat split; auto; lra.
  - destruct (@ltb Rops (buf_t (cache x)) ti) eqn:K.
    2:{ exists None, es, last, x. split; [intros [|fuel] _; cbn [run_until_ev]; now rewrite K|]. intros _. apply Rltb_false in K.
        change (ti <= now x) in K. repeat split; auto; lra. }
    destruct (step_cases sv (s_bound sv) x) as [[Hw He] | [Hw He]].
    + exists (Some None), es, last, x. split; [|discriminate].
      intros [|fuel] Hfu; [lia|]. cbn [run_until_ev]. rewrite K. unfold bind. now rewrite He.
    + apply Rltb_true in K as K'. change (now x < ti) in K'. destruct (Hcore x G Hw ltac:(lra)) as (x1 & Hc & I1 & N1 & T1 & Y1).
      change (s_core sv x) with (core_of (E := E) m fuelc o rhs x) in He. rewrite Hc in He. rewrite S_INR in Hk.
      assert (P : after x x1) by (repeat split; auto; lra).
      destruct (handler_live x es x1 last P HF) as (b & es1 & last1 & x2 & H1 & P2 & C2 & H2 & H3).
      destruct b.
      * destruct last1 as [[t a]|]; [|exfalso; apply H3; auto].
        exists (Some (Some (t, deref (cache x2) a))), es1, (Some (t, a)), x2. split; [|discriminate].
        intros [|fuel] Hfu; [lia|]. cbn [run_until_ev]. rewrite K. unfold bind. rewrite He. cbn [fst snd]. rewrite H1. reflexivity.
      * assert (N2 : now x2 = now x1) by (unfold now; now rewrite C2).
        destruct (IH x2 es1 last1 (proj1 P2) H2 ltac:(lra)) as (res & es' & last' & x3 & A & B).
        exists res, es', last', x3. split.
        -- intros [|fuel] Hfu; [lia|]. cbn [run_until_ev]. rewrite K. unfold bind. rewrite He. cbn [fst snd]. rewrite H1. apply A. lia.
        -- intros Hres. destruct (B Hres) as (B1 & B2 & B3 & B5). split; [exact B1|]. split; [exact B2|]. split; [exact B3|]. right.
           destruct B5 as [->|B5]; auto. exists x. split; auto.
Qed.

Lemma eval_live t : forall x es last, I x -> Forall (fun e => ev_at e x) es -> is_sorted (OT := Rops) t = true -> (forall ti, In ti t -> ti <= te) ->
  (exists z, after z x /\ forall ti, In ti t -> now z < ti) \/ (forall ti, In ti t -> now x < ti) ->
  exists N rows hs' x1, forall fuel, (N <= fuel)%nat -> run_eval_events_ sv fuel t (es, last) x = (Ret (rows, hs'), x1).
Proof.
  induction t as [|ti t IH]; intros x es last G HF Hs Hb Hlo.
  - exists 0%nat, [], (es, last), x. intros; reflexivity.
  - destruct (sorted_cons _ _ Hs) as (Hs1 & Hs2). rewrite Forall_forall in Hs2.
    destruct (steps_needed fl Hfl (ti - now x)) as (k & Hk).
    destruct (until_live ti k (Hb ti (or_introl eq_refl)) x es last G HF Hk) as (res & es' & last' & x1 & A & B).
    destruct res as [[ty|]|].
    + exists k, [ty], (es', last'), x1. intros fuel Hfu. cbn [run_eval_events_]. unfold bind. rewrite A by lia. reflexivity.
    + exists k, [], (es', last'), x1. intros fuel Hfu. cbn [run_eval_events_]. unfold bind. rewrite A by lia. reflexivity.
    + destruct (B eq_refl) as (B1 & B2 & B3 & B5).
      assert (Hz : exists z, after z x1 /\ now z < ti).
      { destruct B5 as [->|B5]; auto. destruct Hlo as [(z & P & Hz)|Hlo].
        - exists z. split; auto. apply Hz. now left.
        - specialize (Hlo ti (or_introl eq_refl)). lra. }
      destruct Hz as (z & P & Hz).
      destruct (after_interp z x1 ti P ltac:(lra)) as (a & x2 & Ha & P2 & C2 & _).
      destruct (IH x2 es' last' (proj1 P2)) as (N & rows & hs' & x3 & H); auto.
      { eapply Forall_impl; [|exact B2]. intros e. now apply ev_at_same. }
      { intros tj Hj. apply Hb. now right. }
      { left. exists z. split; auto. intros tj Hj. apply Hs2 in Hj. apply Rleb_true in Hj. lra. }
      exists (max N k), ((ti, deref (cache x2) a) :: rows), hs', x3. intros fuel Hfu. cbn [run_eval_events_]. unfold bind.
      rewrite A by lia. unfold interp_copy, bind. rewrite Ha. cbn [get ret]. rewrite H by lia. reflexivity.
Qed.

Lemma events_return s ta tr evs : I s -> is_sorted (OT := Rops) (ta :: tr) = true ->
  (forall x, In x (ta :: tr) -> now s < x <= te /\ @gt_ext Rops x tb = false) ->
  evs <> [] -> (forall u : eventR, In u evs -> total_ev (ue_fun u)) ->
  exists N r s', forall fuel, (N <= fuel)%nat -> run_events (E := E) sv fuel (ta :: tr) evs s = (Ret r, s').
Proof.
  intros G Hs Hr He Hev. destruct (Hfirst s G) as (F0 & F0').
  assert (Hb : exists es, build_handler evs (now s) (state s) = Ret es /\ Forall (fun e => ev_at e s) es).
  { clear He. unfold build_handler. induction evs as [|u evs IH]; [exists []; split; [reflexivity|constructor]|].
    destruct IH as (es & A & B); [intros; apply Hev; now right|]. destruct (Hev u (or_introl eq_refl) (now s) (state s)) as (v & Hv).
    assert (Hd : exists d, dir_of (ue_direction u) = Ret d).
    { destruct (ue_direction u) as [d|]; cbn [dir_of]; [|eauto]. destruct (@ltb Rops zero d) eqn:e1; [eauto|].
      destruct (@ltb Rops d zero) eqn:e2; [eauto|]. apply Rltb_false in e1, e2.
      replace (@eqb Rops d zero) with true; [eauto|]. symmetry. apply Reqb_true. apply Rle_antisym; assumption. }
    destruct Hd as (d & Hd).
    eexists. cbn [omapM]. unfold build_event at 1. rewrite Hd. cbn [obind]. rewrite Hv. cbn [obind]. rewrite A. cbn [obind].
    split; [reflexivity|]. constructor; auto. repeat split; auto. cbn [ev_fun]. apply Hev. now left. }
  destruct Hb as (es & Hb & HF).
  destruct (eval_live (ta :: tr) s es None G HF Hs) as (N & rows & hs' & s' & H).
  { intros ti Hti. now apply Hr. }
  { right. intros ti Hti. now apply Hr. }
  assert (Fo : forall l, (forall x, In x l -> now s < x) ->
     List.filter (fun x => @leb Rops x (buf_t (cache s))) l = [] /\ List.filter (fun x => negb (@leb Rops x (buf_t (cache s)))) l = l).
  { induction l as [|a l IH]; intros Hl; [auto|]. destruct IH as (I1 & I2); [intros; apply Hl; now right|]. cbn [List.filter].
    replace (@leb Rops a (buf_t (cache s))) with false; [cbn [negb]; rewrite I2; auto|].
    symmetry. specialize (Hl a (or_introl eq_refl)). destruct (@leb Rops a (buf_t (cache s))) eqn:e; auto.
    apply Rleb_true in e. unfold Spec.now in Hl. lra. }
  destruct (Fo (ta :: tr)) as (F1 & F2); [intros x Hx; now apply Hr|].
  exists N, (mkrun rows (map ev_ts (fst hs')) (map ev_ys (fst hs'))), s'. intros fuel Hfu.
  destruct evs as [|u evs]; [contradiction|].
  unfold run_events. rewrite Hs. cbv zeta. rewrite bind_ret.
  replace (@ltb Rops ta (buf_t0 (cache s))) with false.
  2:{ symmetry. apply Rltb_false. destruct (Hr ta (or_introl eq_refl)). lra. }
  unfold check_time. replace (ext_gt _ _) with false.
  2:{ symmetry. apply (Hr (list_max ta tr)). apply list_max_in. apply Forall_forall. intros x _. apply Rleb_true. lra. }
  rewrite bind_ret. rewrite F1, F2. cbn [mapM]. rewrite bind_ret.
  unfold bind, get, lift. change (buf_t (cache s)) with (now s). change (buf_y (cache s)) with (state s). rewrite Hb.
  rewrite H by lia. reflexivity.
Qed.
End R.

Section C49v.
Context {E : @Env Rops}.
Lemma C49_variable_lemma rhs n L M t0 te tb m o y0 h0 : lipschitz n L rhs -> defined_on n rhs -> bounded_at_zero n M t0 tb rhs -> t0 <= te -> (1 <= n)%nat ->
  In m pairs -> tolerances o -> shrinking o -> length y0 = n -> 0 < h0 ->
  exists N, forall g sel first s0 fuelc fuel cs s, garbage_ok m g -> init_var m g rhs t0 y0 o sel first = Ret s0 -> hstep s0 = h0 -> (N <= fuelc)%nat ->
    let sv := solver_of (E := E) m fuelc o rhs tb in s = session (E := E) sv fuel cs s0 ->
    forall (t : list R) evs, t <> [] -> is_sorted (OT := Rops) t = true -> (forall x, In x t -> now s < x <= te /\ @gt_ext Rops x tb = false) ->
      evs <> [] -> (forall u : eventR, In u evs -> forall t y, exists v, ue_fun u t y = Ret v) ->
      exists N' r s', forall fuel', (N' <= fuel')%nat -> run_events (E := E) sv fuel' t evs s = (Ret r, s').
Proof.
  intros HL Hdef HB Hte Hn Hm Ho Hs Hy Hh.
  assert (HM : bounded_at_zero n (Rmax M 0) t0 tb rhs).
  { intros t Ht Hg. destruct (HB t Ht Hg) as (f & H1 & H2). exists f. split; auto. intros i Hi. eapply Rle_trans; [now apply H2|apply Rmax_l]. }
  destruct (pairs_tab m Hm) as (A & B & C & Ew & order & P & -> & HC & HA & Hcs & Hord).
  destruct (vb_ex n y0 Hy) as (a0 & Ha0 & By).
  destruct (live_core (E := E) rhs n L (Rmax M 0) t0 te tb HL Hdef (Rmax_r _ _) HM Hte Hn A B C Ew order P o HC HA Hcs Hord Ho Hs a0 h0 Ha0 Hh) as (Ct & del & k & HCt & Hdel & Hlc).
  assert (Hfl : 0 < floor_h o h0 del) by (unfold floor_h; apply Rmin_glb_lt; [exact Hh|apply Rmult_lt_0_compat; [apply Hs|exact Hdel]]).
  exists (S k). intros g sel first s0 fuelc fuel cs s Hg Hi Hh0 Hfu sv -> t evs Ht Hso Hr He Hev.
  pose proof (fun x => Hlc fuelc x Hfu) as Hlc'. clear Hlc.
  assert (I0 : vlive rhs n t0 te A B C Ew order P o a0 h0 Ct del s0) by (eapply live_init; eauto).
  assert (Is : vlive rhs n t0 te A B C Ew order P o a0 h0 Ct del (session (E := E) sv fuel cs s0)) by (eapply live_session; eauto).
  destruct t as [|ta tr]; [congruence|].
  apply (events_return (E := E) (@Fsal Rops A B C Ew order P) fuelc o rhs tb (vlive rhs n t0 te A B C Ew order P o a0 h0 Ct del) (floor_h o h0 del) te Hfl); auto.
  - intros x Hv Hw Hx. destruct (Hlc' x Hv Hw Hx) as (x' & H1 & H2 & H3 & H4). exists x'. split; auto. split; auto. split; [lra|]. split; auto.
    destruct Hv as (_ & G & _). pose proof G as ((Wb & Ws) & _). cbn [len_history] in Wb. cbn [n_stages_of] in Ws. cbn [core_of] in H1.
    destruct (core_fsal_step _ _ _ _ _ _ _ _ _ _ ltac:(now rewrite Ws, Nat.add_1_r) HC HA H1) as (h & K & y' & f' & R1 & R2 & R3 & _).
    unfold prev_y. rewrite R3. now apply (push_yp 0).
  - intros x y Hv Hx. destruct Hv as (Hc & G & Hrest). pose proof (prev_is_first A B C Ew order P y (proj1 G)) as F.
    destruct (interp_total (E := E) rhs n t0 te A B C Ew order P o a0 h0 Ct del x y (conj Hc (conj G Hrest))) as (a & x' & H1 & H2 & H3); [rewrite <- F; exact Hx|].
    exists a, x'. split; [exact H1|]. split; [exact H2|]. split; [exact H3|].
    cbn [interp_of] in H1. rewrite interp_rk_cases in H1. pose proof G as (((_ & W & _) & _) & _). cbn [len_history] in W.
    split.
    + intros -> _. replace (Reqb (now y) (now y)) with true in H1 by (symmetry; now apply Reqb_true). injection H1 as <- _. cbn [deref]. unfold state, buf_y.
      destruct (ys (cache y)) as [|u [|v [|]]]; try discriminate. reflexivity.
    + intros -> Hlt. replace (Reqb (prev_t y) (now y)) with false in H1 by (symmetry; apply Reqb_false; lra).
      replace (Reqb (prev_t y) (prev_t y)) with true in H1 by (symmetry; now apply Reqb_true). injection H1 as <- _. cbn [deref]. reflexivity.
  - intros x (Hc & G & _). split; [symmetry; apply (prev_is_first A B C Ew order P x (proj1 G))|apply Hc].
Qed.
End C49v.
