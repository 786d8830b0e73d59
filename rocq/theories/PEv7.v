(** C49 for two-row histories: run_events returns. *)
From Coq Require Import List ZArith Bool Arith Reals Lia Lra Sorted.
From Verif Require Import Base Scalar Vec MBuffer MZeros MSteps MApi MDop853 MClasses Laws Spec SpecInst SpecRK SpecDense SpecEv
  PStep PKeeps PClean PCore PHist PBound PVecR PTerm PRun PRun2 PRun3 PFwd PInterp PRK PDim PDense PTop1 PEv1 PEv2 PEv5.
Import ListNotations.
Open Scope R_scope.

Lemma len_snoc {A B} (a : list A) (b : list B) x y : length a = length b -> length (a ++ [x]) = length (b ++ [y]).
Proof. rewrite !app_length. cbn. lia. Qed.

Lemma bind_ret {S A B} (a : A) (k : A -> M S B) s : bind (ret a) k s = k a s.
Proof. reflexivity. Qed.
Section R.
Context {E : @Env Rops}.
Notation now := (@now Rops).
Notation state := (@state Rops).

Lemma bisect_loop_total {S} (fn : R -> M S R) g (s : S) tol rtol : (forall t, fn t s = (Ret (g t), s)) ->
  forall n a b yl mid, (n <> 0%nat \/ mid <> None) -> exists r, bisect_loop (OT := Rops) fn tol rtol n a b yl mid s = (Ret r, s).
Proof.
  intros Hf. induction n as [|n IH]; intros a b yl mid Hm; cbn [bisect_loop].
  - destruct mid; [eexists; reflexivity|]. destruct Hm; congruence.
  - unfold bind. rewrite Hf. cbn [ret]. destruct (isclose _ _ _ _); [eexists; reflexivity|].
    destruct (same_sign _ _); apply IH; right; discriminate.
Qed.
Lemma bisect_total {S} (fn : R -> M S R) g (s : S) tol rtol n a b : (forall t, fn t s = (Ret (g t), s)) -> n <> 0%nat ->
  a < b -> g a = 0 \/ g b = 0 \/ g a * g b < 0 -> exists r, bisect (OT := Rops) fn a b tol rtol n s = (Ret r, s).
Proof.
  intros Hf Hn Hab Hg. unfold bisect. replace (@ltb Rops a b) with true by (symmetry; now apply Rltb_true). cbn [negb].
  unfold bind. rewrite Hf. destruct (@eqb Rops (g a) zero) eqn:ea; [eexists; reflexivity|]. apply Reqb_false in ea.
  rewrite Hf. destruct (@eqb Rops (g b) zero) eqn:eb; [eexists; reflexivity|]. apply Reqb_false in eb.
  rewrite zero_R in ea, eb. replace (@ltb Rops (@mul Rops (g a) (g b)) zero) with true.
  - cbn [negb]. apply bisect_loop_total with (g := g); auto.
  - symmetry. apply Rltb_true. rewrite zero_R. cbn. destruct Hg as [K|[K|K]]; [contradiction|contradiction|exact K].
Qed.

Variables (m : @meth Rops) (fuelc : nat) (o : @options Rops) (rhs : @rhs_t Rops) (tb : @ext Rops) (n : nat).
Let sv := solver_of m fuelc o rhs tb.
Hypothesis Hm : explicit m.
Hypothesis Hlen : len_history m = 2%nat.
Hypothesis Hshape : shaped m.
Hypothesis Htot : total rhs.
Hypothesis Hdim : keeps_dim n rhs.

Let Hf : is_fixed m = true.
Proof. clear -Hm. destruct m; try contradiction; reflexivity. Qed.

Definition good (s : stR) : Prop := wf m s /\ dims n s /\ 0 < hstep s.
(** the state before the last step *)
Definition past (x x1 : stR) : Prop :=
  good x1 /\ buf_t0 (cache x1) = now x /\ buf_y0 (cache x1) = state x /\ same_dim n (cache x1) /\
  now x < now x1 /\ length (ys (cache x1)) = 2%nat.

Lemma good_step x : good x -> exists x1, s_core sv x = (Ret tt, x1) /\ past x x1 /\ now x1 = now x + hstep x /\ hstep x1 = hstep x.
Proof.
  intros (W & D & Hh). destruct (core_total m fuelc o rhs x Htot Hm) as (x1 & Hc). exists x1. split; auto.
  destruct (core_fixed_now _ _ _ _ _ _ W Hf Hc) as (N1 & N2 & N3).
  assert (D1 : dims n x1).
  { refine (core_dim _ _ Hdim m fuelc o x x1 _ W Hshape D Hc). clear -Hm. destruct m; auto; contradiction. }
  assert (Hp : buf_t0 (cache x1) = now x /\ buf_y0 (cache x1) = state x /\ length (ys (cache x1)) = 2%nat /\ length (fs (cache x1)) = 2%nat).
  { pose proof N3 as ((L1 & L2 & L3) & _). rewrite Hlen in L1, L2, L3.
    pose proof W as ((K1 & K2 & K3) & _). rewrite Hlen in K1, K2, K3.
    apply core_of_ok in Hc; [|intros; congruence]. destruct Hc as (_ & _ & _ & t & y & f & (P1 & P2) & _).
    rewrite P1 in *. destruct (cache x) as [a b c] eqn:ec. cbn [ts ys fs] in *.
    destruct a as [|a1 [|a2 [|]]]; try discriminate. destruct b as [|b1 [|b2 [|]]]; try discriminate.
    unfold Spec.now, Spec.state. rewrite ec. cbn. auto. }
  destruct Hp as (P1 & P2 & P3 & P4).
  split; [|split; [rewrite N1; reflexivity|exact N2]].
  split; [split; auto; split; auto; rewrite N2; auto|]. repeat (split; [assumption|]).
  split; [|split; [rewrite N1; cbn; lra|assumption]].
  destruct D1 as (Dy & Df). destruct (cache x1) as [a b c]. cbn [ys fs] in *.
  destruct b as [|b1 [|b2 [|]]]; try discriminate. destruct c as [|c1 [|c2 [|]]]; try discriminate.
  inversion Dy as [|? ? Dy1 Dy2]; inversion Dy2; inversion Df as [|? ? Df1 Df2]; inversion Df2; subst. repeat split; assumption.
Qed.

(** the interpolant after a step *)
Lemma past_interp x x1 t : past x x1 -> exists a, s_interp sv t x1 = (Ret a, x1) /\
  (t = now x -> deref (cache x1) a = state x) /\ (t = now x1 -> deref (cache x1) a = state x1).
Proof.
  intros (G & T0 & Y0 & D & Hlt & Hl).
  assert (Hi : s_interp sv t x1 = (hermite (OT := Rops) t (cache x1), x1)).
  { destruct m; try contradiction; reflexivity. }
  destruct (Req_dec t (buf_t0 (cache x1))) as [e|e].
  - exists (CacheRow 0). rewrite Hi. unfold hermite.
    replace (@eqb Rops t (buf_t0 (cache x1))) with true by (symmetry; now apply Reqb_true). split; auto.
    split; intros Ht.
    + rewrite <- Y0. cbn [deref]. unfold buf_y0. now destruct (ys (cache x1)).
    + rewrite Ht, T0 in e. exfalso. lra.
  - assert (Hlt' : buf_t0 (cache x1) < buf_t (cache x1)) by (rewrite T0; exact Hlt).
    pose proof (hermite_eval (cache x1) t e Hlt') as He. cbn zeta in He.
    eexists. rewrite Hi, He. split; [reflexivity|]. split; [intros Ht; rewrite Ht, T0 in e; contradiction|].
    intros Ht. destruct D as (D1 & D2 & D3 & D4). cbn [deref].
    match goal with |- ?v = _ => assert (Lv : length v = n) end.
    { assert (L1 : length (vsub (buf_y (cache x1)) (buf_y0 (cache x1))) = n) by now apply vsub_len. auto 10 with vlen. }
    apply (vec_ext n); [exact Lv|exact D2|]. intros i Hi'.
    destruct (hermite_cmp (cache x1) n t i (conj D1 (conj D2 (conj D3 D4))) Hi' Hlt' e) as (a & Ha & _ & Hcm). cbn zeta in Hcm.
    rewrite He in Ha. injection Ha as <-. cbn [deref] in Hcm. rewrite Hcm.
    replace ((t - buf_t0 (cache x1)) / (buf_t (cache x1) - buf_t0 (cache x1))) with 1.
    + unfold Spec.state. match goal with |- @eq _ ?a ?b => change (@eq R a b) end. ring.
    + rewrite Ht. unfold Spec.now. field. lra.
Qed.

Definition total_ev (f : R -> list R -> outcome R) : Prop := forall t y, exists v, f t y = Ret v.
Definition ev_at (e : @event Rops) (x : stR) : Prop :=
  total_ev (ev_fun e) /\ ev_last_t e = now x /\ ev_fun e (now x) (state x) = Ret (ev_last_v e) /\
  length (ev_ts e) = length (ev_ys e).

Lemma ev_trigger_sign d v v1 : ev_trigger (OT := Rops) d v v1 = true -> v1 <> 0 -> v = 0 \/ v * v1 < 0.
Proof.
  unfold ev_trigger. change (@leb Rops) with Rleb. rewrite zero_R. intros H Hn.
  assert (K : (v <= 0 <= v1) \/ (v1 <= 0 <= v)).
  { destruct (Rleb v 0 && Rleb 0 v1)%bool eqn:e1.
    - apply andb_true_iff in e1 as (A & B). apply Rleb_true in A, B. left. lra.
    - destruct (Rleb 0 v && Rleb v1 0)%bool eqn:e2.
      + apply andb_true_iff in e2 as (A & B). apply Rleb_true in A, B. right. lra.
      + cbn in H. discriminate. }
  destruct (Req_dec v 0) as [e|e]; auto. right. destruct K as [K|K].
  - replace (v * v1) with (- ((- v) * v1)) by ring. assert (0 < (- v) * v1) by (apply Rmult_lt_0_compat; lra). lra.
  - replace (v * v1) with (- (v * (- v1))) by ring. assert (0 < v * (- v1)) by (apply Rmult_lt_0_compat; lra). lra.
Qed.

Lemma evaluate_total e x x1 : past x x1 -> ev_at e x -> exists b e', ev_evaluate sv e x1 = (Ret (b, e'), x1) /\ ev_at e' x1 /\
  (b = true -> ev_last e' <> None).
Proof.
  intros P (Ht & Hl & Hv & Hn). unfold ev_evaluate, bind, lift. change (buf_t (cache x1)) with (now x1). change (buf_y (cache x1)) with (state x1).
  destruct (Ht (now x1) (state x1)) as (v1 & V1). rewrite V1.
  assert (Hsol : forall t, exists a, s_interp sv t x1 = (Ret a, x1)) by (intros t; destruct (past_interp x x1 t P) as (a & A & _); eauto).
  destruct (ev_trigger (ev_dir e) (ev_last_v e) v1) eqn:et.
  2:{ cbn [ret]. eexists; eexists. split; [reflexivity|]. split; [repeat split; auto|]. discriminate. }
  assert (Hroot : exists root, (if @eqb Rops v1 zero then ret (now x1) else bisect (event_at_sol sv (ev_fun e)) (ev_last_t e) (now x1) default_tol zero 50) x1
     = (Ret root, x1)).
  { destruct (@eqb Rops v1 zero) eqn:e0; [eexists; reflexivity|]. apply Reqb_false in e0. rewrite zero_R in e0.
    assert (Hg : exists g, forall t, event_at_sol sv (ev_fun e) t x1 = (Ret (g t), x1)).
    { exists (fun t => match event_at_sol sv (ev_fun e) t x1 with (Ret r, _) => r | _ => 0 end). intros t.
      unfold event_at_sol, interp_copy, bind, get, ret, lift. destruct (Hsol t) as (a & ->).
      destruct (Ht t (deref (cache x1) a)) as (w & ->). reflexivity. }
    destruct Hg as (g & Hg). apply (bisect_total _ g); auto.
    - rewrite Hl. apply P.
    - assert (Hga : g (now x) = ev_last_v e).
      { specialize (Hg (now x)). destruct (past_interp x x1 (now x) P) as (a & A & B & _).
        unfold event_at_sol, interp_copy, bind, get, ret, lift in Hg. rewrite A, (B eq_refl), Hv in Hg. now injection Hg as <-. }
      assert (Hgb : g (now x1) = v1).
      { specialize (Hg (now x1)). destruct (past_interp x x1 (now x1) P) as (a & A & _ & B).
        unfold event_at_sol, interp_copy, bind, get, ret, lift in Hg. rewrite A, (B eq_refl), V1 in Hg. now injection Hg as <-. }
      rewrite Hl, Hga, Hgb. destruct (ev_trigger_sign _ _ _ et e0); auto. }
  destruct Hroot as (root & ->).
  destruct (match Base.last_opt (ev_ts e) with Some r => @eqb Rops r root | None => false end) eqn:ed.
  - cbn [ret fst snd]. eexists; eexists. split; [reflexivity|]. split; [repeat split; auto|]. intros _.
    intros K. apply (ev_last_none _ K); cbn [ev_ts ev_ys]; auto. intros K2. rewrite K2 in ed. discriminate.
  - destruct (Hsol root) as (a & ->). cbn [ret fst snd]. eexists; eexists. split; [reflexivity|].
    split; [repeat split; auto; cbn [ev_ts ev_ys]; now apply len_snoc|]. intros _ K.
    apply (ev_last_none _ K); cbn [ev_ts ev_ys]; [now apply len_snoc|]. now destruct (ev_ts e).
Qed.

Lemma handler_total x x1 : past x x1 -> forall es last, Forall (fun e => ev_at e x) es ->
  exists b es' last', handler_evaluate sv es last x1 = (Ret (b, es', last'), x1) /\ Forall (fun e => ev_at e x1) es' /\
    (b = true \/ last <> None -> last' <> None).
Proof.
  intros P. induction es as [|e es IH]; intros last HF; cbn [handler_evaluate].
  - exists false, [], last. split; [reflexivity|]. split; auto. intros [K|K]; [discriminate|auto].
  - inversion HF as [|? ? H1 H2]; subst. unfold bind.
    destruct (evaluate_total e x x1 P H1) as (b & e' & -> & A & B).
    match goal with |- context [handler_evaluate sv es ?l x1] => destruct (IH l H2) as (b2 & es' & last' & E1 & E2 & E3); rewrite E1 end.
    exists (b || b2)%bool, (e' :: es'), last'. split; [reflexivity|]. split; [now constructor|].
    intros K. apply E3. destruct b2; [now left|]. right. destruct b; cbn in K.
    + destruct (ev_last e') as [[t y]|] eqn:el; [|now specialize (B eq_refl)].
      replace (@leb Rops t t) with true by (symmetry; apply Rleb_true; lra). discriminate.
    + destruct K; [discriminate|auto].
Qed.

Lemma until_total ti k : forall x es last, good x -> Forall (fun e => ev_at e x) es -> ti - now x <= INR k * hstep x ->
  exists res es' last' x1, (forall fuel, (k <= fuel)%nat -> run_until_ev sv fuel ti (es, last) x = (Ret (res, (es', last')), x1)) /\
    (res = None -> good x1 /\ Forall (fun e => ev_at e x1) es' /\ ti <= now x1 /\ now x <= now x1 /\
        (x1 = x \/ exists z, past z x1 /\ now z < ti)).
Proof.
  induction k as [|k IH]; intros x es last G HF Hk.
  - exists None, es, last, x. cbn in Hk. split.
    + intros fuel _. assert (K : @ltb Rops (buf_t (cache x)) ti = false) by (apply Rltb_false; unfold Spec.now in Hk; lra).
      destruct fuel; cbn [run_until_ev]; now rewrite K.
    + intros _. repeat split; auto; try lra; apply G.
  - destruct (@ltb Rops (buf_t (cache x)) ti) eqn:K.
    2:{ exists None, es, last, x. split; [intros [|fuel] _; cbn [run_until_ev]; now rewrite K|]. intros _. apply Rltb_false in K.
        change (ti <= now x) in K. repeat split; auto; try lra; apply G. }
    destruct (step_cases sv (s_bound sv) x) as [[Hw He] | [Hw He]].
    + exists (Some None), es, last, x. split; [|discriminate].
      intros [|fuel] Hfu; [lia|]. cbn [run_until_ev]. rewrite K. unfold bind. now rewrite He.
    + destruct (good_step x G) as (x1 & Hc & P & N1 & N2). rewrite Hc in He.
      destruct (handler_total x x1 P es last HF) as (b & es1 & last1 & H1 & H2 & H3).
      destruct b.
      * destruct last1 as [[t a]|]; [|exfalso; apply H3; auto].
        exists (Some (Some (t, deref (cache x1) a))), es1, (Some (t, a)), x1. split; [|discriminate].
        intros [|fuel] Hfu; [lia|]. cbn [run_until_ev]. rewrite K. unfold bind. rewrite He. cbn [fst snd]. rewrite H1. reflexivity.
      * destruct (IH x1 es1 last1) as (res & es' & last' & x2 & A & B); auto; [apply P|rewrite N1, N2; rewrite S_INR in Hk; lra|].
        exists res, es', last', x2. split.
        -- intros [|fuel] Hfu; [lia|]. cbn [run_until_ev]. rewrite K. unfold bind. rewrite He. cbn [fst snd]. rewrite H1. apply A. lia.
        -- intros Hres. destruct (B Hres) as (B1 & B2 & B3 & B4 & B5). assert (now x < now x1) by apply P.
           repeat (split; [assumption|]). split; [lra|]. right. destruct B5 as [->|B5]; auto. exists x. split; auto. now apply Rltb_true in K.
Qed.

Lemma eval_total t : forall x es last, good x -> Forall (fun e => ev_at e x) es -> is_sorted (OT := Rops) t = true ->
  (exists z, past z x /\ forall ti, In ti t -> now z < ti) \/ (forall ti, In ti t -> now x < ti) ->
  exists N rows hs' x1, forall fuel, (N <= fuel)%nat -> run_eval_events_ sv fuel t (es, last) x = (Ret (rows, hs'), x1).
Proof.
  induction t as [|ti t IH]; intros x es last G HF Hs Hlo.
  - exists 0%nat, [], (es, last), x. intros; reflexivity.
  - destruct (sorted_cons _ _ Hs) as (Hs1 & Hs2). rewrite Forall_forall in Hs2.
    assert (Hk : exists k, ti - now x <= INR k * hstep x).
    { destruct (Rle_dec ti (now x)). exists 0%nat. cbn. lra.
      destruct (floor_exists (ti - now x) (hstep x)) as (k0 & H); [apply G|lra|]. exists (S k0). lra. }
    destruct Hk as (k & Hk).
    destruct (until_total ti k x es last G HF Hk) as (res & es' & last' & x1 & A & B).
    destruct res as [[ty|]|].
    + exists k, [ty], (es', last'), x1. intros fuel Hfu. cbn [run_eval_events_]. unfold bind. rewrite A by lia. reflexivity.
    + exists k, [], (es', last'), x1. intros fuel Hfu. cbn [run_eval_events_]. unfold bind. rewrite A by lia. reflexivity.
    + destruct (B eq_refl) as (B1 & B2 & B3 & B4 & B5).
      assert (Hz : exists z, past z x1 /\ now z < ti).
      { destruct B5 as [->|B5]; auto. destruct Hlo as [(z & P & Hz)|Hlo].
        - exists z. split; auto. apply Hz. now left.
        - specialize (Hlo ti (or_introl eq_refl)). lra. }
      destruct Hz as (z & P & Hz).
      destruct (past_interp z x1 ti P) as (a & Ha & _).
      destruct (IH x1 es' last' B1 B2 Hs1) as (N & rows & hs' & x2 & H).
      { left. exists z. split; auto. intros tj Hj. apply Hs2 in Hj. apply Rleb_true in Hj. lra. }
      exists (max N k), ((ti, deref (cache x1) a) :: rows), hs', x2. intros fuel Hfu. cbn [run_eval_events_]. unfold bind.
      rewrite A by lia. unfold interp_copy, bind. rewrite Ha. cbn [get ret]. rewrite H by lia. reflexivity.
Qed.

Lemma C49_two_lemma s ta tr evs : good s -> is_sorted (OT := Rops) (ta :: tr) = true ->
  (forall x, In x (ta :: tr) -> now s < x /\ @gt_ext Rops x tb = false) -> buf_t0 (cache s) <= now s ->
  evs <> [] -> (forall u : eventR, In u evs -> total_ev (ue_fun u)) ->
  exists N r s', forall fuel, (N <= fuel)%nat -> run_events sv fuel (ta :: tr) evs s = (Ret r, s').
Proof.
  intros G Hs Hr H0 He Hev.
  assert (Hb : exists es, build_handler evs (now s) (state s) = Ret es /\ Forall (fun e => ev_at e s) es).
  { clear He. unfold build_handler. induction evs as [|u evs IH]; [exists []; split; [reflexivity|constructor]|].
    destruct IH as (es & A & B); [intros; apply Hev; now right|]. destruct (Hev u (or_introl eq_refl) (now s) (state s)) as (v & Hv).
    assert (Hd : exists d, dir_of (ue_direction u) = Ret d).
    { destruct (ue_direction u) as [d|]; cbn [dir_of]; [|eauto]. destruct (@ltb Rops zero d) eqn:e1; [eauto|].
      destruct (@ltb Rops d zero) eqn:e2; [eauto|]. apply Rltb_false in e1, e2.
      replace (@eqb Rops d zero) with true; [eauto|]. symmetry. apply Reqb_true. apply Rle_antisym; assumption. }
    destruct Hd as (d & Hd).
    eexists. cbn [omapM]. unfold build_event at 1. rewrite Hd. cbn [obind]. rewrite Hv. cbn [obind]. rewrite A. cbn [obind].
    split; [reflexivity|]. constructor; auto. repeat split; auto. cbn [ev_fun]. apply Hev. now left. }
  destruct Hb as (es & Hb & HF).
  destruct (eval_total (ta :: tr) s es None G HF Hs) as (N & rows & hs' & s' & H).
  { right. intros ti Hti. now apply Hr. }
  assert (Fo : forall l, (forall x, In x l -> now s < x) ->
     List.filter (fun x => @leb Rops x (buf_t (cache s))) l = [] /\ List.filter (fun x => negb (@leb Rops x (buf_t (cache s)))) l = l).
  { induction l as [|a l IH]; intros Hl; [auto|]. destruct IH as (I1 & I2); [intros; apply Hl; now right|]. cbn [List.filter].
    replace (@leb Rops a (buf_t (cache s))) with false; [cbn [negb]; rewrite I2; auto|].
    symmetry. specialize (Hl a (or_introl eq_refl)). destruct (@leb Rops a (buf_t (cache s))) eqn:e; auto.
    apply Rleb_true in e. unfold Spec.now in Hl. lra. }
  destruct (Fo (ta :: tr)) as (F1 & F2); [intros x Hx; now apply Hr|].
  exists N, (mkrun rows (map ev_ts (fst hs')) (map ev_ys (fst hs'))), s'. intros fuel Hfu.
  destruct evs as [|u evs]; [contradiction|].
  unfold run_events. rewrite Hs. cbv zeta. rewrite bind_ret.
  replace (@ltb Rops ta (buf_t0 (cache s))) with false.
  2:{ symmetry. apply Rltb_false. destruct (Hr ta (or_introl eq_refl)). lra. }
  unfold check_time. replace (ext_gt _ _) with false.
  2:{ symmetry. apply (Hr (list_max ta tr)). apply list_max_in. apply Forall_forall. intros x _. apply Rleb_true. lra. }
  rewrite bind_ret. rewrite F1, F2. cbn [mapM]. rewrite bind_ret.
  unfold bind, get, lift. change (buf_t (cache s)) with (now s). change (buf_y (cache s)) with (state s). rewrite Hb.
  rewrite H by lia. reflexivity.
Qed.
End R.
