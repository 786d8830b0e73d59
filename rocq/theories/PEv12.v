(** run_events returns or raises when every step completes or raises (C49 for DOP853). *)
From Coq Require Import List ZArith QArith Bool Arith Reals Lia Lra Sorted.
From Verif Require Import Base Scalar Vec MBuffer MZeros MSteps MApi MDop853 MClasses Laws Spec SpecInst SpecRK SpecDense SpecEv
  PStep PKeeps PClean PCore PHist PBound PVecR PTerm PRun PRun2 PRun3 PFwd PInterp PRK PDim PMS PDense PTop1 PEv1 PEv2 PEv5 PEv7 PEv11
  SpecCtl SpecMS SpecConv PConv1 SpecLive SpecVL PVar1 PVL1 PVL2 PVL3 PVL4 POrd2 PDlv1 PDlv2 PDlv3 PDcv3 PDlv4.
Import ListNotations.
Open Scope R_scope.

Section R.
Context {E : @Env Rops}.
Variables (m : @meth Rops) (fuelc : nat) (o : @options Rops) (rhs : @rhs_t Rops) (tb : @ext Rops).
Let sv := solver_of (E := E) m fuelc o rhs tb.
Variables (I : @st Rops -> Prop) (fl te : R) (ex : exn).
Hypothesis Hfl : 0 < fl.
Hypothesis Hcore : forall x, I x -> ~ would_pass tb x -> now x <= te ->
  exists r x', core_of (E := E) m fuelc o rhs x = (r, x') /\ (r = Raise ex \/ (r = Ret tt /\ I x' /\ now x + fl <= now x' /\ prev_t x' = now x /\ prev_y x' = state x)).
Hypothesis Hint : forall t x, I x -> prev_t x <= t <= now x -> exists a x', interp_of (E := E) m rhs t x = (Ret a, x') /\ I x' /\ cache x' = cache x /\
  (t = now x -> prev_t x < now x -> deref (cache x) a = state x) /\ (t = prev_t x -> prev_t x < now x -> deref (cache x) a = prev_y x).
Hypothesis Hfirst : forall x, I x -> buf_t0 (cache x) = prev_t x /\ prev_t x <= now x.
Local Notation after := (after I).

Lemma until_or ti k : ti <= te -> forall x es last, I x -> Forall (fun e => ev_at e x) es -> ti - now x < INR k * fl ->
  exists x1, (forall fuel, (k <= fuel)%nat -> run_until_ev sv fuel ti (es, last) x = (Raise ex, x1)) \/
  exists res es' last', (forall fuel, (k <= fuel)%nat -> run_until_ev sv fuel ti (es, last) x = (Ret (res, (es', last')), x1)) /\
    (res = None -> I x1 /\ Forall (fun e => ev_at e x1) es' /\ ti <= now x1 /\
        (x1 = x \/ exists z, after z x1 /\ now z < ti)).
Proof.
  intros Hti. induction k as [|k IH]; intros x es last G HF Hk.
  - exists x. right. exists None, es, last. cbn in Hk. split.
    + intros fuel _. assert (K : @ltb Rops (buf_t (cache x)) ti = false) by (apply Rltb_false; unfold Spec.now in Hk; lra).
      destruct fuel; cbn [run_until_ev]; now rewrite K.
    + intros _. repeat split; auto; lra.
  - destruct (@ltb Rops (buf_t (cache x)) ti) eqn:K.
    2:{ exists x. right. exists None, es, last. split; [intros [|fuel] _; cbn [run_until_ev]; now rewrite K|]. intros _. apply Rltb_false in K.
        change (ti <= now x) in K. repeat split; auto; lra. }
    destruct (step_cases sv (s_bound sv) x) as [[Hw He] | [Hw He]].
    + exists x. right. exists (Some None), es, last. split; [|discriminate].
      intros [|fuel] Hfu; [lia|]. cbn [run_until_ev]. rewrite K. unfold bind. now rewrite He.
    + apply Rltb_true in K as K'. change (now x < ti) in K'. destruct (Hcore x G Hw ltac:(lra)) as (r & x1 & Hc & Hr).
      change (s_core sv x) with (core_of (E := E) m fuelc o rhs x) in He. rewrite Hc in He. rewrite S_INR in Hk.
      destruct Hr as [->|(-> & I1 & N1 & T1 & Y1)].
      { exists x1. left. intros [|fuel] Hfu; [lia|]. cbn [run_until_ev]. rewrite K. unfold bind. now rewrite He. }
      assert (P : after x x1) by (repeat split; auto; lra).
      destruct (handler_live m fuelc o rhs tb I Hint x es x1 last P HF) as (b & es1 & last1 & x2 & H1 & P2 & C2 & H2 & H3).
      change (solver_of (E := E) m fuelc o rhs tb) with sv in H1.
      destruct b.
      * destruct last1 as [[t a]|]; [|exfalso; apply H3; auto].
        exists x2. right. exists (Some (Some (t, deref (cache x2) a))), es1, (Some (t, a)). split; [|discriminate].
        intros [|fuel] Hfu; [lia|]. cbn [run_until_ev]. rewrite K. unfold bind. rewrite He. cbn [fst snd]. rewrite H1. reflexivity.
      * assert (N2 : now x2 = now x1) by (unfold now; now rewrite C2).
        destruct (IH x2 es1 last1 (proj1 P2) H2 ltac:(lra)) as (x3 & [A|(res & es' & last' & A & B)]); exists x3; [left|right; exists res, es', last'; split].
        -- intros [|fuel] Hfu; [lia|]. cbn [run_until_ev]. rewrite K. unfold bind. rewrite He. cbn [fst snd]. rewrite H1. apply A. lia.
        -- intros [|fuel] Hfu; [lia|]. cbn [run_until_ev]. rewrite K. unfold bind. rewrite He. cbn [fst snd]. rewrite H1. apply A. lia.
        -- intros Hres. destruct (B Hres) as (B1 & B2 & B3 & B5). split; [exact B1|]. split; [exact B2|]. split; [exact B3|]. right.
           destruct B5 as [->|B5]; auto. exists x. split; auto.
Qed.

Lemma eval_or t : forall x es last, I x -> Forall (fun e => ev_at e x) es -> is_sorted (OT := Rops) t = true -> (forall ti, In ti t -> ti <= te) ->
  (exists z, after z x /\ forall ti, In ti t -> now z < ti) \/ (forall ti, In ti t -> now x < ti) ->
  exists N x1, (forall fuel, (N <= fuel)%nat -> run_eval_events_ sv fuel t (es, last) x = (Raise ex, x1)) \/
    exists rows hs', forall fuel, (N <= fuel)%nat -> run_eval_events_ sv fuel t (es, last) x = (Ret (rows, hs'), x1).
Proof.
  induction t as [|ti t IH]; intros x es last G HF Hs Hb Hlo.
  - exists 0%nat, x. right. exists [], (es, last). intros; reflexivity.
  - destruct (sorted_cons _ _ Hs) as (Hs1 & Hs2). rewrite Forall_forall in Hs2.
    destruct (steps_needed fl Hfl (ti - now x)) as (k & Hk).
    destruct (until_or ti k (Hb ti (or_introl eq_refl)) x es last G HF Hk) as (x1 & [A|(res & es' & last' & A & B)]).
    { exists k, x1. left. intros fuel Hfu. cbn [run_eval_events_]. unfold bind. rewrite A by lia. reflexivity. }
    destruct res as [[ty|]|].
    + exists k, x1. right. exists [ty], (es', last'). intros fuel Hfu. cbn [run_eval_events_]. unfold bind. rewrite A by lia. reflexivity.
    + exists k, x1. right. exists [], (es', last'). intros fuel Hfu. cbn [run_eval_events_]. unfold bind. rewrite A by lia. reflexivity.
    + destruct (B eq_refl) as (B1 & B2 & B3 & B5).
      assert (Hz : exists z, after z x1 /\ now z < ti).
      { destruct B5 as [->|B5]; auto. destruct Hlo as [(z & P & Hz)|Hlo].
        - exists z. split; auto. apply Hz. now left.
        - specialize (Hlo ti (or_introl eq_refl)). lra. }
      destruct Hz as (z & P & Hz).
      destruct (after_interp m fuelc o rhs tb I Hint z x1 ti P ltac:(lra)) as (a & x2 & Ha & P2 & C2 & _).
      change (solver_of (E := E) m fuelc o rhs tb) with sv in Ha.
      destruct (IH x2 es' last' (proj1 P2)) as (N & x3 & H); auto.
      { eapply Forall_impl; [|exact B2]. intros e. now apply ev_at_same. }
      { intros tj Hj. apply Hb. now right. }
      { left. exists z. split; auto. intros tj Hj. apply Hs2 in Hj. apply Rleb_true in Hj. lra. }
      exists (max N k), x3. destruct H as [H|(rows & hs' & H)]; [left|right; exists ((ti, deref (cache x2) a) :: rows), hs']; intros fuel Hfu; cbn [run_eval_events_]; unfold bind;
        rewrite A by lia; unfold interp_copy, bind; rewrite Ha; cbn [get ret]; rewrite H by lia; reflexivity.
Qed.

Lemma events_or s ta tr evs : I s -> is_sorted (OT := Rops) (ta :: tr) = true ->
  (forall x, In x (ta :: tr) -> now s < x <= te /\ @gt_ext Rops x tb = false) ->
  evs <> [] -> (forall u : eventR, In u evs -> total_ev (ue_fun u)) ->
  exists N s', (forall fuel, (N <= fuel)%nat -> run_events (E := E) sv fuel (ta :: tr) evs s = (Raise ex, s')) \/
    exists r, forall fuel, (N <= fuel)%nat -> run_events (E := E) sv fuel (ta :: tr) evs s = (Ret r, s').
Proof.
  intros G Hs Hr He Hev. destruct (Hfirst s G) as (F0 & F0').
  assert (Hb : exists es, build_handler evs (now s) (state s) = Ret es /\ Forall (fun e => ev_at e s) es).
  { clear He. unfold build_handler. induction evs as [|u evs IH]; [exists []; split; [reflexivity|constructor]|].
    destruct IH as (es & A & B); [intros; apply Hev; now right|]. destruct (Hev u (or_introl eq_refl) (now s) (state s)) as (v & Hv).
    assert (Hd : exists d, dir_of (ue_direction u) = Ret d).
    { destruct (ue_direction u) as [d|]; cbn [dir_of]; [|eauto]. destruct (@ltb Rops zero d) eqn:e1; [eauto|].
      destruct (@ltb Rops d zero) eqn:e2; [eauto|]. apply Rltb_false in e1, e2.
      replace (@eqb Rops d zero) with true; [eauto|]. symmetry. apply Reqb_true. apply Rle_antisym; assumption. }
    destruct Hd as (d & Hd).
    eexists. cbn [omapM]. unfold build_event at 1. rewrite Hd. cbn [obind]. rewrite Hv. cbn [obind]. rewrite A. cbn [obind].
    split; [reflexivity|]. constructor; auto. repeat split; auto. cbn [ev_fun]. apply Hev. now left. }
  destruct Hb as (es & Hb & HF).
  destruct (eval_or (ta :: tr) s es None G HF Hs) as (N & s' & H).
  { intros ti Hti. now apply Hr. }
  { right. intros ti Hti. now apply Hr. }
  assert (Fo : forall l, (forall x, In x l -> now s < x) ->
     List.filter (fun x => @leb Rops x (buf_t (cache s))) l = [] /\ List.filter (fun x => negb (@leb Rops x (buf_t (cache s)))) l = l).
  { induction l as [|a l IH]; intros Hl; [auto|]. destruct IH as (I1 & I2); [intros; apply Hl; now right|]. cbn [List.filter].
    replace (@leb Rops a (buf_t (cache s))) with false; [cbn [negb]; rewrite I2; auto|].
    symmetry. specialize (Hl a (or_introl eq_refl)). destruct (@leb Rops a (buf_t (cache s))) eqn:e; auto.
    apply Rleb_true in e. unfold Spec.now in Hl. lra. }
  destruct (Fo (ta :: tr)) as (F1 & F2); [intros x Hx; now apply Hr|].
  assert (Hrun : forall fuel, run_events (E := E) sv fuel (ta :: tr) evs s =
     match run_eval_events_ sv fuel (ta :: tr) (es, None) s with (Ret (rows, hs'), z) => (Ret (mkrun rows (map ev_ts (fst hs')) (map ev_ys (fst hs'))), z) | (Raise e, z) => (Raise e, z) | (Loop, z) => (Loop, z) end).
  { intros fuel. destruct evs as [|u evs]; [contradiction|].
    unfold run_events. rewrite Hs. cbv zeta. rewrite bind_ret.
    replace (@ltb Rops ta (buf_t0 (cache s))) with false.
    2:{ symmetry. apply Rltb_false. destruct (Hr ta (or_introl eq_refl)). lra. }
    unfold check_time. replace (ext_gt _ _) with false.
    2:{ symmetry. apply (Hr (list_max ta tr)). apply list_max_in. apply Forall_forall. intros x _. apply Rleb_true. lra. }
    rewrite bind_ret. rewrite F1, F2. cbn [mapM]. rewrite bind_ret.
    unfold bind, get, lift. change (buf_t (cache s)) with (now s). change (buf_y (cache s)) with (state s). rewrite Hb.
    destruct (run_eval_events_ sv fuel (ta :: tr) (es, None) s) as [[[rows hs']|e|] z]; reflexivity. }
  exists N, s'. destruct H as [H|(rows & hs' & H)]; [left|right; eexists]; intros fuel Hfu; rewrite Hrun, H by exact Hfu; reflexivity.
Qed.
End R.

Section C49d.
Context {E : @Env Rops}.
Hypothesis Hnm : @numba_mode Rops E = true.
Lemma gen_events_live rhs n L M t0 te tb A B C E5 E3 order D Af Cf o y0 h0 : length C = length A -> A <> [] -> length A = dop_n_stages -> length Cf = length Af ->
  Forall (fun c => 0 <= c <= 1) (skipn 1 C) -> (0 <= order)%Z ->
  lipschitz n L rhs -> defined_on n rhs -> bounded_at_zero n M t0 tb rhs -> t0 <= te -> (1 <= n)%nat ->
  tolerances o -> shrinking o -> length y0 = n -> 0 < h0 ->
  let m := @Dop Rops A B C E5 E3 order D Af Cf in
  exists N, forall g sel first s0 fuelc fuel cs s, garbage_ok m g -> init_var m g rhs t0 y0 o sel first = Ret s0 -> hstep s0 = h0 -> (N <= fuelc)%nat ->
    let sv := solver_of (E := E) m fuelc o rhs tb in returns (E := E) sv fuel cs s0 s ->
    forall (t : list R) evs, t <> [] -> is_sorted (OT := Rops) t = true -> (forall x, In x t -> now s < x <= te /\ @gt_ext Rops x tb = false) ->
      evs <> [] -> (forall u : eventR, In u evs -> forall t y, exists v, ue_fun u t y = Ret v) ->
      exists N' s', (forall fuel', (N' <= fuel')%nat -> run_events (E := E) sv fuel' t evs s = (Raise ZeroDivisionError, s')) \/
        exists r, forall fuel', (N' <= fuel')%nat -> run_events (E := E) sv fuel' t evs s = (Ret r, s').
Proof.
  intros HC HA HAn HCf Hcs Hord HL Hdef HB Hte Hn Ho Hs Hy Hh m.
  assert (HM : bounded_at_zero n (Rmax M 0) t0 tb rhs).
  { intros t Ht Hg. destruct (HB t Ht Hg) as (f & H1 & H2). exists f. split; auto. intros i Hi. eapply Rle_trans; [now apply H2|apply Rmax_l]. }
  destruct (vb_ex n y0 Hy) as (a0 & Ha0 & By).
  destruct (dlive_core (E := E) Hnm rhs n L (Rmax M 0) t0 te tb HL Hdef (Rmax_r _ _) HM Hte Hn A B C E5 E3 order D Af Cf o HC HA HAn HCf Hcs Hord Ho Hs a0 h0 Ha0 Hh) as (Ct & del & k & HCt & Hdel & Hlc).
  assert (Hfl : 0 < floor_h o h0 del) by (unfold floor_h; apply Rmin_glb_lt; [exact Hh|apply Rmult_lt_0_compat; [apply Hs|exact Hdel]]).
  exists (S k). intros g sel first s0 fuelc fuel cs s Hg Hi Hh0 Hfu sv Hr t evs Ht Hso Hrt He Hev.
  pose proof (fun x => Hlc fuelc x Hfu) as Hlc'. clear Hlc.
  assert (I0 : dneat rhs n t0 te A B C E5 E3 order D Af Cf o a0 h0 Ct del s0) by (eapply dlive_init; eauto).
  assert (Is : dneat rhs n t0 te A B C E5 E3 order D Af Cf o a0 h0 Ct del s) by (eapply dneat_returns; eauto).
  destruct t as [|ta tr]; [congruence|].
  apply (events_or (E := E) m fuelc o rhs tb (dneat rhs n t0 te A B C E5 E3 order D Af Cf o a0 h0 Ct del) (floor_h o h0 del) te ZeroDivisionError Hfl); auto.
  - intros z (Hz & Hzz) Hw Hzt. destruct (Hlc' z Hz Hw Hzt) as (r & z' & Q1 & Q2 & Q3). exists r, z'. split; [exact Q1|].
    destruct Q3 as [(-> & _)|(-> & Q3 & Q4)]; [now left|right]. split; [reflexivity|].
    split; [split; [exact Q2|]; refine (dtidy_core (E := E) A B C E5 E3 order D Af Cf fuelc o rhs n (conj HC HA) (proj1 (proj2 HL)) (shrinking_sane o Hs) z z' _ Q1); apply Hz|].
    split; [lra|]. split; [exact Q3|]. destruct Hz as (_ & (W & _) & _). pose proof W as (Wb & Ws). cbn [len_history m] in Wb. cbn [n_stages_of m] in Ws. cbn [core_of m] in Q1.
    destruct (core_fsal_step _ _ _ _ _ _ _ _ _ _ ltac:(now rewrite Ws, Nat.add_1_r) HC HA Q1) as (h & K & y' & f' & R1 & R2 & R3 & _).
    unfold prev_y. rewrite R3. now apply (push_yp 0).
  - intros x z Hz Hx. assert (F : prev_t z = buf_t0 (cache z)) by (apply (dprev_is_first A B C E5 E3 order D Af Cf z); apply Hz).
    destruct (dinterp_total (E := E) rhs n L t0 te HL Hdef A B C E5 E3 order D Af Cf o HC HA HAn HCf a0 h0 Ct del x z Hz) as (a & z' & A1 & A2 & A3); [rewrite <- F; exact Hx|].
    exists a, z'. split; [exact A1|]. split; [exact A2|]. split; [exact A3|].
    change (interp_of (E := E) (@Dop Rops A B C E5 E3 order D Af Cf) rhs x z) with (@interp_dop Rops E dop_n_stages D Af Cf rhs x z) in A1. rewrite interp_dop_cases in A1.
    destruct Hz as ((_ & (((_ & W & _) & _) & _) & _) & _). cbn [len_history m] in W.
    split.
    + intros -> _. replace (Reqb (now z) (now z)) with true in A1 by (symmetry; now apply Reqb_true). injection A1 as <- _. cbn [deref]. unfold state, buf_y.
      destruct (ys (cache z)) as [|u [|v [|]]]; try discriminate. reflexivity.
    + intros -> Hlt. replace (Reqb (prev_t z) (now z)) with false in A1 by (symmetry; apply Reqb_false; lra).
      replace (Reqb (prev_t z) (prev_t z)) with true in A1 by (symmetry; now apply Reqb_true). injection A1 as <- _. cbn [deref]. reflexivity.
  - intros z Hz. split; [symmetry; apply (dprev_is_first A B C E5 E3 order D Af Cf z); apply Hz|]. apply Hz.
Qed.
End C49d.
Lemma C49_dop_lemma {E : @Env Rops} rhs n L M t0 te tb o y0 h0 : @numba_mode Rops E = true -> lipschitz n L rhs -> defined_on n rhs -> bounded_at_zero n M t0 tb rhs -> t0 <= te -> (1 <= n)%nat ->
  tolerances o -> shrinking o -> length y0 = n -> 0 < h0 ->
  exists N, forall g sel first s0 fuelc fuel cs s, garbage_ok (@DOP853 Rops) g -> init_var (@DOP853 Rops) g rhs t0 y0 o sel first = Ret s0 -> hstep s0 = h0 -> (N <= fuelc)%nat ->
    let sv := solver_of (E := E) DOP853 fuelc o rhs tb in returns (E := E) sv fuel cs s0 s ->
    forall (t : list R) evs, t <> [] -> is_sorted (OT := Rops) t = true -> (forall x, In x t -> now s < x <= te /\ @gt_ext Rops x tb = false) ->
      evs <> [] -> (forall u : eventR, In u evs -> forall t y, exists v, ue_fun u t y = Ret v) ->
      exists N' s', (forall fuel', (N' <= fuel')%nat -> run_events (E := E) sv fuel' t evs s = (Raise ZeroDivisionError, s')) \/
        exists r, forall fuel', (N' <= fuel')%nat -> run_events (E := E) sv fuel' t evs s = (Ret r, s').
Proof.
  destruct dop_shape as ((a & b) & c & d & _). intros Hnm H H0 H1 H2 H3 H4 H5 H6 H7.
  exact (gen_events_live Hnm rhs n L M t0 te tb dA dB dC (@lits Rops dop_E5) (@dop_E3 Rops) 7 (@litm Rops dop_D) (@litm Rops dop_A) (@lits Rops dop_C) o y0 h0 a b c d dop_frac ltac:(lia) H H0 H1 H2 H3 H4 H5 H6 H7).
Qed.
