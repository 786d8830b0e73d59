(** A returning [run_events] call over the reals, in terms of plain steps. *)
From Coq Require Import List ZArith Bool Arith Reals Lia Lra Sorted.
From Verif Require Import Base Scalar Vec MBuffer MZeros MSteps MApi MDop853 MClasses Laws Spec SpecInst SpecRK SpecDense SpecEv
  PStep PKeeps PClean PCore PHist PBound PVecR PRun PRun2 PRun3 PFwd PInterp PRK PDim PDense PTop1 PEv1 PEv2 PEv3 PEv4.
Import ListNotations.
Open Scope R_scope.

Section R.
Context {E : @Env Rops}.
Notation now := (@now Rops).
Variables (m : @meth Rops) (fuelc : nat) (o : @options Rops) (rhs : @rhs_t Rops) (tb : @ext Rops).
Let sv := solver_of m fuelc o rhs tb.

Lemma chain_went s l s1 : chain sv tb s l s1 -> forward sv s -> went_forward s l.
Proof.
  intros C Hf.
  assert (G : forall l0 x, chain sv tb s l0 x -> forall l1 y, chain sv tb x l1 y -> went_forward x l1).
  { intros l0 x C0 l1 y C1. revert l0 C0. induction C1 as [|x x1 l1 y Hc C1 IH]; intros l0 C0 a b Hab; [destruct Hab|].
    destruct Hab as [e|Hab].
    - injection e as <- <-. apply Rleb_true. apply (Hf l0 x x1); auto.
    - apply (IH (l0 ++ [x1])); auto. eapply chain_app; [exact C0|]. econstructor; [exact Hc|constructor]. }
  eapply G; [constructor|exact C].
Qed.

(** the record of one event *)
Record logged (u : eventR) (s : stR) (l : list stR) (bs : list bool) (ts : list R) (ys : list (@arr Rops)) : Prop := mklogged {
  lg_len : length ts = length ys;
  lg_inc : increasing ts;
  lg_complete : forall x x1, step_of s l x x1 -> triggers u x x1 -> exists r, In r ts /\ located sv u x x1 r;
  lg_sound : forall r a, In (r, a) (combine ts ys) ->
    exists x x1, step_of s l x x1 /\ triggers u x x1 /\ located sv u x x1 r /\ sol_arr sv x1 r = Ret a;
  lg_fired : Forall2 (fun xx b => b = true <-> triggers u (fst xx) (snd xx) /\ terminal u) (combine (s :: l) l) bs }.

Lemma step_last (s : stR) l0 (x1 x y : stR) : step_of s (l0 ++ [x1]) x y -> step_of s l0 x y \/ (x, y) = (last l0 s, x1).
Proof. unfold step_of. rewrite combine_shift. intros H. apply in_app_or in H as [H|[H|[]]]; auto. Qed.
Lemma step_is_last (s : stR) l0 (x1 : stR) : step_of s (l0 ++ [x1]) (last l0 s) x1.
Proof. unfold step_of. rewrite combine_shift. apply in_or_app. right. now left. Qed.

Lemma in_ends (s : stR) l0 (x1 : stR) b bs (x y : stR) (P : stR * stR -> bool -> Prop) : length bs = length l0 ->
  Forall2 P (combine (s :: l0 ++ [x1]) (l0 ++ [x1])) (bs ++ [b]) ->
  P (last l0 s, x1) b /\ (step_of s l0 x y -> exists b', In b' bs /\ P (x, y) b').
Proof.
  intros Hl H. rewrite combine_shift in H.
  apply Forall2_app_inv_l in H as (b1 & b2 & H1 & H2 & e).
  inversion H2 as [|? b0 ? ? Hb H3]; subst. inversion H3; subst.
  assert (L1 : length b1 = length bs).
  { apply (f_equal (@length bool)) in e. rewrite !app_length in e. cbn in e. lia. }
  apply app_inj_tail in e as (-> & ->). split; auto.
  intros Hs. unfold step_of in Hs. clear -H1 Hs. induction H1; [destruct Hs|].
  destruct Hs as [->|Hs]; [eexists; split; [now left|auto]|]. destruct (IHForall2 Hs) as (b' & A & B). exists b'. split; auto. now right.
Qed.

Lemma ev_last_none (e : @event Rops) : ev_last e = None -> length (ev_ts e) = length (ev_ys e) -> ev_ts e <> [] -> False.
Proof.
  unfold ev_last. destruct (last_opt_snoc (ev_ts e)) as [->|(a & b & Ha & ->)]; [congruence|].
  destruct (last_opt_snoc (ev_ys e)) as [K|(a' & b' & Hy & ->)]; [|discriminate].
  rewrite K, Ha, app_length. cbn. lia.
Qed.
(** everything *)
Lemma events_R fuel t t' evs s r s' : ready m fuelc o rhs tb s -> ordered (OT := Rops) t t' -> evs <> [] ->
  run_events sv fuel t evs s = (Ret r, s') ->
  exists l s1, chain sv tb s l s1 /\ went_forward s l /\ cache s' = cache s1 /\ hstep s' = hstep s1 /\ stages s' = stages s1 /\
    length (rr_tev r) = length evs /\ length (rr_yev r) = length evs /\
    t' <> [] /\ Forall (fun x => now s < x) t' /\
    (forall j u, nth_error evs j = Some u -> exists bs ts ys,
        nth_error (rr_tev r) j = Some ts /\ nth_error (rr_yev r) j = Some ys /\ logged u s l bs ts ys) /\
    (((forall u x x1, In u evs -> terminal u -> step_of s l x x1 -> ~ triggers u x x1) /\
      exists z', run sv fuel t s = (Ret (rr_rows r), z') /\ cache z' = cache s1 /\ hstep z' = hstep s1 /\ stages z' = stages s1)
     \/
     exists l0 tau y, l = l0 ++ [s1] /\
       (exists u a j ts ys, nth_error evs j = Some u /\ terminal u /\ triggers u (last l0 s) s1 /\ located sv u (last l0 s) s1 tau /\
          sol_arr sv s1 tau = Ret a /\ y = deref (cache s1) a /\
          nth_error (rr_tev r) j = Some ts /\ nth_error (rr_yev r) j = Some ys /\ (exists ts0, ts = ts0 ++ [tau]) /\
          (forall j' u', (j < j')%nat -> nth_error evs j' = Some u' -> terminal u' -> ~ triggers u' (last l0 s) s1)) /\
       (forall u x x1, In u evs -> terminal u -> step_of s l0 x x1 -> ~ triggers u x x1) /\
       exists k vs z, length vs = k /\ run_eval_ sv fuel (firstn k t') s = (Ret vs, z) /\
         (if is_sorted (OT := Rops) t then rr_rows r = combine (firstn k t') vs ++ [(tau, y)]
          else fancy (combine (firstn k t') vs ++ [(tau, y)]) (inv_perm (@np_argsort Rops E t)) = Ret (rr_rows r)) /\
         exists tk, nth_error t' k = Some tk /\ now (last l0 s) < tk).
Proof.
  intros Hr Ho He H. apply ready_steady in Hr as (Hf & J & inr & HS & Js). fold sv in Hf.
  destruct HS as [S1 S2 S3 S4 S5 S6 S7].
  assert (M1 : forall s a b, inr s a -> inr s b -> inr s (@div Rops (@add Rops a b) (@two Rops))).
  { intros s0 a b Ha Hb. rewrite two_R. change (inr s0 ((a + b) / 2)).
    destruct (Rle_dec a b); [apply (S4 s0 a b)|apply (S4 s0 b a)]; auto; lra. }
  assert (M2 : forall s s' t, J s -> s_core sv s = (Ret tt, s') -> @ltb Rops (now s) t = true -> @ltb Rops (now s') t = false -> inr s' t).
  { intros s0 s2 t0 A B C D. apply (S6 s0); auto; [now apply Rltb_true in C|apply Rltb_false in D; lra]. }
  assert (M3 : forall s t t', inr s t -> @leb Rops t t' = true -> @ltb Rops (now s) t' = false -> inr s t').
  { intros s0 a b A B C. apply (S7 s0 a); auto; [now apply Rleb_true in B|apply Rltb_false in C; lra]. }
  assert (Hlt : forall x, @leb Rops x (now s) = false -> @ltb Rops (now s) x = true \/ inr s x).
  { intros x Hx. left. apply Rltb_true. destruct (Rle_dec x (now s)) as [k|k]; [|lra].
    apply Rleb_true in k. change (@leb Rops x (now s) = true) in k. congruence. }
  pose proof (call_spec m fuelc o rhs tb J inr S1 S2 S3 M1 S5 M2 M3 fuel t t' evs s r s' Js Ho He Hlt H) as
    (es & es' & l & s1 & H1 & H2 & H3 & H4 & H5 & H6 & H7 & H8 & HC).
  fold sv in H2. pose proof (chain_went s l s1 H2 Hf) as Hw.
  apply sim_iff in H3 as (Q1 & Q2 & Q3).
  apply omapM_nth in H1 as (Ln & Hn).
  assert (Hlog : forall j u e e' bs, nth_error evs j = Some u -> nth_error es j = Some e -> grows m fuelc o rhs tb e l bs e' ->
     logged u s l bs (ev_ts e') (ev_ys e')).
  { intros j u e e' bs Hu Hj Hg. destruct (Hn j u Hu) as (e0 & A & B). rewrite Hj in A. injection A as <-.
    apply build_of in B as (B1 & B2 & B3 & B4 & B5).
    destruct (grows_log m fuelc o rhs tb J inr S1 S2 S3 S4 S5 u e l bs e' Hg s s1 Js H2 Hw B1 B2 B3) as (new & newy & [P1 P2 P3 P4 P5 P6 P7 P8 P9]).
    { rewrite B4. constructor. } { rewrite B4. constructor. }
    rewrite B4 in P1. rewrite B5 in P2. cbn [app] in P1, P2.
    constructor; rewrite ?P1, ?P2 in *; auto. }
  assert (Hget : forall j u, nth_error evs j = Some u -> exists e, nth_error es j = Some e).
  { intros j u Hu. destruct (Hn j u Hu) as (e & A & _). eauto. }
  assert (H8' : Forall (fun x => now s < x) t').
  { eapply Forall_impl; [|exact H8]. intros x Hx. cbv beta in Hx.
    destruct (Rle_dec x (now s)) as [k|k]; [|lra]. apply Rleb_true in k. change (@leb Rops x (now s) = true) in k. congruence. }
  assert (Hpre : forall l0 es0 u x x1, evolves m fuelc o rhs tb es l0 es0 -> (exists l2 s2, chain sv tb s l0 s2 /\ l = l0 ++ l2) ->
     In u evs -> terminal u -> step_of s l0 x x1 -> ~ triggers u x x1).
  { intros l0 es0 u x x1 Hev (l2 & s2 & Hc & Hl) Hu Ht Hs Htr.
    apply In_nth_error in Hu as (j & Hj). destruct (Hget j u Hj) as (e & He').
    destruct (evolves_nth _ _ _ _ _ _ _ _ Hev j e He') as (e0 & D1 & D2).
    destruct (Hn j u Hj) as (e00 & A & B). rewrite He' in A. injection A as <-. apply build_of in B as (B1 & B2 & B3 & B4 & B5).
    assert (Hw0 : went_forward s l0) by (eapply chain_went; eauto).
    destruct (grows_log m fuelc o rhs tb J inr S1 S2 S3 S4 S5 u e l0 _ e0 D2 s s2 Js Hc Hw0 B1 B2 B3) as (new & newy & [P1 P2 P3 P4 P5 P6 P7 P8 P9]).
    { rewrite B4. constructor. } { rewrite B4. constructor. }
    clear -P8 Hs Htr Ht. unfold step_of in Hs. revert Hs P8. generalize (combine (s :: l0) l0) (length l0). intros c. induction c as [|a c IH]; intros n Hs P8; [destruct Hs|].
    destruct n; cbn [repeat] in P8; inversion P8; subst. destruct Hs as [->|Hs]; [|eauto].
    cbn in *. assert (false = true) by (apply H2; auto). discriminate. }
  assert (Hl' : length es' = length es).
  { assert (G : forall es l es', evolves m fuelc o rhs tb es l es' -> length es' = length es).
    { induction 1; auto. rewrite IHevolves. clear -H0. induction H0; cbn; auto. }
    destruct HC as [(D1 & _)|(ty & k & vs & s0 & (l0 & es0 & bs & a & _ & D1 & D2 & _) & _)]; [now apply G in D1|].
    apply G in D1. rewrite <- D1. clear -D2. induction D2; cbn; auto. }
  exists l, s1. repeat (split; [assumption|]).
  split; [now rewrite H5, map_length, Hl'|]. split; [now rewrite H6, map_length, Hl'|]. split; [assumption|]. split; [assumption|].
  split.
  { intros j u Hj. destruct (Hget j u Hj) as (e & He'). rewrite H5, H6.
    destruct HC as [(D1 & _)|(ty & k & vs & s0 & D1 & _)].
    - destruct (evolves_nth _ _ _ _ _ _ _ _ D1 j e He') as (e' & F1 & F2).
      exists (repeat false (length l)), (ev_ts e'), (ev_ys e'). split; [now apply map_nth_error|]. split; [now apply map_nth_error|]. eauto.
    - destruct (ended_nth _ _ _ _ _ _ _ _ _ _ D1 j e He') as (b & e' & F1 & F2).
      eexists; exists (ev_ts e'), (ev_ys e'). split; [now apply map_nth_error|]. split; [now apply map_nth_error|]. eauto. }
  destruct HC as [(D1 & z' & D2 & D3)|(ty & k & vs & s0 & (l0 & es0 & bs & a & El & D1 & D2 & D3 & D4 & D5) & F1 & F2 & F3 & tk & F4 & F5)].
  - left. split.
    + intros u x x1 Hu Ht Hs. eapply Hpre; eauto. exists [], s1. rewrite app_nil_r. auto.
    + exists z'. split; auto. now apply sim_iff in D3.
  - right. exists l0, (fst ty), (snd ty). split; auto.
    assert (Hc0 : exists s2, chain sv tb s l0 s2).
    { clear -H2 El. subst l. revert s H2. induction l0 as [|x l0 IH]; intros s H2; [exists s; constructor|].
      inversion H2; subst. destruct (IH x H5) as (s2 & K). exists s2. econstructor; eauto. }
    assert (Hcase : forall j u, nth_error evs j = Some u -> exists e' b, nth_error es' j = Some e' /\ nth_error bs j = Some b /\
       logged u s l (repeat false (length l0) ++ [b]) (ev_ts e') (ev_ys e')).
    { intros j u Hj. destruct (Hget j u Hj) as (e & He').
      destruct (evolves_nth _ _ _ _ _ _ _ _ D1 j e He') as (e0 & G1 & G2).
      destruct (evolves1s_nth _ _ _ _ _ _ _ _ _ D2 j e0 G1) as (b & e' & G3 & G4 & G5).
      exists e', b. repeat (split; [assumption|]). eapply Hlog; eauto. rewrite El. eapply grows_snoc; eauto. }
    assert (Hb : forall j u b e', nth_error evs j = Some u -> nth_error bs j = Some b -> nth_error es' j = Some e' ->
        (b = true <-> triggers u (last l0 s) s1 /\ terminal u) /\ logged u s l (repeat false (length l0) ++ [b]) (ev_ts e') (ev_ys e')).
    { intros j u b e' Hj Hbj Hej. destruct (Hcase j u Hj) as (e'' & b' & A1 & A2 & A3).
      assert (e'' = e') by congruence. assert (b' = b) by congruence. subst e'' b'. split; auto.
      destruct A3 as [_ _ _ _ A3]. rewrite El in A3. apply (in_ends s l0 s1 b _ s s) in A3 as (A3 & _); auto. now rewrite repeat_length. }
    split.
    + apply last_fired_some in D4 as [(D4 & _)|(j & e' & K1 & K2 & K3 & K4)]; [discriminate|].
      destruct (nth_error evs j) as [u|] eqn:Hj.
      2:{ exfalso. apply nth_error_None in Hj. assert (j < length es')%nat by (apply nth_error_Some; congruence). lia. }
      destruct (Hb j u true e' Hj K1 K2) as (Hbb & Hlg). destruct (proj1 Hbb eq_refl) as (Htr & Hte).
      unfold ev_last in K3.
      destruct (Base.last_opt (ev_ts e')) as [t0|] eqn:L1; [|discriminate].
      destruct (Base.last_opt (ev_ys e')) as [a0|] eqn:L2; [|discriminate]. injection K3 as -> ->.
      pose proof (last_opt_snoc (A := R) (ev_ts e')) as [N1|(ts0 & t1 & N1 & N1')]; [rewrite N1 in L1; discriminate|].
      pose proof (last_opt_snoc (A := @arr Rops) (ev_ys e')) as [N2|(ys0 & a1 & N2 & N2')]; [rewrite N2 in L2; discriminate|].
      assert (Ht1 : t1 = fst ty) by (exact (f_equal (fun o => match o with Some x => x | None => t1 end) (eq_trans (eq_sym N1') L1))).
      assert (Ha1 : a1 = a) by congruence. subst t1 a1.
      destruct Hlg as [G1 G2 G3 G4 G5].
      assert (Hin : In (fst ty, a) (combine (ev_ts e') (ev_ys e'))).
      { assert (Lt : length (ev_ts e') = (length ts0 + 1)%nat) by (etransitivity; [exact (f_equal (@length R) N1)|]; apply app_length).
        assert (Ly : length (ev_ys e') = (length ys0 + 1)%nat) by (etransitivity; [exact (f_equal (@length (@arr Rops)) N2)|]; apply app_length).
        rewrite N1, N2, combine_snoc by (change (@T Rops) with R in *; lia). apply in_or_app. right. now left. }
      destruct (G4 _ _ Hin) as (x & x1 & W1 & W2 & W3 & W4).
      assert (Hx : (x, x1) = (last l0 s, s1)).
      { rewrite El in W1. apply step_last in W1 as [W1|W1]; auto. exfalso. destruct Hc0 as (s2 & Hc0).
        apply (Hpre l0 es0 u x x1 D1) in W1; auto. exists [s1], s2. auto. eapply nth_error_In; eauto. }
      injection Hx as -> ->.
      exists u, a, j, (ev_ts e'), (ev_ys e'). repeat (split; [assumption|]).
      split; [rewrite H5; now apply map_nth_error|]. split; [rewrite H6; now apply map_nth_error|].
      split; [exists ts0; exact N1|].
      intros j' u' Hjj Hu' Ht' Htr'. destruct (Hcase j' u' Hu') as (e2 & b2 & A1 & A2 & A3).
      destruct (Hb j' u' b2 e2 Hu' A2 A1) as (Hb2 & _). assert (b2 = true) by (apply Hb2; auto). subst b2.
      specialize (K4 j' e2 Hjj A2 A1). destruct A3 as [G1' G2' G3' _ _].
      assert (Hls : step_of s l (last l0 s) s1) by (rewrite El; apply step_is_last).
      destruct (G3' (last l0 s) s1 Hls Htr') as (r0 & R1 & _).
      clear -K4 R1 G1'. apply (ev_last_none e2 K4 G1'). intros e1. now rewrite e1 in R1.
    + split; [intros u x x1 Hu Ht Hs; destruct Hc0 as (s2 & Hc0); eapply Hpre; eauto|].
      exists k, vs, s0. split; auto. split; auto. split; [now destruct ty|].
      exists tk. split; auto. rewrite El in F5. unfold before_last in F5. rewrite removelast_last in F5. now apply Rltb_true.
Qed.
End R.
