(** Forms of the lemmas used in the statements of Props2. *)
From Coq Require Import List ZArith QArith Qcanon Bool Arith Lia Reals Lra FunctionalExtensionality Permutation.
From Verif Require Import Base Scalar Vec MBuffer MZeros MSteps MApi MDop853 MClasses Laws Spec SpecInst SpecRK SpecDense
  PStep PKeeps PClean PCore PHist PBound PVecR PRun PRun2 PRun3 PFwd Ex PTerm PRef1 PTop1 PInterp PDense.
Import ListNotations.
Open Scope nat_scope.

Section A.
Context {OT : Ops} {E : Env}.
Variable m : meth.
Variables (fuelc : nat) (o : options) (rhs : rhs_t) (tb : ext).
Let sv := solver_of m fuelc o rhs tb.

(** ** C22 *)
Lemma C22_lastn s0 fuel cs : built rhs m s0 -> let s := session sv fuel cs s0 in
  exists l : list (T * vec * vec),
    let N := len_history m in
    ts (cache s) = lastn N (ts (cache s0) ++ map (fun e => fst (fst e)) l) /\
    ys (cache s) = lastn N (ys (cache s0) ++ map (fun e => snd (fst e)) l) /\
    fs (cache s) = lastn N (fs (cache s0) ++ map snd l) /\
    length (ts (cache s)) = N /\ length (ys (cache s)) = N /\ length (fs (cache s)) = N.
Proof.
  intros B s. destruct (C22_lemma rhs m s0 fuelc o tb fuel cs B) as (l & G). exists l. cbn zeta.
  destruct G as (G & _ & _). fold sv s in G. rewrite G.
  apply built_good in B as ((W & _) & _). destruct (len_history_pos m) as (k & Hk). rewrite Hk in W |- *.
  destruct (push_all_spec _ l (cache s0) W) as (P1 & P2 & P3). rewrite P1, P2, P3.
  destruct W as (W1 & W2 & W3).
  repeat split; try reflexivity; apply lastn_length; rewrite app_length, map_length; lia.
Qed.
Lemma C22_start s0 : built rhs m s0 -> is_erk m \/ is_fixed m = false ->
  exists t0 y0 f0, let N := len_history m in
    ts (cache s0) = repeat t0 N /\ ys (cache s0) = repeat y0 N /\ fs (cache s0) = repeat f0 N.
Proof.
  intros B Hm. inversion B as [? g t0 y0 h ? He Hg H|? g t0 y0 o' sel first ? Hf Hg H|? ? ? ? ? ? ? H|? ? ? ? ? ? ? ? ? ? ? H|? ? ? ? ? ? ? ? ? ? ? H]; subst.
  - unfold init_rk in H. apply (init_base_spec _ _ _ _ _ _ _ Hg) in H as (_ & f & _ & -> & _). exists t0, y0, f. auto.
  - unfold init_var in H. destruct (init_base m g rhs t0 y0 None) as [s1| |] eqn:e; try discriminate.
    cbn [obind] in H. apply (init_base_spec m g rhs t0 y0 None s1 Hg) in e as (_ & f & Hrf & Hc & _).
    destruct (match max_step o' with Fin x => _ | PInf => _ end); [discriminate|]. destruct (ltb _ _); [discriminate|].
    match type of H with (let! h := ?x in _) = _ => destruct x as [h| |] end; cbn [obind] in H; try discriminate.
    exists t0, y0, f. cbn zeta. assert (K : cache s0 = cache s1).
    { destruct m; try (injection H as <-; reflexivity).
      destruct (dop_update dop_n_stages D Afull Cfull rhs (set_h h s1)) as [r s2] eqn:ed.
      unfold dop_update, bind, lift in ed. destruct (dop_extra _ _ _ _ _ _ _); injection ed as <- <-; try discriminate.
      injection H as <-. reflexivity. }
    rewrite K, Hc. auto.
  - exfalso. destruct Hm; destruct m; cbn in *; try contradiction; discriminate.
  - exfalso. destruct Hm; destruct m; cbn in *; try contradiction; discriminate.
  - exfalso. destruct Hm; destruct m; cbn in *; try contradiction; discriminate.
Qed.

(** ** C25: the array step() returns is the instance's current state, always *)
Lemma C25_view s s1 t a fuel1 fuel2 cs : reachable rhs m fuelc o tb s ->
  step sv fuel1 None None s = (Ret (ROne t a), s1) ->
  let s2 := session sv fuel2 cs s1 in deref (cache s2) a = state s2.
Proof.
  intros R H s2. apply (reachable_good OT E rhs m fuelc o tb) in R.
  unfold step, bind in H. destruct (step_cases sv (s_bound sv) s) as [[Hw He] | [Hw He]]; rewrite He in H.
  - discriminate.
  - destruct (s_core sv s) as [[[]| |] s1'] eqn:ec; try discriminate. cbn in H. injection H as <- <- <-.
    assert (G1 : good rhs m s1').
    { pose proof (good_core rhs m fuelc o s R) as K. change (s_core sv s) with (core_of m fuelc o rhs s) in ec.
      rewrite ec in K. exact K. }
    assert (G2 : good rhs m s2) by (apply session_good; exact G1).
    destruct G1 as (((_ & L1 & _) & _) & _). destruct G2 as (((_ & L2 & _) & _) & _).
    cbn [deref]. rewrite L1. unfold state, buf_y. destruct (len_history_pos m) as (k & Hk). clearbody s2. rewrite <- L2.
    destruct (rev_case (ys (cache s2))) as [K | (x & l & K)]; rewrite K; [reflexivity|].
    rewrite last_snoc, app_length. cbn [length]. rewrite app_nth2 by lia.
    replace (length l + 1 - 1 - length l) with 0 by lia. reflexivity.
Qed.
End A.

(** ** C26 *)
Section C26.
Context {OT : Ops} {E : Env}.
Lemma C26_lemma (f : T -> vec -> vec -> outcome vec) (p : vec) (g : T -> vec -> outcome vec) :
  (forall t y, g t y = f t y p) ->
  forall m, (forall s, built (make_rhs (Rhs3 f) (Some p)) m s <-> built (make_rhs (Rhs2 g) None) m s) /\
  forall fuelc o tb fuel,
    let sv := solver_of m fuelc o (make_rhs (Rhs3 f) (Some p)) tb in
    let sv' := solver_of m fuelc o (make_rhs (Rhs2 g) None) tb in
    (forall n u s, step sv fuel n u s = step sv' fuel n u s) /\
    (forall n u s, skip sv fuel n u s = skip sv' fuel n u s) /\
    (forall t s, run sv fuel t s = run sv' fuel t s) /\
    (forall t e s, run_events sv fuel t e s = run_events sv' fuel t e s) /\
    (forall t s, interpolate sv t s = interpolate sv' t s) /\
    (forall cs s, session sv fuel cs s = session sv' fuel cs s).
Proof.
  intros H m. assert (K : make_rhs (Rhs3 f) (Some p) = make_rhs (Rhs2 g) None).
  { cbn. extensionality t. extensionality y. now rewrite H. }
  rewrite K. split; [tauto|]. cbn zeta. auto 10.
Qed.
End C26.

Section R.
Context {E : @Env Rops}.
Variable m : @meth Rops.
Variables (fuelc : nat) (o : @options Rops) (rhs : @rhs_t Rops) (tb : @ext Rops).
Let sv := solver_of m fuelc o rhs tb.
Open Scope R_scope.

(** ** C18: exact arithmetic *)
Lemma prev_first s : wf m s -> is_fixed m = false -> prev_t s = buf_t0 (cache s).
Proof.
  intros ((L & _) & _) Hf. unfold prev_t, buf_tp, buf_t0. destruct m; try discriminate; cbn [len_history] in L; rewrite L; cbn;
  now destruct (ts (cache s)).
Qed.
Lemma C18_R s t : reachable rhs m fuelc o tb s -> (is_dop m = true -> total rhs) ->
  buf_t0 (cache s) <= t <= now s -> exists a s', interpolate sv t s = (Ret a, s').
Proof.
  intros W%(reachable_wf m fuelc o rhs tb) Hd Ht. unfold interpolate. fold (now s).
  replace (@leb Rops (buf_t0 (cache s)) t) with true by (symmetry; now apply Rleb_true).
  replace (@leb Rops t (now s)) with true by (symmetry; now apply Rleb_true).
  cbn [andb negb]. subst sv. cbn [s_interp solver_of].
  destruct (is_fixed m) eqn:Hf.
  - assert (K : interp_of (OT := Rops) m rhs t s = interp_default (OT := Rops) t s) by (destruct m; try discriminate; reflexivity).
    rewrite K. unfold interp_default. destruct (hermite_total t (cache s)) as (a & ->); [exact Ht|]. eauto.
  - pose proof (prev_first s W Hf) as Hp.
    destruct m as [| | |A B C Ew order P|A B C E5 E3 order D Af Cf]; try discriminate; cbn [interp_of].
    + rewrite interp_rk_cases. destruct (Reqb t (now s)) eqn:e1; [eauto|].
      destruct (Reqb t (prev_t s)) eqn:e2; [eauto|]. apply Reqb_false in e1, e2. cbv zeta.
      rewrite sdiv_R; [eauto|]. rewrite Hp in *. cbn in *. lra.
    + rewrite interp_dop_cases. destruct (Reqb t (now s)) eqn:e1; [eauto|].
      destruct (Reqb t (prev_t s)) eqn:e2; [eauto|]. apply Reqb_false in e1, e2. cbv zeta.
      assert (K : exists s1, (if Rltb t (iupd (interp s)) then (Ret tt, s) else @dop_update Rops dop_n_stages D Af Cf rhs s) = (Ret tt, s1)).
      { destruct (Rltb _ _); eauto. unfold dop_update, bind, lift.
        match goal with |- context [dop_extra ?a ?b ?c ?d ?e ?f ?g] => destruct (dop_extra a b c d e f g) eqn:ee end.
        - eauto.
        - exfalso. eapply dop_extra_total; [apply Hd; reflexivity | exact ee].
        - exfalso. eapply dop_extra_noloop; [apply Hd; reflexivity | exact ee]. }
      destruct K as (s1 & ->). rewrite sdiv_R; [eauto|]. rewrite Hp in *. cbn in *. lra.
Qed.

(** ** C20 at the ends of the window *)
Lemma last_of_dims {A} (P : A -> Prop) (l : list A) d : l <> [] -> Forall P l -> P (last l d) /\ P (hd d l).
Proof.
  intros Hl F. rewrite Forall_forall in F. split; apply F.
  - destruct (rev_case l) as [->|(x & l' & ->)]; [congruence|]. rewrite last_snoc. apply in_or_app. right. now left.
  - destruct l; [congruence|]. now left.
Qed.
Lemma wf_same_dim n s : wf m s -> dims n s -> same_dim n (cache s) /\ ys (cache s) <> [].
Proof.
  intros ((L1 & L2 & L3) & _) (D1 & D2). destruct (len_history_pos m) as (k & Hk). rewrite Hk in *.
  assert (N1 : ys (cache s) <> []) by (intros K; rewrite K in L2; discriminate).
  assert (N2 : fs (cache s) <> []) by (intros K; rewrite K in L3; discriminate).
  split; auto. unfold same_dim, buf_y0, buf_y, buf_f0, buf_f.
  pose proof (last_of_dims _ _ [] N1 D1) as (A1 & A2). pose proof (last_of_dims _ _ [] N2 D2) as (A3 & A4). auto.
Qed.
Lemma row_last {A} (l : list A) d : l <> [] -> nth (length l - 1) l d = last l d.
Proof.
  intros H. destruct (rev_case l) as [->|(x & l' & ->)]; [congruence|]. rewrite last_snoc, app_length. cbn.
  rewrite app_nth2 by lia. replace (length l' + 1 - 1 - length l')%nat with 0%nat by lia. reflexivity.
Qed.
Lemma row_prev {A} (l : list A) d : length l = 2%nat -> nth (length l - 2) l d = hd d l.
Proof. intros H. rewrite H. now destruct l. Qed.

Lemma C20_ends n s : reachable rhs m fuelc o tb s -> dims n s -> buf_t0 (cache s) < now s ->
  (exists a, interpolate sv (now s) s = (Ret a, s) /\ deref (cache s) a = state s) /\
  (exists a, interpolate sv (buf_t0 (cache s)) s = (Ret a, s) /\ deref (cache s) a = buf_y0 (cache s)).
Proof.
  intros W%(reachable_wf m fuelc o rhs tb) D Ht. unfold interpolate. fold (now s).
  assert (R1 : forall x : R, @leb Rops x x = true) by (intros x; apply Rleb_true; lra).
  assert (R2 : @leb Rops (buf_t0 (cache s)) (now s) = true) by (apply Rleb_true; lra).
  rewrite !R1, R2. cbn [andb negb]. subst sv. cbn [s_interp solver_of].
  destruct (wf_same_dim n s W D) as (SD & Ny).
  assert (E1 : @eqb Rops (now s) (now s) = true) by (now apply Reqb_true).
  assert (E2 : @eqb Rops (buf_t0 (cache s)) (buf_t0 (cache s)) = true) by (now apply Reqb_true).
  assert (E3 : @eqb Rops (buf_t0 (cache s)) (now s) = false) by (apply Reqb_false; intro K; rewrite K in Ht; lra).
  destruct (is_fixed m) eqn:Hf.
  - assert (K : forall t : R, interp_of (OT := Rops) m rhs t s = interp_default (OT := Rops) t s) by (intros t; destruct m; try discriminate; reflexivity).
    rewrite !K. unfold interp_default. split.
    + assert (Hne : now s <> buf_t0 (cache s)) by (intro Q; rewrite Q in Ht; lra).
      pose proof (hermite_eval (cache s) (now s) Hne Ht) as He. cbn zeta in He.
      rewrite He. eexists. split; [reflexivity|].
      assert (Hi : forall i, (i < n)%nat -> exists a, hermite (OT := Rops) (now s) (cache s) = Ret a /\ length (deref (cache s) a) = n /\ cmp i (deref (cache s) a) = cmp i (state s)).
      { intros i Hi. destruct (hermite_cmp (cache s) n (now s) i SD Hi Ht Hne) as (a & A1 & A2 & A3). exists a. split; auto. split; auto.
        cbn zeta in A3. rewrite A3. clear - Ht. unfold now, state in *. generalize dependent (buf_t (cache s)). intros t1.
        generalize (buf_t0 (cache s)). intros t0 Ht. change R in t0, t1. change (t0 < t1)%R in Ht.
        match goal with |- @eq _ ?a ?b => change (@eq R a b) end. field. lra. }
      assert (Hl : length (deref (cache s) (Own (vadd (vadd (buf_y0 (cache s)) (vscale ((now s - buf_t0 (cache s)) / (buf_t (cache s) - buf_t0 (cache s)) : @T Rops) (vsub (buf_y (cache s)) (buf_y0 (cache s)))))
         (vscale ((now s - buf_t0 (cache s)) / (buf_t (cache s) - buf_t0 (cache s)) * ((now s - buf_t0 (cache s)) / (buf_t (cache s) - buf_t0 (cache s)) - 1) : @T Rops)
         (vadd (vscale (1 - 2 * ((now s - buf_t0 (cache s)) / (buf_t (cache s) - buf_t0 (cache s))) : @T Rops) (vsub (buf_y (cache s)) (buf_y0 (cache s))))
         (vscale (buf_t (cache s) - buf_t0 (cache s) : @T Rops) (vadd (vscale ((now s - buf_t0 (cache s)) / (buf_t (cache s) - buf_t0 (cache s)) - 1 : @T Rops) (buf_f0 (cache s))) (vscale ((now s - buf_t0 (cache s)) / (buf_t (cache s) - buf_t0 (cache s)) : @T Rops) (buf_f (cache s)))))))))) = n).
      { cbn [deref]. destruct SD as (A & B & C & D'). assert (L1 : length (vsub (buf_y (cache s)) (buf_y0 (cache s))) = n) by now apply vsub_len. auto 10 with vlen. }
      apply (vec_ext n).
      * exact Hl.
      * apply SD.
      * intros i Hi'. destruct (Hi i Hi') as (a & A1 & A2 & A3). rewrite He in A1. injection A1 as <-. exact A3.
    + unfold hermite. rewrite E2. exists (CacheRow 0). split; auto. cbn. unfold buf_y0. now destruct (ys (cache s)).
  - pose proof (prev_first s W Hf) as Hp.
    assert (L : length (ys (cache s)) = 2%nat) by (destruct W as ((_ & L & _) & _); destruct m; try discriminate; exact L).
    destruct m as [| | |A B C Ew order P|A B C E5 E3' order D' Af Cf]; try discriminate; cbn [interp_of].
    + rewrite !interp_rk_cases. change (@eqb Rops) with Reqb in *. rewrite E1, E3, Hp, E2. split; eexists; (split; [reflexivity|]); cbn [deref].
      * now apply row_last.
      * now apply row_prev.
    + rewrite !interp_dop_cases. change (@eqb Rops) with Reqb in *. rewrite E1, E3, Hp, E2. split; eexists; (split; [reflexivity|]); cbn [deref].
      * now apply row_last.
      * now apply row_prev.
Qed.
(** hence every recorded row when the history has two *)
Lemma C20_two n s i : reachable rhs m fuelc o tb s -> dims n s -> buf_t0 (cache s) < now s ->
  len_history m = 2%nat -> (i < 2)%nat ->
  exists a, interpolate sv (nth i (ts (cache s)) 0) s = (Ret a, s) /\ deref (cache s) a = nth i (ys (cache s)) [].
Proof.
  intros H1 H2 H3 H4 H5. pose proof (C20_ends n s H1 H2 H3) as ((a & A1 & A2) & (b & B1 & B2)).
  apply (reachable_wf m fuelc o rhs tb) in H1. destruct H1 as ((L1 & L2 & _) & _). rewrite H4 in *.
  unfold now, state, buf_t, buf_y, buf_t0, buf_y0 in *.
  destruct (ts (cache s)) as [|t0 [|t1 [|]]]; try discriminate. destruct (ys (cache s)) as [|y0 [|y1 [|]]]; try discriminate.
  cbn [last hd] in *. destruct i as [|[|]]; cbn [nth]; try lia; eauto.
Qed.
(** the default interpolant: C19 on a reachable state *)
Lemma C19_reach n s i : reachable rhs m fuelc o tb s -> is_fixed m = true -> dims n s -> (i < n)%nat -> buf_t0 (cache s) < now s ->
  exists q0 q1 q2 q3,
    (forall t, buf_t0 (cache s) <= t <= now s ->
       exists a, interpolate sv t s = (Ret a, s) /\ cmp i (deref (cache s) a) = cubic q0 q1 q2 q3 t) /\
    cubic q0 q1 q2 q3 (buf_t0 (cache s)) = cmp i (buf_y0 (cache s)) /\ dcubic q1 q2 q3 (buf_t0 (cache s)) = cmp i (buf_f0 (cache s)) /\
    cubic q0 q1 q2 q3 (now s) = cmp i (state s) /\ dcubic q1 q2 q3 (now s) = cmp i (deriv s).
Proof.
  intros W%(reachable_wf m fuelc o rhs tb) Hf D Hi Ht. destruct (wf_same_dim n s W D) as (SD & Ny).
  destruct (C19_lemma (cache s) n i SD Hi Ht) as (q0 & q1 & q2 & q3 & A & B).
  { intros K. apply Ny. now apply length_zero_iff_nil. }
  exists q0, q1, q2, q3. split; auto. intros t Htt. destruct (A t) as (a & A1 & A2). exists a. split; auto.
  unfold interpolate. fold (now s).
  replace (@leb Rops (buf_t0 (cache s)) t) with true by (symmetry; now apply Rleb_true).
  replace (@leb Rops t (now s)) with true by (symmetry; now apply Rleb_true).
  cbn [andb negb]. subst sv. cbn [s_interp solver_of].
  assert (K : interp_of (OT := Rops) m rhs t s = interp_default (OT := Rops) t s) by (destruct m; try discriminate; reflexivity).
  rewrite K. unfold interp_default. now rewrite A1.
Qed.
(** ... and exactness for cubic solutions *)
Lemma C19_cubic n s i q0 q1 q2 q3 : reachable rhs m fuelc o tb s -> is_fixed m = true -> dims n s -> (i < n)%nat -> buf_t0 (cache s) < now s ->
  cmp i (buf_y0 (cache s)) = cubic q0 q1 q2 q3 (buf_t0 (cache s)) -> cmp i (buf_f0 (cache s)) = dcubic q1 q2 q3 (buf_t0 (cache s)) ->
  cmp i (state s) = cubic q0 q1 q2 q3 (now s) -> cmp i (deriv s) = dcubic q1 q2 q3 (now s) ->
  forall t, buf_t0 (cache s) <= t <= now s ->
    exists a, interpolate sv t s = (Ret a, s) /\ cmp i (deref (cache s) a) = cubic q0 q1 q2 q3 t.
Proof.
  intros W%(reachable_wf m fuelc o rhs tb) Hf D Hi Ht H1 H2 H3 H4 t Htt. destruct (wf_same_dim n s W D) as (SD & Ny).
  destruct (C19_exact (cache s) n i q0 q1 q2 q3 SD Hi Ht H1 H2 H3 H4) with (t := t) as (a & A1 & A2).
  { intros K. apply Ny. now apply length_zero_iff_nil. }
  exists a. split; auto.
  unfold interpolate. fold (now s).
  replace (@leb Rops (buf_t0 (cache s)) t) with true by (symmetry; now apply Rleb_true).
  replace (@leb Rops t (now s)) with true by (symmetry; now apply Rleb_true).
  cbn [andb negb]. subst sv. cbn [s_interp solver_of].
  assert (K : interp_of (OT := Rops) m rhs t s = interp_default (OT := Rops) t s) by (destruct m; try discriminate; reflexivity).
  rewrite K. unfold interp_default. now rewrite A1.
Qed.
End R.

(** ** C22: order of the recorded times *)
Section Ord.
Context {E : @Env Rops}.
Variable m : @meth Rops.
Variables (fuelc : nat) (o : @options Rops) (rhs : @rhs_t Rops) (tb : @ext Rops).
Let sv := solver_of m fuelc o rhs tb.
Open Scope R_scope.
Lemma repeat_sorted (x : R) n : @is_sorted Rops (repeat x n) = true.
Proof.
  assert (K : @leb Rops x x = true) by (apply Rleb_true; lra).
  induction n as [|[|n] IH]; auto.
  change (@leb Rops x x && @is_sorted Rops (repeat x (S n)) = true). now rewrite IH, K.
Qed.
Lemma built_order s0 : built rhs m s0 -> is_erk m \/ is_fixed m = false -> in_order s0.
Proof.
  intros B Hm. destruct (C22_start m fuelc o rhs tb s0 B Hm) as (t0 & y0 & f0 & H1 & _). split.
  - rewrite H1. apply repeat_sorted.
  - apply Rleb_true. lra.
Qed.
Lemma order_var s fuel cs : is_fixed m = false -> wf m s -> sane o -> 0 <= hstep s -> in_order s ->
  in_order (session sv fuel cs s) /\ 0 <= hstep (session sv fuel cs s).
Proof.
  intros Hf W Ho Hh O.
  enough (K : (fun x => wf m x /\ 0 <= hstep x /\ in_order x) (session sv fuel cs s)) by (cbv beta in K; tauto).
  apply (session_inv sv (fun x => wf m x /\ 0 <= hstep x /\ in_order x)); auto.
  - intros b x _ Hw (Wx & Hhx & Ox). pose proof (core_wf m fuelc o rhs x Wx) as W'. cbn [s_core sv solver_of].
    destruct (core_of m fuelc o rhs x) as [r x'] eqn:e. cbn [snd] in *. split; auto.
    destruct (len_history_pos m) as (k & Hk). pose proof Wx as (Wb & _). rewrite Hk in Wb.
    assert (K' : 0 <= hstep x' /\ now x <= now x' <= now x + hstep x).
    { pose proof e as e'. destruct m; try discriminate; cbn [core_of] in e';
      exact (core_fsal_R _ _ _ _ _ _ _ _ _ _ _ _ Ho (error_exponent_pos _) Wb e' Hhx). }
    split; [tauto|]. destruct r as [[]| |].
    + eapply (core_in_order m fuelc o rhs tb b x x'); auto. split; auto. apply Rleb_true. apply K'.
    + apply core_of_ok in e; [|now apply wf_stages]. destruct e as (_ & _ & _ & D). unfold in_order, now. rewrite D. exact Ox.
    + apply core_of_ok in e; [|now apply wf_stages]. destruct e as (_ & _ & _ & D). unfold in_order, now. rewrite D. exact Ox.
  - intros t x (Wx & Hhx & Ox). pose proof (interp_of_ok m rhs t x) as K. cbn [s_interp sv solver_of].
    destruct (interp_of m rhs t x) as [r x'] eqn:e. specialize (K _ _ eq_refl). destruct K as (A & B & C). cbn.
    unfold in_order, now, wf in *. rewrite A, B, C. auto.
Qed.
Lemma C22_order s0 fuel cs : built rhs m s0 -> in_order s0 -> 0 <= hstep s0 -> sane o ->
  is_sorted (ts (cache (session sv fuel cs s0))) = true.
Proof.
  intros B O Hh Ho. destruct (is_fixed m) eqn:Hf.
  - apply (in_order_session m fuelc o rhs tb s0 fuel cs Hf); auto.
    + now apply built_good.
    + apply Rleb_true. rewrite zero_R. exact Hh.
    + exists (now s0 - 1)%R. apply Rltb_true. lra.
  - apply order_var; auto. apply built_good in B. apply B.
Qed.
End Ord.
