(** Linear first integrals (C66): what run returns, and instances. *)
From Coq Require Import List ZArith QArith Bool Arith Lia Reals Lra.
From Verif Require Import Base Scalar Vec MBuffer MZeros MSteps MApi MDop853 MClasses Laws Spec SpecInst SpecRK SpecMS SpecDense SpecInv
  PStep PKeeps PClean PCore PHist PBound PVecR PRun PFwd PInterp PRK PDim PDense PMS PConv9 PInv1.
Import ListNotations.
Open Scope R_scope.

Section J.
Context {E : @Env Rops}.
Variables (n : nat) (w : list R) (c : R).
Variable rhs : @rhs_t Rops.
Hypothesis Ht : tangent n w c rhs.
Notation inV := (inV n w).
Notation inY := (inY n w c).
Notation level := (level n w c).
Notation meth := (@meth Rops).
Notation st := (@st Rops).

Lemma row_Y (m : meth) (s : st) i : wf m s -> level s -> (i < 2)%nat \/ (i < length (ys (cache s)))%nat -> inY (nth i (ys (cache s)) []).
Proof.
  intros ((_ & L2 & _) & _) (D1 & _) Hi. destruct (len_history_pos m) as (k & Hk). rewrite Hk in L2.
  rewrite Forall_forall in D1. apply D1. apply nth_In. destruct Hi; [rewrite L2; lia | auto].
Qed.
Lemma first_Y (m : meth) (s : st) : wf m s -> level s -> inY (buf_y0 (cache s)) /\ inV (buf_f0 (cache s)).
Proof.
  intros ((_ & L2 & L3) & _) (D1 & D2). destruct (len_history_pos m) as (k & Hk). rewrite Hk in *.
  unfold buf_y0, buf_f0. destruct (ys (cache s)); [discriminate|]. destruct (fs (cache s)); [discriminate|].
  cbn. inversion D1; inversion D2; auto.
Qed.

Lemma fixed_interp_Y (m : meth) (s s' : st) t a : is_fixed m = true -> wf m s -> level s ->
  interp_of (E := E) m rhs t s = (Ret a, s') -> inY (deref (cache s') a).
Proof.
  intros Hf W L H. destruct (first_Y m s W L) as (F1 & F2). destruct (level_state n w c m s W L) as (S1 & S2).
  assert (H' : interp_default (E := E) t s = (Ret a, s')) by (destruct m; try discriminate; exact H). clear H.
  unfold interp_default, hermite in H'. destruct (eqb t _).
  - injection H' as <- <-. cbn [deref]. apply (row_Y m s 0 W L). auto.
  - destruct (sdiv _ _) as [X| |]; cbn [obind] in H'; try discriminate. injection H' as <- <-. cbn [deref].
    fold (state s) in *. assert (Vd : inV (@vsub Rops (state s) (buf_y0 (cache s)))) by now apply (Y_sub n w c).
    apply Y_add; [apply Y_add; auto; now apply V_scale|]. apply V_scale. apply V_add; [now apply V_scale|].
    apply V_scale. apply V_add; now apply V_scale.
Qed.

(** ** variable step classes *)
Section Fs.
Variables (A : list (list R)) (B C Ew : list R) (order : Z) (P : list (list R)).
Let m : meth := @Fsal Rops A B C Ew order P.
Hypothesis Hsh : length C = length A /\ A <> [].
Lemma prev_Y (s : st) : wf m s -> level s -> inY (prev_y s) /\ inV (prev_f s).
Proof.
  intros ((_ & L2 & L3) & _) (D1 & D2). cbn [len_history m] in *. rewrite Forall_forall in D1, D2.
  unfold prev_y, buf_yp, prev_f. rewrite L2, L3. split; [apply D1 | apply D2]; apply nth_In; [rewrite L2 | rewrite L3]; cbn; lia.
Qed.
Lemma fsal_interp_Y (s s' : st) t a : tidy A B C Ew order P rhs n s -> level s -> prev_t s <= t <= now s ->
  interp_rk (OT := Rops) (E := E) P t s = (Ret a, s') -> inY (deref (cache s') a).
Proof.
  intros ((W & D & Hh & Hu & Hp) & HK & HQ) L Hr H. rewrite interp_rk_cases in H.
  pose proof W as ((_ & L2 & _) & _). cbn [len_history] in L2.
  destruct (Reqb t (now s)) eqn:e1.
  { injection H as <- <-. cbn [deref]. apply (row_Y m); auto. rewrite L2. cbn. lia. }
  destruct (Reqb t (prev_t s)) eqn:e2.
  { injection H as <- <-. cbn [deref]. apply (row_Y m); auto. rewrite L2. cbn. lia. }
  apply Reqb_false in e1, e2. destruct (HK ltac:(lra)) as (h & K & (HL & _) & HS).
  destruct (prev_Y s W L) as (Y1 & V1). destruct (level_state n w c m s W L) as (S1 & S2).
  assert (FK : Forall inV (stages s)).
  { rewrite HS. apply Forall_app. split; [|now constructor]. eapply (rk_step_V n w c rhs Ht); [exact Y1 | exact V1 | exact HL]. }
  assert (Fc : Forall inV (rk_cols P s)).
  { apply Forall_forall. intros v Hv. unfold rk_cols in Hv. apply in_map_iff in Hv as (j & <- & _).
    unfold ysize. fold (state s). assert (E0 : @length (@T Rops) (state s) = n) by exact (proj1 S1). rewrite E0. now apply V_lincomb. }
  cbn zeta in H.
  assert (HI : iQ (interp (if Rltb t (iupd (interp s)) then s else
     @set_interp Rops (@mkitp Rops (rk_cols P s) (iF (interp s)) (now s)) s)) = rk_cols P s).
  { destruct (Rltb t _) eqn:e; auto. apply Rltb_true in e. destruct HQ as [HQ|HQ]; auto. lra. }
  rewrite HI in H. destruct (sdiv _ _) as [x| |]; try discriminate. injection H as <- _. cbn [deref].
  apply Y_add'; auto. apply V_scale.
  assert (E0 : @length (@T Rops) (prev_y s) = n) by exact (proj1 Y1). assert (E0' : @length R (prev_y s) = n) by exact (proj1 Y1). rewrite ?E0, ?E0'. now apply V_lincomb.
Qed.
End Fs.

Section Dp.
Variables (A : list (list R)) (B C E5 E3 : list R) (order : Z) (D Af : list (list R)) (Cf : list R).
Let m : meth := @Dop Rops A B C E5 E3 order D Af Cf.
Hypothesis HA : length A = dop_n_stages.
Hypothesis HCf : length Cf = length Af.
Lemma dprev_Y (s : st) : wf m s -> level s -> inY (prev_y s) /\ inV (prev_f s).
Proof.
  intros ((_ & L2 & L3) & _) (D1 & D2). cbn [len_history m] in *. rewrite Forall_forall in D1, D2.
  unfold prev_y, buf_yp, prev_f. rewrite L2, L3. split; [apply D1 | apply D2]; apply nth_In; [rewrite L2 | rewrite L3]; cbn; lia.
Qed.
Lemma V_horner x l : forall i v, inV v -> Forall inV l -> inV (@dop_horner Rops x i l v).
Proof.
  induction l as [|f l IH]; intros i v Hv Hl; cbn [dop_horner]; auto.
  inversion Hl; subst. apply IH; auto.
  assert (Vs : forall z u, inV u -> inV (map (fun q => @mul Rops q z) u)).
  { intros z u Hu. replace (map (fun q : @T Rops => @mul Rops q z) u) with (@vscale Rops z u); [now apply V_scale|].
    unfold vscale. apply map_ext. intros q. apply Rmult_comm. }
  assert (inV (@vadd Rops v f)) by now apply V_add.
  destruct (Nat.even i); now apply Vs.
Qed.
Lemma dop_F_V (s : st) K : wf m s -> level s -> Forall inV K -> K <> [] -> Forall inV (dop_F D s K).
Proof.
  intros W L FK NK. destruct (dprev_Y s W L) as (Y1 & V1). destruct (level_state n w c m s W L) as (S1 & S2).
  assert (Vh : inV (hd [] K)) by (destruct K; [congruence|]; now inversion FK).
  assert (Vd : inV (@vsub Rops (state s) (prev_y s))) by now apply (Y_sub n w c).
  unfold dop_F. cbn zeta. constructor; [exact Vd|]. constructor; [apply V_sub; auto; now apply V_scale|].
  constructor; [apply V_sub; apply V_scale; auto; now apply V_add|].
  apply Forall_forall. intros v Hv. apply in_map_iff in Hv as (row & <- & _). apply V_scale.
  assert (E0 : @length (@T Rops) (prev_y s) = n) by exact (proj1 Y1). assert (E0' : @length R (prev_y s) = n) by exact (proj1 Y1). rewrite ?E0, ?E0'. now apply V_lincomb.
Qed.
Lemma dop_interp_Y (s s' : st) t a : dtidy A B C E5 E3 order D Af Cf rhs n s -> level s -> prev_t s <= t <= now s ->
  interp_dop (OT := Rops) (E := E) dop_n_stages D Af Cf rhs t s = (Ret a, s') -> inY (deref (cache s') a).
Proof.
  intros ((W & Dm & Hh & Hu & Hp) & HK & HQ) L Hr H.
  pose proof H as H0. change (interp_of (E := E) m rhs t s = (Ret a, s')) in H0. apply interp_of_ok in H0 as (Hc & _).
  rewrite interp_dop_cases in H.
  pose proof W as ((_ & L2 & _) & _). cbn [len_history] in L2.
  destruct (Reqb t (now s)) eqn:e1.
  { injection H as <- <-. cbn [deref]. apply (row_Y m); auto. rewrite L2. cbn. lia. }
  destruct (Reqb t (prev_t s)) eqn:e2.
  { injection H as <- <-. cbn [deref]. apply (row_Y m); auto. rewrite L2. cbn. lia. }
  apply Reqb_false in e1, e2. destruct (HK ltac:(lra)) as (h & K & (HL & HN) & HS).
  destruct (dprev_Y s W L) as (Y1 & V1). destruct (level_state n w c m s W L) as (S1 & S2).
  assert (FK : Forall inV (stages s)).
  { rewrite HS. apply Forall_app. split; [|now constructor]. eapply (rk_step_V n w c rhs Ht); [exact Y1 | exact V1 | exact HL]. }
  assert (ST : forall s1, (if Rltb t (iupd (interp s)) then (Ret tt, s) else @dop_update Rops dop_n_stages D Af Cf rhs s) = (Ret tt, s1) ->
    exists K', all_stages Af Cf rhs s K' /\ iF (interp s1) = dop_F D s K').
  { intros s1 H1. destruct (Rltb t _) eqn:e.
    - injection H1 as <-. apply Rltb_true in e. destruct HQ as [HQ|HQ]; [lra | exact HQ].
    - destruct (dop_update_R A B C E5 E3 order D Af Cf rhs HA HCf s W) as (U1 & U2 & _ & _). destruct (U2 s1 H1) as (K' & HK'). exists K'. split; auto.
      rewrite (U1 K' HK') in H1. injection H1 as <-. reflexivity. }
  destruct (if Rltb t _ then _ else _) as [[[]| |] s1]; try discriminate.
  destruct (ST s1 eq_refl) as (K' & HK' & HF).
  destruct (sdiv _ _) as [x| |]; try discriminate. injection H as <- <-. cbn [deref].
  assert (FK' : Forall inV K').
  { eapply (stages_V n w c rhs Ht); [exact Y1 | exact HK' | exact FK]. }
  assert (NK : K' <> []).
  { intros ->. apply stages_len in HK' as (Lk & _). rewrite HS, app_length in Lk. cbn in Lk. lia. }
  apply Y_add'; auto. rewrite HF. apply V_horner.
  - assert (E0 : @length (@T Rops) (prev_y s) = n) by exact (proj1 Y1). assert (E0' : @length R (prev_y s) = n) by exact (proj1 Y1). rewrite ?E0, ?E0'. apply V_zero.
  - apply Forall_forall. intros v Hv. apply in_rev in Hv. pose proof (dop_F_V s K' W L FK' NK) as FF.
    rewrite Forall_forall in FF. now apply FF.
Qed.
End Dp.

(** ** all classes *)
Definition ready (m : meth) (s : st) : Prop :=
  level s /\
  match m with
  | Fsal A B C Ew order P => tidy A B C Ew order P rhs n s
  | Dop A B C E5 E3 order D Af Cf => dtidy A B C E5 E3 order D Af Cf rhs n s
  | _ => wf m s
  end.
Lemma ready_wf m s : ready m s -> wf m s.
Proof. intros (_ & H). destruct m; auto; destruct H as ((H & _) & _); exact H. Qed.

Variables (m : meth) (fuelc : nat) (o : @options Rops) (tb : @ext Rops).
Hypothesis Hm : explicit_class m.
Hypothesis Ho : is_fixed m = true \/ sane o.
Notation sv := (solver_of (E := E) m fuelc o rhs tb).

Lemma ready_core s s' : ready m s -> s_core sv s = (Ret tt, s') -> ready m s'.
Proof.
  intros R H. pose proof (ready_wf m s R) as W. destruct R as (L & T). cbn [s_core solver_of] in H.
  split; [eapply (level_core n w c rhs Ht); eauto|].
  destruct m as [A B|A B Bn|A B C|A B C Ew order P|A B C E5 E3 order DD Af Cf]; cbn [explicit_class is_fixed] in *;
    try (pose proof (core_wf _ fuelc o rhs s W) as W'; rewrite H in W'; exact W').
  - destruct Ho as [Ho'|Ho']; [discriminate|]. eapply (tidy_core (E := E)); [exact Hm | apply Ht | exact Ho' | apply T | exact H].
  - destruct Ho as [Ho'|Ho']; [discriminate|]. destruct Hm as (M1 & M2 & M3 & M4).
    eapply (dtidy_core (E := E)); eauto; [apply Ht | apply T].
Qed.
Lemma ready_interp t s : ready m s -> ready m (snd (s_interp sv t s)).
Proof.
  intros (L & T). cbn [s_interp solver_of]. destruct (interp_of (E := E) m rhs t s) as [r s'] eqn:ei. cbn [snd].
  pose proof ei as Hi. apply interp_of_ok in Hi as (Hc & Hh & Hst).
  split; [unfold PInv1.level; rewrite Hc; exact L|].
  destruct m as [A B|A B Bn|A B C|A B C Ew order P|A B C E5 E3 order DD Af Cf]; cbn [explicit_class is_fixed interp_of] in *.
  1-3: destruct T as (T1 & T2); split; [rewrite Hc | rewrite Hst]; auto.
  - pose proof (tidy_interp A B C Ew order P rhs n t s T) as K. rewrite ei in K. exact K.
  - destruct Hm as (M1 & M2 & M3 & M4).
    pose proof (dtidy_interp A B C E5 E3 order DD Af Cf rhs n M3 M4 t s T) as K. rewrite ei in K. exact K.
Qed.
Lemma ready_value t s a s' : ready m s -> (is_fixed m = true \/ prev_t s <= t <= now s) -> s_interp sv t s = (Ret a, s') -> inY (deref (cache s') a).
Proof.
  intros R Hr H. pose proof (ready_wf m s R) as W. destruct R as (L & T). cbn [s_interp solver_of] in H.
  destruct m as [A B|A B Bn|A B C|A B C Ew order P|A B C E5 E3 order DD Af Cf]; cbn [explicit_class is_fixed] in *.
  - eapply (fixed_interp_Y (ExplMS A B)); eauto.
  - destruct Hm.
  - eapply (fixed_interp_Y (Erk A B C)); eauto.
  - destruct Hr as [Hr|Hr]; [discriminate|]. eapply (fsal_interp_Y A B C Ew order P); eauto.
  - destruct Hr as [Hr|Hr]; [discriminate|]. destruct Hm as (M1 & M2 & M3 & M4).
    eapply (dop_interp_Y A B C E5 E3 order DD Af Cf); eauto.
Qed.
Lemma ready_chain b l : forall s s', ready m s -> chain sv b s l s' -> ready m s'.
Proof.
  induction l as [|x l IH]; intros s s' R Ch; inversion Ch as [|? x' ? ? (_ & Cm) Ch']; subst; auto.
  eapply IH; [|exact Ch']. eapply ready_core; eauto.
Qed.
Lemma var_prev s s' : is_fixed m = false -> ready m s -> s_core sv s = (Ret tt, s') -> prev_t s' = now s.
Proof.
  intros Hf R H. pose proof (ready_wf m s R) as (Wb & Wk). cbn [s_core solver_of] in H.
  destruct m as [A B|A B Bn|A B C|A B C Ew order P|A B C E5 E3 order DD Af Cf]; try discriminate; cbn [core_of len_history n_stages_of explicit_class] in *.
  - rewrite Nat.add_1_r in Wk. destruct (core_last_step _ _ _ _ _ _ _ _ _ _ _ Wb Wk (proj1 Hm) (proj2 Hm) H) as (h & K & _ & _ & _ & Q). exact Q.
  - rewrite Nat.add_1_r in Wk. destruct (core_last_step _ _ _ _ _ _ _ _ _ _ _ Wb Wk (proj1 Hm) (proj1 (proj2 Hm)) H) as (h & K & _ & _ & _ & Q). exact Q.
Qed.
Lemma chain_prev b l ti : is_fixed m = false -> forall s s', ready m s -> chain sv b s l s' -> l <> [] ->
  Forall (fun x => ltb (now x) ti = true) (removelast (s :: l)) -> prev_t s' < ti.
Proof.
  intros Hf. induction l as [|x l IH]; intros s s' R Ch Hl F; [congruence|].
  inversion Ch as [|? x' ? ? (_ & Cm) Ch']; subst.
  destruct l as [|z l].
  - inversion Ch'; subst. rewrite (var_prev s s' Hf R Cm). cbn in F. inversion F as [|? ? Q _]; subst. now apply Rltb_true in Q.
  - eapply IH; [eapply ready_core; eauto | exact Ch' | discriminate|].
    change (removelast (s :: x :: z :: l)) with (s :: removelast (x :: z :: l)) in F. now inversion F.
Qed.

Lemma sampled_Y s ts vs s' : sampled sv s ts vs s' -> ready m s -> is_sorted ts = true ->
  (is_fixed m = true \/ Forall (fun t => prev_t s <= t) ts) -> Forall inY vs.
Proof.
  induction 1 as [s|s ti l s1 a s2 ts vs s3 U Hn Hi S IH]; intros R Hs Hr; [constructor|].
  destruct U as (Ch & Fl). pose proof (ready_chain _ _ _ _ R Ch) as R1.
  pose proof (ready_interp ti s1 R1) as R2. rewrite Hi in R2. cbn [snd] in R2.
  destruct (sorted_cons _ _ Hs) as (Hs' & Hle).
  assert (Hp : is_fixed m = true \/ prev_t s1 <= ti).
  { destruct (Bool.bool_dec (is_fixed m) true) as [ef|ef]; auto. apply not_true_is_false in ef. right. destruct Hr as [Hr|Hr]; [congruence|].
    destruct l as [|x l]; [inversion Ch; subst; now inversion Hr|].
    left. eapply chain_prev; [exact ef | exact R | exact Ch | discriminate | exact Fl]. }
  assert (Hc : cache s2 = cache s1).
  { change (interp_of (E := E) m rhs ti s1 = (Ret a, s2)) in Hi. apply interp_of_ok in Hi as (Q & _). exact Q. }
  constructor.
  - eapply ready_value; [exact R1 | | exact Hi]. destruct Hp as [Hp|Hp]; auto. right. split; auto.
    change (Rltb (now s1) ti = false) in Hn. apply Rltb_false in Hn. lra.
  - apply IH; auto. destruct Hp as [Hp|Hp]; auto. right. unfold prev_t in *. rewrite Hc.
    eapply Forall_impl; [|exact Hle]. intros t Q. apply Rleb_true in Q. lra.
Qed.

Lemma run_Y s fuel t rows s' : ready m s -> is_sorted t = true -> run sv fuel t s = (Ret rows, s') -> Forall (fun r => inY (snd r)) rows.
Proof.
  intros R Hs H. pose proof H as H0. destruct (C13_lemma (E := E) m fuelc o rhs tb fuel t s rows s' Hs H) as (s1 & Hf & S & _).
  destruct t as [|ta tr]; [discriminate|]. rewrite (run_sorted_eq (E := E) m fuelc o rhs tb) in H by auto.
  destruct (ltb ta _) eqn:e0; [discriminate|]. clear H. apply Rltb_false in e0.
  assert (F : Forall inY (map snd rows)).
  { eapply (sampled_Y _ _ _ _ S R).
    - rewrite Hf. clear -Hs. revert Hs. generalize (ta :: tr). intros l Hs. revert l Hs. induction (length rows) as [|k IH]; intros [|x [|y l]] Hs; auto.
      + destruct k; auto.
      + destruct k; auto. change (is_sorted (x :: firstn (S k) (y :: l)) = true).
        specialize (IH (y :: l)). change (leb x y && is_sorted (y :: l) = true) in Hs. apply andb_true_iff in Hs as (Hs1 & Hs2).
        specialize (IH Hs2). change (leb x y && is_sorted (firstn (S k) (y :: l)) = true). now rewrite Hs1, IH.
    - destruct (Bool.bool_dec (is_fixed m) true) as [ef|ef]; auto. apply not_true_is_false in ef. right. rewrite Hf.
      assert (Hpt : prev_t s = buf_t0 (cache s)).
      { pose proof (ready_wf m s R) as ((L1 & _) & _). unfold prev_t, buf_tp, buf_t0. assert (Lh : len_history m = 2%nat) by (clear -ef; destruct m; try discriminate; reflexivity). rewrite Lh in L1. rewrite L1; cbn; now destruct (ts (cache s)). }
      rewrite Hpt. destruct (sorted_cons _ _ Hs) as (_ & Hle).
      assert (FA : Forall (fun t => buf_t0 (cache s) <= t) (ta :: tr)).
      { constructor; [lra|]. eapply Forall_impl; [|exact Hle]. intros x Q. apply Rleb_true in Q. lra. }
      apply Forall_forall. intros x Hx. rewrite Forall_forall in FA. apply FA.
      rewrite <- (firstn_skipn (length rows) (ta :: tr)). apply in_or_app. auto. }
  clear -F. induction rows as [|r rows IH]; [constructor|]. cbn in F. inversion F; subst. constructor; auto.
Qed.
End J.
