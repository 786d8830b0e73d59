(** Adaptive classes that are not FSAL (C82). *)
From Coq Require Import List ZArith QArith Bool Arith Lia Reals Lra.
From Verif Require Import Base Scalar Vec MBuffer MZeros MSteps MApi MDop853 MClasses MAdaptive Laws Spec SpecInst SpecRK SpecDense SpecMS SpecCtl SpecAd
  PStep PKeeps PClean PCore PHist PBound PVecR PRun PFwd PInterp PRK PDim PDense SpecZeros PZeros PZeros2 PMS PMS2 PMS3 PCtl.
Import ListNotations.
Open Scope R_scope.

Section Any.
Context {OT : Ops} {E : Env}.
Variables (fuelc : nat) (A : list (list T)) (B C B2 : list T) (order : Z) (o : options) (rhs : rhs_t) (tb : ext).
Notation sv := (adaptive_solver fuelc A B C B2 order o rhs tb).

Lemma ad_core s : s_core sv s = (Raise TypeError, s).
Proof. reflexivity. Qed.
Lemma ad_step b s : (would_pass b s /\ step_ sv b s = (Ret false, s)) \/ (~ would_pass b s /\ step_ sv b s = (Raise TypeError, s)).
Proof.
  unfold would_pass, step_. change (buf_t (cache s)) with (now s). destruct (gt_ext _ _); [left|right]; split; auto; discriminate.
Qed.
Lemma ad_steps fuel b s : exists r, steps_ sv fuel b s = (r, s) /\ (forall x, r = Ret x -> x = []).
Proof.
  destruct fuel as [|fuel]; cbn [steps_]; [eexists; split; [reflexivity|discriminate]|].
  unfold bind. destruct (ad_step b s) as [(_ & ->)|(_ & ->)]; eexists; (split; [reflexivity|]); [now intros x [= <-]|discriminate].
Qed.
Lemma ad_nsteps n b s : exists r, nsteps_ sv n b s = (r, s) /\ (forall x, r = Ret x -> fst x = []).
Proof.
  destruct n as [|n]; cbn [nsteps_]; [eexists; split; [reflexivity|now intros x [= <-]]|].
  unfold bind. destruct (ad_step b s) as [(_ & ->)|(_ & ->)]; eexists; (split; [reflexivity|]); [now intros x [= <-]|discriminate].
Qed.
Lemma ad_skip fuel b s : exists r, skip_ sv fuel b s = (r, s).
Proof.
  destruct fuel as [|fuel]; cbn [skip_]; [eexists; reflexivity|].
  unfold bind. destruct (ad_step b s) as [(_ & ->)|(_ & ->)]; eexists; reflexivity.
Qed.
Lemma ad_nskip n b s : exists r, nskip_ sv n b s = (r, s).
Proof.
  destruct n as [|n]; cbn [nskip_]; [eexists; reflexivity|].
  unfold bind. destruct (ad_step b s) as [(_ & ->)|(_ & ->)]; eexists; reflexivity.
Qed.

Lemma C82_never_lemma s :
  (~ would_pass tb s -> forall fuel, step sv fuel None None s = (Raise TypeError, s)) /\
  (forall fuel n u, snd (step sv fuel n u s) = s /\ snd (skip sv fuel n u s) = s /\
     forall r, fst (step sv fuel n u s) = Ret r -> r = RNone \/ r = RMany []).
Proof.
  split.
  - intros Hw fuel. unfold step, bind. destruct (ad_step tb s) as [(W & _)|(_ & H)]; [contradiction|]. cbn [s_bound adaptive_solver]. now rewrite H.
  - intros fuel n u. split; [|split].
    + unfold step. destruct u as [u|].
      * destruct (ext_lt u _); [reflexivity|]. destruct n as [k|]; unfold bind, check_time; cbn [s_bound adaptive_solver]; destruct (ext_gt u tb); cbn [raise ret snd]; try reflexivity.
        -- destruct (k <? 0)%Z; [reflexivity|]. destruct (ad_nsteps (Z.to_nat k) u s) as (r & -> & _). destruct r; reflexivity.
        -- destruct (ad_steps fuel u s) as (r & -> & _). destruct r; reflexivity.
      * destruct n as [k|].
        -- destruct (k <? 0)%Z; [reflexivity|]. unfold bind. destruct (ad_nsteps (Z.to_nat k) (s_bound sv) s) as (r & -> & _). destruct r as [[? []]| |]; reflexivity.
        -- unfold bind. destruct (ad_step (s_bound sv) s) as [(_ & ->)|(_ & ->)]; reflexivity.
    + unfold skip. destruct u as [u|].
      * destruct (ext_lt u _); [reflexivity|]. destruct n as [k|]; unfold bind, check_time; cbn [s_bound adaptive_solver]; destruct (ext_gt u tb); cbn [raise ret snd]; try reflexivity.
        -- destruct (ad_nskip (Z.to_nat k) u s) as (r & ->). destruct r; reflexivity.
        -- destruct (ad_skip fuel u s) as (r & ->). reflexivity.
      * destruct n as [k|]; unfold bind.
        -- destruct (ad_nskip (Z.to_nat k) (s_bound sv) s) as (r & ->). destruct r as [[]| |]; reflexivity.
        -- destruct (ad_nskip 1 (s_bound sv) s) as (r & ->). destruct r; reflexivity.
    + intros r. unfold step. destruct u as [u|].
      * destruct (ext_lt u _); [intros [= <-]; auto|]. destruct n as [k|]; unfold bind, check_time; cbn [s_bound adaptive_solver]; destruct (ext_gt u tb); cbn [raise ret fst]; try discriminate.
        -- destruct (k <? 0)%Z; [discriminate|]. destruct (ad_nsteps (Z.to_nat k) u s) as (x & -> & Hx). destruct x as [x| |]; try discriminate. cbn. rewrite (Hx x eq_refl). intros [= <-]; auto.
        -- destruct (ad_steps fuel u s) as (x & -> & Hx). destruct x as [x| |]; try discriminate. cbn. rewrite (Hx x eq_refl). intros [= <-]; auto.
      * destruct n as [k|].
        -- destruct (k <? 0)%Z; [discriminate|]. unfold bind. destruct (ad_nsteps (Z.to_nat k) (s_bound sv) s) as (x & -> & Hx). destruct x as [x| |]; try discriminate. destruct (snd x); [discriminate|].
           cbn. rewrite (Hx x eq_refl). intros [= <-]; auto.
        -- unfold bind. destruct (ad_step (s_bound sv) s) as [(_ & ->)|(_ & ->)]; [intros [= <-]; auto|discriminate].
Qed.

(** one trial *)
Lemma erk_fixed_iff s t' y' s' : length (stages s) = length A -> length C = length A -> A <> [] ->
  erk_fixed_step A B C rhs s = (Ret (t', y'), s') <->
  exists K, rk_step rhs A B C (now s) (state s) (deriv s) (hstep s) K y' /\ t' = add (now s) (hstep s) /\ s' = set_stages K s.
Proof.
  intros Hl HC HA. destruct A as [|a A']; [congruence|]. destruct C as [|c C']; [discriminate|].
  cbn [length] in *. destruct (stages s) as [|g G] eqn:eg; [discriminate|]. cbn [length] in Hl.
  unfold erk_fixed_step, bind. cbn [skipn]. unfold set_K. rewrite eg. cbn [list_set].
  fold (now s) (state s) (deriv s).
  pose proof (erk_stages_iff rhs (now s) (state s) (hstep s) A' C' [deriv s] G (set_stages (deriv s :: G) s)) as I.
  cbn [length] in I.
  assert (I' : forall s1, _) by (intros s1; exact (I s1 eq_refl ltac:(lia) ltac:(lia))). clear I.
  unfold rk_step. cbn [skipn].
  destruct (erk_stages _ _ _ _ _ _ _ _) as [[[]| |] s1] eqn:es.
  - destruct (proj1 (I' s1) eq_refl) as (K & H1 & H2).
    assert (HK : skipn (length A') G = []) by (apply skipn_all2; lia).
    rewrite HK, app_nil_r in H2. subst s1. cbn.
    split.
    + intros H. injection H as <- <- <-. exists K. auto.
    + intros (K2 & (Q1 & Q2) & -> & ->).
      pose proof (stages_det _ _ _ _ _ _ _ _ H1 _ Q1) as <-. now subst y'.
  - split; [discriminate|]. intros (K2 & (Q1 & Q2) & _).
    destruct (I' (set_stages (K2 ++ skipn (length A') G) (set_stages (deriv s :: G) s))) as (_ & I).
    discriminate I. eexists. split; eauto.
  - split; [discriminate|]. intros (K2 & (Q1 & Q2) & _).
    destruct (I' (set_stages (K2 ++ skipn (length A') G) (set_stages (deriv s :: G) s))) as (_ & I).
    discriminate I. eexists. split; eauto.
Qed.
End Any.

Section Real.
Context {E : @Env Rops}.
Lemma dot_sub : forall (b b2 k : list R), length b = length b2 -> dot (@vsub Rops b b2) k = dot b k - dot b2 k.
Proof.
  induction b as [|x b IH]; intros [|x2 b2] k H; try discriminate; [destruct k; cbn; lra|].
  destruct k as [|z k]; [cbn; lra|]. injection H as H. specialize (IH b2 k H). cbn in *. change (@sub Rops) with Rminus. lra.
Qed.
Lemma dot_scale h : forall (b k : list R), dot (map (Rmult h) b) k = h * dot b k.
Proof. induction b as [|x b IH]; intros [|z k]; cbn; try lra. rewrite IH. ring. Qed.

Section Body.
Variables (A : list (list (@T Rops))) (B C B2 : list (@T Rops)) (o : @options Rops) (order : Z) (rhs : @rhs_t Rops) (n : nat).
Hypothesis Hord : (0 <= order)%Z.
Hypothesis HC : length C = length A.
Hypothesis HA : A <> [].
Hypothesis HB : length B = length B2.
Hypothesis Hk : keeps_dim (OT := Rops) n rhs.
Notation Ew := (@embedded_weights Rops B B2).

Lemma ad_error y y1 h K : length y = n -> Forall (fun k => length k = n) K ->
  scaled_rms o y y1 (weighted Ew h K) = scaled_rms o y y1 (fun i => cmp i (@rk_combine Rops y h B K) - cmp i (@rk_combine Rops y h B2 K)).
Proof.
  intros Hy HK. apply scaled_ext. intros i Hi. rewrite Hy in Hi. unfold weighted, rk_combine, embedded_weights.
  change (length (A := @T Rops) y) with (length (A := R) y). rewrite Hy. rewrite !(vadd_cmp n) by (auto; now apply lincomb_len). rewrite !(lincomb_cmp n) by auto.
  change (@mul Rops) with Rmult. rewrite !dot_scale, dot_sub by auto. ring.
Qed.

Lemma loop_trials fuel : forall s s' : @st Rops, length (stages s) = length A -> length (state s) = n -> length (deriv s) = n ->
  @adaptive_loop Rops E fuel A B C Ew o (error_exponent order) rhs s = (Ret tt, s') ->
  exists l y' f', trials rhs A B C B2 o order (now s) (state s) (deriv s) (hstep s) l y' f' (hstep s') /\
    (length l <= fuel)%nat /\ cache s' = push (cache s) (now s + last_h l) y' f'.
Proof.
  induction fuel as [|fuel IH]; intros s s' Hl Hy Hf H; cbn [adaptive_loop] in H; [discriminate|].
  unfold bind in H. destruct (erk_fixed_step A B C rhs s) as [[[t y]| |] s1] eqn:e1; try discriminate.
  apply erk_fixed_iff in e1 as (K & H1 & -> & ->); auto.
  destruct (rk_step_dim n rhs Hk _ _ _ _ _ _ _ _ _ Hy Hf H1) as (Dy & HK).
  assert (LK : length K = length A).
  { destruct H1 as (H1 & _). apply stages_len in H1 as (-> & _). destruct A; [congruence|]. cbn. lia. }
  unfold get, lift in H. destruct (norm_fsal Ew o y (set_stages K s)) as [en| |] eqn:en1; try discriminate.
  assert (Er : en = scaled_rms o (state s) y (fun i => cmp i (@rk_combine Rops (state s) (hstep s) B K) - cmp i (@rk_combine Rops (state s) (hstep s) B2 K))).
  { rewrite <- ad_error by auto. exact (proj1 (computes_fsal Ew o n y (set_stages K s) Dy Hy HK) en en1). }
  destruct (step_update_eq en o order (set_stages K s) Hord) as (b & Eu & Hb). rewrite Eu in H. destruct b.
  - destruct (rhs _ y) as [f| |] eqn:ef; try discriminate. unfold push_st in H. injection H as <-.
    exists [(hstep s, en)], y, f. split; [|split; [cbn; lia|reflexivity]].
    apply try_accept with (K := K); auto. now apply Hb.
  - apply IH in H; auto.
    destruct H as (l & y' & f' & Q1 & Q2 & Q3). exists ((hstep s, en) :: l), y', f'. split; [|split; [cbn; lia|]].
    + apply try_reject with (K := K) (y1 := y); auto. intros X. apply Hb in X. discriminate.
    + rewrite Q3. cbn [cache set_h set_stages]. unfold last_h. destruct l as [|q l]; [inversion Q1|]. reflexivity.
Qed.
Lemma trials_loop l : forall (s : @st Rops) y' f' h' fuel, length (stages s) = length A -> length (state s) = n -> length (deriv s) = n ->
  trials rhs A B C B2 o order (now s) (state s) (deriv s) (hstep s) l y' f' h' -> (length l <= fuel)%nat ->
  exists s', @adaptive_loop Rops E fuel A B C Ew o (error_exponent order) rhs s = (Ret tt, s') /\ hstep s' = h' /\
    cache s' = push (cache s) (now s + last_h l) y' f'.
Proof.
  induction l as [|[h e] l IH]; intros s y' f' h' fuel Hl Hy Hf H Hfu; [inversion H|].
  destruct fuel as [|fuel]; [cbn in Hfu; lia|]. cbn [adaptive_loop].
  assert (X : exists K y1, @rk_step Rops rhs A B C (now s) (state s) (deriv s) (hstep s) K y1 /\
     e = scaled_rms o (state s) y1 (fun i => cmp i (@rk_combine Rops (state s) (hstep s) B K) - cmp i (@rk_combine Rops (state s) (hstep s) B2 K)) /\
     ((accepted e /\ l = [] /\ y' = y1 /\ rhs (now s + hstep s) y1 = Ret f' /\ h' = hstep s * factor o order e) \/
      (~ accepted e /\ trials rhs A B C B2 o order (now s) (state s) (deriv s) (hstep s * factor o order e) l y' f' h')) /\ h = hstep s).
  { inversion H; subst; exists K.
    - exists y'. repeat (split; [assumption || reflexivity|]). split; [|reflexivity]. left. auto.
    - exists y1. repeat (split; [assumption || reflexivity|]). split; [|reflexivity]. right. auto. }
  destruct X as (K & y1 & H1 & H3 & H4 & ->).
  assert (E1 : @erk_fixed_step Rops A B C rhs s = (@Ret (@T Rops * @vec Rops) (now s + hstep s, y1), set_stages K s)).
  { refine (proj2 (erk_fixed_iff (OT := Rops) A B C rhs s (now s + hstep s) y1 (set_stages K s) Hl HC HA) _). exists K. auto. }
  destruct (rk_step_dim n rhs Hk _ _ _ _ _ _ _ _ _ Hy Hf H1) as (Dy & HK).
  assert (LK : length K = length A).
  { destruct H1 as (H1 & _). apply stages_len in H1 as (-> & _). destruct A; [congruence|]. cbn. lia. }
  assert (En : norm_fsal Ew o y1 (set_stages K s) = Ret e).
  { apply (proj2 (computes_fsal Ew o n y1 (set_stages K s) Dy Hy HK)). red. rewrite H3. symmetry. now apply ad_error. }
  unfold bind. rewrite E1. unfold get, lift. rewrite En.
  destruct (step_update_eq e o order (set_stages K s) Hord) as (b & Eu & Hb). rewrite Eu.
  destruct H4 as [(Ha & -> & -> & Hr & ->)|(Ha & Hr)].
  - rewrite (proj2 Hb Ha). rewrite Hr. eexists. split; [reflexivity|]. split; reflexivity.
  - destruct b; [exfalso; apply Ha; now apply Hb|].
    destruct (IH (@set_h Rops (hstep (set_stages K s) * factor o order e) (set_stages K s)) y' f' h' fuel) as (s' & Q1 & Q2 & Q3); auto; [cbn in Hfu; lia|].
    exists s'. split; [exact Q1|]. split; auto. rewrite Q3. cbn [cache set_h set_stages]. unfold last_h. destruct l as [|q l]; [inversion Hr|]. reflexivity.
Qed.
End Body.

Lemma C82_partial_lemma fuelc A B C B2 order (o : @options Rops) rhs b n (s : @st Rops) : (0 <= order)%Z -> length C = length A -> A <> [] -> length B = length B2 ->
  keeps_dim (OT := Rops) n rhs -> buf_len 2 (cache s) -> length (stages s) = length A -> length (state s) = n -> length (deriv s) = n ->
  let call := @adaptive_step Rops E fuelc A B C B2 order [@PyBound Rops b; @PyRhs Rops rhs; @PyCache Rops; @PyH Rops; @PyK Rops; @PyOptions Rops o] s in
  (would_pass b s -> call = (Ret false, s)) /\
  (~ would_pass b s -> forall s', call = (Ret true, s') -> exists l, 
     trials rhs A B C B2 o order (now s) (state s) (deriv s) (hstep s) l (state s') (deriv s') (hstep s') /\
     now s' = now s + last_h l /\ (length l <= fuelc)%nat) /\
  (~ would_pass b s -> forall l y' f' h', trials rhs A B C B2 o order (now s) (state s) (deriv s) (hstep s) l y' f' h' -> (length l <= fuelc)%nat ->
     exists s', call = (Ret true, s') /\ now s' = now s + last_h l /\ state s' = y' /\ deriv s' = f' /\ hstep s' = h').
Proof.
  intros Hord HC HA HB Hk Hb Hl Hy Hf. cbn zeta. unfold adaptive_step, would_pass. change (buf_t (cache s)) with (now s).
  split; [intros ->; reflexivity|]. split.
  - intros W s' H. destruct (gt_ext _ b); [congruence|]. unfold bind in H. destruct (adaptive_loop _ _ _ _ _ _ _ _ _) as [[[]| |] s1] eqn:e1; try discriminate.
    injection H as <-. destruct (loop_trials A B C B2 o order rhs n Hord HC HA HB Hk fuelc s s1 Hl Hy Hf e1) as (l & y' & f' & H1 & H2 & H3).
    exists l. unfold state, deriv, now. rewrite H3. rewrite (push_t 1), (push_y 1), (push_f 1) by auto. auto.
  - intros W l y' f' h' H Hfu. destruct (gt_ext _ b); [congruence|]. unfold bind.
    destruct (trials_loop A B C B2 o order rhs n Hord HC HA HB Hk l s y' f' h' fuelc Hl Hy Hf H Hfu) as (s' & H1 & H2 & H3). rewrite H1.
    exists s'. split; [reflexivity|]. unfold state, deriv, now. rewrite H3. rewrite (push_t 1), (push_y 1), (push_f 1) by auto. auto.
Qed.
End Real.
