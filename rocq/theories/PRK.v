(** The Runge-Kutta step functions compute [rk_step]; dimensions. *)
From Coq Require Import List ZArith Bool Arith Lia.
From Verif Require Import Base Scalar Vec MBuffer MZeros MSteps MApi MClasses Laws Spec SpecInst SpecRK
  PStep PKeeps PCore PHist PVecR.
Open Scope nat_scope.
Import ListNotations.

Section A.
Context {OT : Ops} {E : Env}.

Lemma list_set_app {A} (a b : list A) x v : list_set (a ++ x :: b) (length a) v = a ++ v :: b.
Proof. induction a; cbn; auto. now rewrite IHa. Qed.
Lemma stages_len rhs t y h rows cs K K' : stages_of rhs t y h rows cs K K' ->
  length K' = length K + length rows /\ length cs = length rows.
Proof.
  induction 1 as [|a rows c cs K k K' Hk _ IH]; cbn; [lia|].
  rewrite app_length in IH. cbn in IH. lia.
Qed.
Lemma stages_det rhs t y h rows cs K K1 : stages_of rhs t y h rows cs K K1 ->
  forall K2, stages_of rhs t y h rows cs K K2 -> K1 = K2.
Proof.
  induction 1 as [|a rows c cs K k K' Hk _ IH]; intros K2 H2; inversion H2; subst; auto.
  apply IH. congruence.
Qed.

Lemma erk_stages_iff rhs t y h rows : forall cs K G s s' ,
  stages s = K ++ G -> length rows = length cs -> length rows <= length G ->
  erk_stages rhs t y h (length K) rows cs s = (Ret tt, s') <->
  exists K', stages_of rhs t y h rows cs K K' /\ s' = set_stages (K' ++ skipn (length rows) G) s.
Proof.
  induction rows as [|a rows IH]; intros [|c cs] K G s s' Hs Hl Hg; cbn [length] in *; try discriminate.
  - cbn [erk_stages]. split.
    + intros H. injection H as <-. exists K. split; [constructor|]. cbn [skipn]. rewrite <- Hs. now destruct s.
    + intros (K' & H & ->). inversion H; subst. cbn [skipn]. rewrite <- Hs. now destruct s.
  - destruct G as [|g G]; cbn [length] in Hg; [lia|].
    cbn [erk_stages]. unfold bind, get, lift, set_K.
    rewrite Hs, firstn_app, firstn_all, Nat.sub_diag. cbn [firstn]. rewrite app_nil_r.
    destruct (rhs _ _) as [k| |] eqn:ek.
    + assert (Hs1 : stages (set_stages (list_set (stages s) (length K) k) s) = (K ++ [k]) ++ G).
      { cbn [stages set_stages]. rewrite Hs, list_set_app, <- app_assoc. reflexivity. }
      specialize (IH cs (K ++ [k]) G (set_stages (list_set (stages s) (length K) k) s) s' Hs1 ltac:(lia) ltac:(lia)).
      rewrite app_length in IH. cbn [length] in IH.
      rewrite <- Hs. rewrite IH. split.
      * intros (K' & H1 & H2). exists K'. split; [econstructor; eauto|]. cbn [skipn]. rewrite H2. now destruct s.
      * intros (K' & H1 & H2). inversion H1; subst. rewrite ek in *.
        match goal with H : Ret _ = Ret _ |- _ => injection H as <- end.
        exists K'. split; auto.
    + split; [discriminate|]. intros (K' & H1 & _). inversion H1; subst. congruence.
    + split; [discriminate|]. intros (K' & H1 & _). inversion H1; subst. congruence.
Qed.

Lemma core_erk_iff A B C rhs s s' : length (stages s) = length A -> length C = length A -> A <> [] ->
  core_erk A B C rhs s = (Ret tt, s') <->
  exists K y' f', rk_step rhs A B C (now s) (state s) (deriv s) (hstep s) K y' /\
    rhs (add (now s) (hstep s)) y' = Ret f' /\
    s' = mkst (push (cache s) (add (now s) (hstep s)) y' f') (hstep s) K (interp s).
Proof.
  intros Hl HC HA. destruct A as [|a A]; [congruence|]. destruct C as [|c C]; [discriminate|].
  cbn [length] in *. destruct (stages s) as [|g G] eqn:eg; [discriminate|]. cbn [length] in Hl.
  unfold core_erk, erk_fixed_step, bind. cbn [skipn]. unfold set_K. rewrite eg. cbn [list_set].
  fold (now s) (state s) (deriv s).
  pose proof (erk_stages_iff rhs (now s) (state s) (hstep s) A C [deriv s] G
                (set_stages (deriv s :: G) s)) as I.
  cbn [length] in I.
  assert (I' : forall s1, _) by (intros s1; exact (I s1 eq_refl ltac:(lia) ltac:(lia))). clear I.
  unfold rk_step. cbn [skipn].
  destruct (erk_stages _ _ _ _ _ _ _ _) as [[[]| |] s1] eqn:es.
  - destruct (proj1 (I' s1) eq_refl) as (K & H1 & H2).
    assert (HK : skipn (length A) G = []) by (apply skipn_all2; lia).
    rewrite HK, app_nil_r in H2. subst s1. cbn. unfold lift, push_st.
    split.
    + destruct (rhs _ _) as [f'| |] eqn:ef; try discriminate. intros H. injection H as <-.
      exists K, (rk_combine (state s) (hstep s) B K), f'. repeat split; auto.
    + intros (K2 & y' & f' & (Q1 & Q2) & Q3 & ->).
      pose proof (stages_det _ _ _ _ _ _ _ _ H1 _ Q1) as <-. subst y'. unfold rk_combine in *.
      unfold state in *. rewrite Q3. reflexivity.
  - split; [discriminate|]. intros (K2 & y' & f' & (Q1 & Q2) & Q3 & ->).
    destruct (I' (set_stages (K2 ++ skipn (length A) G) (set_stages (deriv s :: G) s))) as (_ & I).
    discriminate I. eexists. split; eauto.
  - split; [discriminate|]. intros (K2 & y' & f' & (Q1 & Q2) & Q3 & ->).
    destruct (I' (set_stages (K2 ++ skipn (length A) G) (set_stages (deriv s :: G) s))) as (_ & I).
    discriminate I. eexists. split; eauto.
Qed.

Lemma removelast_app_one {A} (l : list A) x : removelast (l ++ [x]) = l.
Proof. rewrite removelast_app by discriminate. cbn. apply app_nil_r. Qed.

(** one trial of a FSAL step *)
Lemma fsal_fixed_iff A B C rhs s t' y' s' : length (stages s) = S (length A) -> length C = length A -> A <> [] ->
  fsal_fixed_step A B C rhs s = (Ret (t', y'), s') <->
  exists K f', rk_step rhs A B C (now s) (state s) (deriv s) (hstep s) K y' /\
    t' = add (now s) (hstep s) /\ rhs t' y' = Ret f' /\ s' = set_stages (K ++ [f']) s.
Proof.
  intros Hl HC HA. destruct A as [|a A]; [congruence|]. destruct C as [|c C]; [discriminate|].
  cbn [length] in *. destruct (stages s) as [|g G] eqn:eg; [discriminate|]. cbn [length] in Hl.
  unfold fsal_fixed_step, bind. cbn [skipn]. unfold set_K. rewrite eg. cbn [list_set].
  fold (now s) (state s) (deriv s).
  pose proof (erk_stages_iff rhs (now s) (state s) (hstep s) A C [deriv s] G
                (set_stages (deriv s :: G) s)) as I.
  cbn [length] in I.
  assert (I' : forall s1, _) by (intros s1; exact (I s1 eq_refl ltac:(lia) ltac:(lia))). clear I.
  unfold rk_step. cbn [skipn].
  assert (HG : exists g', skipn (length A) G = [g']).
  { assert (K : length (skipn (length A) G) = 1) by (rewrite skipn_length; lia).
    destruct (skipn (length A) G) as [|g' [|]]; cbn in K; try lia. eauto. }
  destruct HG as (g' & HG).
  destruct (erk_stages _ _ _ _ _ _ _ _) as [[[]| |] s1] eqn:es.
  - destruct (proj1 (I' s1) eq_refl) as (K & H1 & H2). rewrite HG in H2. subst s1. unfold get, lift.
    cbn [stages set_stages]. rewrite removelast_app_one.
    assert (HK : length K = S (length A)) by (apply stages_len in H1 as (L & _); cbn in L; lia).
    rewrite app_length. cbn [length]. rewrite Nat.add_sub.
    split.
    + destruct (rhs _ _) as [f'| |] eqn:ef; try discriminate. unfold ret. cbn. intros H. injection H as <- <- <-.
      exists K, f'. repeat split; auto. rewrite list_set_app. now destruct s.
    + intros (K2 & f' & (Q1 & Q2) & Q3 & Q4 & ->).
      pose proof (stages_det _ _ _ _ _ _ _ _ H1 _ Q1) as <-. subst t' y'. unfold rk_combine in *.
      rewrite Q4. unfold ret. cbn. rewrite list_set_app. now destruct s.
  - split; [discriminate|]. intros (K2 & f' & (Q1 & Q2) & Q3 & Q4 & ->).
    destruct (I' (set_stages (K2 ++ skipn (length A) G) (set_stages (deriv s :: G) s))) as (_ & I).
    discriminate I. eexists. split; eauto.
  - split; [discriminate|]. intros (K2 & f' & (Q1 & Q2) & Q3 & Q4 & ->).
    destruct (I' (set_stages (K2 ++ skipn (length A) G) (set_stages (deriv s :: G) s))) as (_ & I).
    discriminate I. eexists. split; eauto.
Qed.
End A.
