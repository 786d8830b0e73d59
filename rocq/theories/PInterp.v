(** C18, C19, C20: interpolate. *)
From Coq Require Import List ZArith QArith Bool Arith Lia Reals Lra Permutation.
From Verif Require Import Base Scalar Vec MBuffer MZeros MSteps MApi MClasses Laws Spec SpecInst
  PStep PKeeps PCore PHist PBound PVecR PRun PFwd PTerm.
Import ListNotations.

Section G.
Context {OT : Ops} {E : Env}.
Lemma C18_outside (sv : solver) t s :
  leb (buf_t0 (cache s)) t = false \/ leb t (now s) = false ->
  interpolate sv t s = (Raise ValueError, s).
Proof.
  intros H. unfold interpolate. fold (now s).
  replace (leb _ t && leb t (now s)) with false; auto.
  symmetry. apply andb_false_iff. exact H.
Qed.
Variable m : meth.
Variables (fuelc : nat) (o : options) (rhs : rhs_t) (tb : ext).
Let sv := solver_of m fuelc o rhs tb.
Lemma C18_keeps t s : let s' := snd (interpolate sv t s) in
  cache s' = cache s /\ hstep s' = hstep s /\ stages s' = stages s.
Proof.
  cbn zeta. unfold interpolate. destruct (negb _); [cbn; auto|].
  destruct (s_interp sv t s) as [r s'] eqn:e. cbn in e. apply interp_of_ok in e.
  cbn. unfold interp_only in e. tauto.
Qed.
Definition is_dop : bool := match m with Dop _ _ _ _ _ _ _ _ _ => true | _ => false end.
Lemma dop_extra_err t_old y_old h rows : forall k K e,
  dop_extra rhs t_old y_old h rows k K = Raise e -> exists t y, rhs t y = Raise e.
Proof.
  induction rows as [|[a c] rows IH]; intros k K e H; cbn [dop_extra] in H; [discriminate|].
  destruct (rhs _ _) as [kk| |] eqn:er; cbn [obind] in H; try discriminate.
  - eapply IH; eauto.
  - injection H as <-. eauto.
Qed.
Lemma C18_inside t s e s' :
  leb (buf_t0 (cache s)) t = true -> leb t (now s) = true ->
  interpolate sv t s = (Raise e, s') ->
  e = ZeroDivisionError \/ exists t' y', rhs t' y' = Raise e.
Proof.
  intros H1 H2. unfold interpolate. fold (now s). rewrite H1, H2. cbn [andb negb].
  subst sv. cbn [s_interp solver_of].
  assert (SD : forall a b x, sdiv a b = Raise x -> x = ZeroDivisionError).
  { intros a b x. unfold sdiv. destruct (_ && _); intros H; inversion H; auto. }
  destruct m; cbn [interp_of].
  1-3: unfold interp_default, hermite; destruct (eqb t _); [discriminate|];
       destruct (sdiv _ _) eqn:ed; cbn [obind]; intros H; inversion H; subst; left; eapply SD; eauto.
  - unfold interp_rk. destruct (eqb t _); [discriminate|]. destruct (eqb t _); [discriminate|].
    unfold bind, lift, ret. destruct (ltb t _); destruct (sdiv _ _) eqn:ed; intros H; inversion H; subst;
    left; eapply SD; eauto.
  - unfold interp_dop. destruct (eqb t _); [discriminate|]. destruct (eqb t _); [discriminate|].
    unfold bind, lift, ret, dop_update.
    destruct (ltb t _).
    + destruct (sdiv _ _) eqn:ed; intros H; inversion H; subst; left; eapply SD; eauto.
    + unfold bind, lift. destruct (dop_extra _ _ _ _ _ _ _) eqn:ee.
      * destruct (sdiv _ _) eqn:ed; intros H; inversion H; subst; left; eapply SD; eauto.
      * intros H. inversion H; subst. right. eapply dop_extra_err; eauto.
      * discriminate.
Qed.
End G.

Section R.
Context {E : @Env Rops}.
Open Scope R_scope.

(** exact arithmetic: no division by zero *)
Lemma sdiv_R a b : b <> 0 -> sdiv (OT := Rops) a b = Ret (a / b).
Proof.
  intros H. unfold sdiv. replace (@eqb Rops b zero) with false.
  - rewrite andb_false_r. reflexivity.
  - symmetry. apply Reqb_false. rewrite zero_R. exact H.
Qed.

Lemma hermite_eval (c : @buffer Rops) t : t <> buf_t0 c -> buf_t0 c < buf_t c ->
  let X := (t - buf_t0 c) / (buf_t c - buf_t0 c) in
  let dy := vsub (buf_y c) (buf_y0 c) in
  hermite (OT := Rops) t c = Ret (Own (vadd (vadd (buf_y0 c) (vscale (X : @T Rops) dy))
                (vscale ((X * (X - 1)) : @T Rops)
                   (vadd (vscale ((1 - 2 * X) : @T Rops) dy)
                      (vscale ((buf_t c - buf_t0 c) : @T Rops)
                         (vadd (vscale ((X - 1) : @T Rops) (buf_f0 c)) (vscale (X : @T Rops) (buf_f c)))))))).
Proof.
  intros H1 H2. cbn zeta. unfold hermite.
  replace (@eqb Rops t (buf_t0 c)) with false by (symmetry; apply Reqb_false; auto).
  change (@sub Rops) with Rminus. rewrite sdiv_R by (change (buf_t c - buf_t0 c <> 0); lra).
  cbn [obind]. rewrite one_R, two_R. reflexivity.
Qed.

Definition same_dim (n : nat) (c : @buffer Rops) : Prop :=
  length (buf_y0 c) = n /\ length (buf_y c) = n /\ length (buf_f0 c) = n /\ length (buf_f c) = n.

Lemma hermite_cmp (c : @buffer Rops) n t i : same_dim n c -> (i < n)%nat -> buf_t0 c < buf_t c -> t <> buf_t0 c ->
  exists a, hermite (OT := Rops) t c = Ret a /\ length (deref c a) = n /\
  let X := (t - buf_t0 c) / (buf_t c - buf_t0 c) in
  let dt := buf_t c - buf_t0 c in
  let y0 := cmp i (buf_y0 c) in let y1 := cmp i (buf_y c) in
  let f0 := cmp i (buf_f0 c) in let f1 := cmp i (buf_f c) in
  cmp i (deref c a) = y0 + X * (y1 - y0) + X * (X - 1) * ((1 - 2 * X) * (y1 - y0) + dt * ((X - 1) * f0 + X * f1)).
Proof.
  intros (A & B & C & D) Hi Ht Hne. eexists. split; [apply hermite_eval; auto|].
  cbn [deref]. cbn zeta.
  assert (L1 : length (vsub (buf_y c) (buf_y0 c)) = n) by now apply vsub_len.
  split; [auto 10 with vlen|].
  rewrite !(vadd_cmp n), !vscale_cmp, !(vadd_cmp n), !vscale_cmp, !(vadd_cmp n), !vscale_cmp, !(vsub_cmp n) by auto 10 with vlen.
  reflexivity.
Qed.

(** cubic polynomials *)
Definition cubic (q0 q1 q2 q3 t : R) : R := q0 + q1 * t + q2 * t ^ 2 + q3 * t ^ 3.
Definition dcubic (q1 q2 q3 t : R) : R := q1 + 2 * q2 * t + 3 * q3 * t ^ 2.

Lemma C19_exact (c : @buffer Rops) n i q0 q1 q2 q3 : same_dim n c -> (i < n)%nat -> buf_t0 c < buf_t c ->
  cmp i (buf_y0 c) = cubic q0 q1 q2 q3 (buf_t0 c) -> cmp i (buf_f0 c) = dcubic q1 q2 q3 (buf_t0 c) ->
  cmp i (buf_y c) = cubic q0 q1 q2 q3 (buf_t c) -> cmp i (buf_f c) = dcubic q1 q2 q3 (buf_t c) ->
  length (ys c) <> 0%nat ->
  forall t, exists a, hermite (OT := Rops) t c = Ret a /\ cmp i (deref c a) = cubic q0 q1 q2 q3 t.
Proof.
  intros D Hi Ht Y0 F0 Y1 F1 Hl t.
  destruct (Req_dec t (buf_t0 c)) as [->|Hne].
  - exists (CacheRow 0). split.
    + unfold hermite. now replace (@eqb Rops (buf_t0 c) (buf_t0 c)) with true by (symmetry; now apply Reqb_true).
    + cbn [deref]. rewrite <- Y0. f_equal. unfold buf_y0. now destruct (ys c).
  - destruct (hermite_cmp c n t i D Hi Ht Hne) as (a & Ha & _ & Hc). cbn zeta in Hc.
    exists a. split; auto. rewrite Hc, Y0, F0, Y1, F1.
    clear - Ht. unfold cubic, dcubic. generalize dependent (buf_t c). intros t1.
    generalize (buf_t0 c). intros t0 Ht. change R in t0, t1. change (t0 < t1)%R in Ht.
    match goal with |- @eq _ ?a ?b => change (@eq R a b) end. field. lra.
Qed.

(** the Hermite data always come from some cubic *)
Lemma hermite_data t0 t1 y0 y1 f0 f1 : t0 < t1 -> exists q0 q1 q2 q3,
  cubic q0 q1 q2 q3 t0 = y0 /\ dcubic q1 q2 q3 t0 = f0 /\ cubic q0 q1 q2 q3 t1 = y1 /\ dcubic q1 q2 q3 t1 = f1.
Proof.
  intros Ht.
  (* in s = t - t0 *)
  set (d := t1 - t0). assert (Hd : d <> 0) by (unfold d; lra).
  set (a2 := (3 * (y1 - y0) - d * (2 * f0 + f1)) / d ^ 2).
  set (a3 := (2 * (y0 - y1) + d * (f0 + f1)) / d ^ 3).
  exists (y0 - f0 * t0 + a2 * t0 ^ 2 - a3 * t0 ^ 3), (f0 - 2 * a2 * t0 + 3 * a3 * t0 ^ 2), (a2 - 3 * a3 * t0), a3.
  unfold cubic, dcubic. replace t1 with (t0 + d) by (unfold d; ring).
  repeat split; unfold a2, a3; field; auto.
Qed.

Lemma C19_lemma (c : @buffer Rops) n i : same_dim n c -> (i < n)%nat -> buf_t0 c < buf_t c ->
  length (ys c) <> 0%nat ->
  exists q0 q1 q2 q3,
    (forall t, exists a, hermite (OT := Rops) t c = Ret a /\ cmp i (deref c a) = cubic q0 q1 q2 q3 t) /\
    cubic q0 q1 q2 q3 (buf_t0 c) = cmp i (buf_y0 c) /\ dcubic q1 q2 q3 (buf_t0 c) = cmp i (buf_f0 c) /\
    cubic q0 q1 q2 q3 (buf_t c) = cmp i (buf_y c) /\ dcubic q1 q2 q3 (buf_t c) = cmp i (buf_f c).
Proof.
  intros D Hi Ht Hl.
  destruct (hermite_data _ _ (cmp i (buf_y0 c)) (cmp i (buf_y c)) (cmp i (buf_f0 c)) (cmp i (buf_f c)) Ht)
    as (q0 & q1 & q2 & q3 & A & B & C & F).
  exists q0, q1, q2, q3. split; auto. apply (C19_exact c n); auto.
Qed.
End R.
