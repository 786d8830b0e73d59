(** C04, C05, C11: time bounds, the initial grid, termination. *)
From Coq Require Import List ZArith Bool Arith Lia Reals Lra.
From Verif Require Import Base Scalar Vec MBuffer MZeros MSteps MApi MClasses Laws Spec SpecInst
  PStep PKeeps PCore PHist.
Import ListNotations.

Section Generic.
Context {OT : Ops} {L : OrdLaws OT} {E : Env}.

Lemma allowed_bound_le sv b t : allowed sv b -> num_ext b \/ b = s_bound sv ->
  gt_ext t b = false -> gt_ext t (s_bound sv) = false.
Proof.
  intros [Ha | ->] Hq Ht; auto. destruct Hq as [Hq | ->]; auto.
  destruct (s_bound sv) as [x|]; auto. destruct b as [u|]; cbn in *; [|discriminate].
  destruct (ltb x t) eqn:e; auto.
  assert (leb t u = true). { apply nlt_le; auto. eapply lt_num_r; eauto. }
  assert (ltb x u = true) by (eapply ol_lt_le_trans; eauto). congruence.
Qed.

(** C04, fixed step classes *)
Lemma C04_fixed rhs m fuel o tb fuel' cs s :
  good rhs m s -> is_fixed m = true ->
  Forall (call_ok (fun b => num_ext b)) cs ->
  gt_ext (now s) tb = false ->
  gt_ext (now (session (solver_of m fuel o rhs tb) fuel' cs s)) tb = false.
Proof.
  intros G Hf Hc Ht.
  apply (session_keeps (solver_of m fuel o rhs tb)
    (fun x => good rhs m x /\ gt_ext (now x) tb = false) (fun b => num_ext b \/ b = tb)); auto.
  - intros b x Ha Hq Hw (Gx & Hx). split. now apply good_core.
    cbn [s_core solver_of]. destruct (core_of m fuel o rhs x) as [r x'] eqn:e. cbn [snd].
    apply core_of_ok in e; [|intros; congruence]. destruct e as (_ & _ & _ & D).
    destruct r; try (unfold now in *; rewrite D; auto).
    destruct D as (t & y & f & (P1 & _) & D). specialize (D Hf).
    destruct (len_history_pos m) as (k & Hk). destruct Gx as ((Gx & _) & _). rewrite Hk in Gx.
    unfold now. rewrite P1, (push_t _ _ _ _ _ Gx), D.
    apply (allowed_bound_le (solver_of m fuel o rhs tb) b); auto.
    unfold would_pass in Hw. now destruct (gt_ext _ b).
  - intros t x (Gx & Hx). split. now apply good_interp. cbn [s_interp solver_of].
    destruct (interp_of m rhs t x) as [r x'] eqn:e. apply interp_of_ok in e as (A & _).
    cbn. unfold now. now rewrite A.
  - eapply Forall_impl; [|exact Hc]. intros [? []|? []| | |]; cbn; auto.
Qed.

(** C05 *)
Lemma init_ms_fixed m g rhs t0 y0 h m1 s1 fuel1 o1 fuel s :
  garbage_ok m g -> good rhs m1 s1 -> is_fixed m1 = true -> is_multistep m ->
  1 < ms_order m ->
  now s1 = t0 -> hstep s1 = match h with Some x => x | None => one end ->
  init_ms m g rhs t0 y0 h (FSFixed (fun _ _ _ => Ret (solver_of m1 fuel1 o1 rhs PInf, s1))) fuel = Ret s ->
  ts (cache s) = map (grid t0 (hstep s)) (seq 0 (ms_order m)).
Proof.
  intros Hg G1 F1 Hm Ho Ht Hh H. unfold init_ms in H.
  destruct (init_base m g rhs t0 y0 h) as [s0| |] eqn:e; try discriminate. cbn [obind] in H.
  apply init_base_spec in e as (G0 & f & Hr & Hc & Hh0); auto.
  replace (Nat.eqb (ms_order m) 1) with false in H by (symmetry; apply Nat.eqb_neq; lia).
  cbn [obind fst snd] in H.
  destruct (fs_fixed_loop _ _ _ _) as [c'| |] eqn:el; try discriminate. inv H. cbn [cache set_cache hstep].
  apply fs_fixed_loop_spec in el as (l & -> & _ & Hl); auto.
  assert (HL : len_history m = ms_order m).
  { destruct m; cbn in *; try contradiction; unfold ms_len; lia. }
  destruct (len_history_pos m) as (k & Hk). destruct G0 as ((G0 & _) & _). rewrite Hk in G0.
  destruct (push_all_spec _ l _ G0) as (-> & _). rewrite Hc. cbn [ts]. rewrite Hl, <- HL, Hk.
  rewrite lastn_repeat_app by (rewrite map_length, seq_length; lia).
  rewrite map_length, seq_length. replace (S (S k) - (S (S k) - 1)) with 1 by lia.
  replace (S (S k) - 1) with (S k) by lia. cbn [repeat app]. rewrite Hh, <- Hh0.
  change (seq 0 (S (S k))) with (0 :: seq 1 (S k)). cbn [map]. f_equal.
  rewrite <- (seq_shift (S k)), map_map. reflexivity.
Qed.
End Generic.

(** C04, variable step classes over the reals *)
Section Real.
Context {E : @Env Rops}.
Existing Instance Rops.
Local Open Scope R_scope.

Definition sane (o : @options Rops) : Prop :=
  0 <= min_factor o <= 1 /\ 0 <= max_factor o /\ safety_factor o <= 1.

Lemma lit_R q : @lit Rops q = IZR (QArith_base.Qnum q) / IZR (Zpos (QArith_base.Qden q)).
Proof. reflexivity. Qed.
Lemma zero_R : @zero Rops = 0. Proof. unfold zero. rewrite lit_R. cbn. lra. Qed.
Lemma one_R : @one Rops = 1. Proof. unfold one. rewrite lit_R. cbn. lra. Qed.
Lemma two_R : @two Rops = 2. Proof. unfold two. rewrite lit_R. cbn. lra. Qed.

Lemma Rpower_ge1 x e : 1 <= x -> 0 <= e -> 1 <= Rpower x e.
Proof.
  intros Hx He. unfold Rpower. rewrite <- exp_0.
  destruct (Rle_lt_or_eq_dec 0 (e * ln x)).
  - apply Rmult_le_pos; auto. rewrite <- ln_1. destruct (Rle_lt_or_eq_dec 1 x Hx); [|subst; lra].
    left. apply ln_increasing; lra.
  - left. now apply exp_increasing.
  - rewrite <- e0. lra.
Qed.

Lemma pymax_R a b : @pymax Rops a b = Rmax a b.
Proof.
  unfold pymax, Rmax. cbn. destruct (Rle_dec a b).
  - destruct (Rltb a b) eqn:e; auto. apply Rltb_false in e. lra.
  - replace (Rltb a b) with false; auto. symmetry. apply Rltb_false. lra.
Qed.
Lemma pymin_R a b : @pymin Rops a b = Rmin a b.
Proof.
  unfold pymin, Rmin. cbn. destruct (Rle_dec a b).
  - replace (Rltb b a) with false; auto. symmetry. apply Rltb_false. lra.
  - replace (Rltb b a) with true; auto. symmetry. apply Rltb_true. lra.
Qed.

(** one controller update *)
Lemma step_update_R en o e s r s' : sane o -> 0 <= e -> 0 <= hstep s ->
  step_update (OT := Rops) en o e s = (r, s') ->
  0 <= hstep s' /\ (r = Ret false -> hstep s' <= hstep s /\ 1 <= en).
Proof.
  intros (H1 & H2 & H3) He Hh H. unfold step_update in H.
  assert (Hpos : forall f, 0 <= Rmin (max_factor o) (Rmax (min_factor o) f)).
  { intros f. apply Rmin_glb; auto. eapply Rle_trans; [apply H1 | apply Rmax_l]. }
  destruct (eqb en zero) eqn:e0.
  - inv H. cbn. split; [now apply Rmult_le_pos | discriminate].
  - unfold bind, lift in H. destruct (sdiv (safety_factor o) (powT en e)) as [f| |] eqn:ed; inv H;
      try (split; [auto | discriminate]). cbn.
    rewrite pymin_R, pymax_R. split. apply Rmult_le_pos; auto.
    intros Hr. inv Hr. apply Rltb_false in H0. assert (H4 : 1 <= en) by lra. split; [|exact H4].
    assert (f <= 1).
    { unfold sdiv in ed. destruct (numba_mode && eqb (powT en e) zero); inv ed. cbn.
      assert (1 <= Rpower en e) by now apply Rpower_ge1.
      apply Rmult_le_reg_r with (Rpower en e); [lra|]. unfold Rdiv. rewrite Rmult_assoc, Rinv_l by lra. lra. }
    assert (Rmin (max_factor o) (Rmax (min_factor o) f) <= 1).
    { eapply Rle_trans; [apply Rmin_r|]. apply Rmax_lub; lra. }
    rewrite <- (Rmult_1_r (hstep s)) at 2. apply Rmult_le_compat_l; auto.
Qed.

Lemma core_fsal_R fuel : forall A B C norm o e rhs s r s' n,
  sane o -> 0 <= e -> buf_len (S n) (cache s) ->
  core_fsal (OT := Rops) fuel A B C norm o e rhs s = (r, s') -> 0 <= hstep s ->
  0 <= hstep s' /\ now s <= now s' <= now s + hstep s.
Proof.
  induction fuel; intros A B C norm o e rhs s r s' n Ho He Hl H Hh; cbn [core_fsal] in H.
  - inv H. split; auto. lra.
  - unfold bind in H.
    destruct (fsal_fixed_step A B C rhs s) as [r1 s1] eqn:e1.
    apply frame_fsal_fixed in e1 as ((F1 & F2 & F3 & F4) & Hty).
    assert (Hn1 : now s1 = now s) by (unfold now; now rewrite F1).
    destruct r1 as [[t y]| |]; try (inv H; rewrite F2, ?Hn1; split; lra).
    destruct (Hty t y eq_refl) as [Ht _]. cbn [lift get] in H.
    destruct (norm o y s1) as [en| |]; cbn in H; try (inv H; rewrite F2, ?Hn1; split; lra).
    destruct (step_update en o e s1) as [ok s2] eqn:eu.
    pose proof (step_update_frame _ _ _ _ _ _ eu) as (U1 & U2 & U3).
    apply step_update_R in eu as (V1 & V2); auto; [|now rewrite F2].
    assert (Hn2 : now s2 = now s) by (unfold now; now rewrite U1, F1).
    destruct ok as [[]| |]; try (inv H; rewrite ?Hn2; split; lra).
    + cbn in H. inv H. cbn. split; auto.
      assert (now (set_cache (push (cache s2) (add (now s) (hstep s)) y (last (stages s2) [])) s2) = now s + hstep s).
      { unfold now. cbn [cache set_cache]. rewrite U1, F1. now rewrite (push_t _ _ _ _ _ Hl). }
      unfold now in *. cbn in *. rewrite H. lra.
    + destruct (V2 eq_refl) as (V3 & _). rewrite F2 in V3.
      destruct (IHfuel _ _ _ _ _ _ _ _ _ _ n Ho He ltac:(now rewrite U1, F1) H V1) as (I1 & I2).
      rewrite Hn2 in I2. split; auto. lra.
Qed.

Lemma error_exponent_pos z : 0 <= @error_exponent Rops z.
Proof.
  unfold error_exponent. rewrite lit_R. cbn. apply Rmult_le_pos; [lra|].
  left. apply Rinv_0_lt_compat. apply IZR_lt. reflexivity.
Qed.

Lemma C04_var rhs m fuel o tb fuel' cs s :
  good rhs m s -> is_fixed m = false -> sane o -> 0 <= hstep s ->
  gt_ext (now s) tb = false ->
  gt_ext (now (session (solver_of m fuel o rhs tb) fuel' cs s)) tb = false.
Proof.
  intros G Hf Ho Hh Ht.
  apply (session_inv (solver_of m fuel o rhs tb)
    (fun x => good rhs m x /\ 0 <= hstep x /\ gt_ext (now x) tb = false)); auto.
  - intros b x Ha Hw (Gx & Hhx & Hx). split. now apply good_core.
    cbn [s_core solver_of]. destruct (core_of m fuel o rhs x) as [r x'] eqn:e. cbn [snd].
    assert (K : 0 <= hstep x' /\ now x <= now x' <= now x + hstep x).
    { destruct (len_history_pos m) as (k & Hk). destruct Gx as ((Gx & _) & _). rewrite Hk in Gx.
      destruct m; try discriminate; cbn [core_of] in e.
      - exact (core_fsal_R _ _ _ _ _ _ _ _ _ _ _ _ Ho (error_exponent_pos _) Gx e Hhx).
      - exact (core_fsal_R _ _ _ _ _ _ _ _ _ _ _ _ Ho (error_exponent_pos _) Gx e Hhx). }
    destruct K as (K1 & K2). split; auto.
    assert (gt_ext (add (now x) (hstep x)) tb = false).
    { apply (allowed_bound_le (solver_of m fuel o rhs tb) b); auto.
      - left. destruct b; cbn; auto. apply Rleb_true. lra.
      - unfold would_pass in Hw. now destruct (gt_ext _ b). }
    destruct tb as [z|]; auto. cbn in *. apply Rltb_false. apply Rltb_false in H. lra.
  - intros t x (Gx & Hhx & Hx). split. now apply good_interp. cbn [s_interp solver_of].
    destruct (interp_of m rhs t x) as [r x'] eqn:e. apply interp_of_ok in e as (A & B & _).
    cbn. unfold now. rewrite A, B. auto.
Qed.
End Real.
