(** The same problem with another origin of time. *)
From Coq Require Import List ZArith Bool Arith Lia FunctionalExtensionality.
From Verif Require Import Base Scalar Vec MBuffer MZeros MSteps MApi MClasses Spec SpecInst SpecRK SpecEqv PCore PEqv1 PEqv2.
Import ListNotations.

Section Id.
Context {OT : Ops} {E : Env}.
Variables (f : T -> T) (L nK : nat).
Hypothesis f_lt : forall a b, ltb (f a) (f b) = ltb a b.
Hypothesis f_le : forall a b, leb (f a) (f b) = leb a b.
Hypothesis f_eq : forall a b, eqb (f a) (f b) = eqb a b.
Hypothesis f_add : forall a h, add (f a) h = f (add a h).
Hypothesis f_sub : forall a b, sub (f a) (f b) = sub a b.
Notation gid := (fun y : vec => y).
Notation okT := (fun _ : vec => True).
Variables (rhs rhs' : rhs_t).
Hypothesis Hr : corr_rhs f gid okT rhs rhs'.

Lemma rhs_f t : rhs' (f t) = rhs t.
Proof. apply functional_extensionality. intros y. rewrite (Hr t y I). destruct (rhs t y); reflexivity. Qed.
Lemma Forall_T (l : list vec) : Forall okT l. Proof. induction l; constructor; auto. Qed.

Section Rel.
Variable vr : bool.
Notation rel := (rel f gid okT L nK vr).
Notation msim := (msim f gid okT L nK vr).
Lemma rel_id s s' : rel s s' -> ys (cache s') = ys (cache s) /\ fs (cache s') = fs (cache s) /\ (vr = true -> stages s' = stages s) /\
  (vr = true -> iQ (interp s') = iQ (interp s) /\ iF (interp s') = iF (interp s) /\ iupd (interp s') = f (iupd (interp s))).
Proof. intros (_ & (_ & E2 & E3) & _ & _ & (_ & _ & E5) & E6). rewrite !map_id in *. auto. Qed.

Lemma id_add : forall u v : vec, True -> True -> vadd u v = vadd u v /\ True. Proof. auto. Qed.
Lemma id_sub : forall u v : vec, True -> True -> vsub u v = vsub u v /\ True. Proof. auto. Qed.
Lemma id_scale : forall c (u : vec), True -> vscale c u = vscale c u /\ True. Proof. auto. Qed.
Lemma id_lin : forall (y : vec) c K, True -> Forall okT K -> lincomb (length y) c (map gid K) = lincomb (length y) c K /\ True.
Proof. intros. now rewrite map_id. Qed.
Lemma id_dim : forall t y k, True -> rhs t y = Ret k -> True. Proof. auto. Qed.

Lemma sim_impl A B Bn : msim (fun _ _ => True) (core_impl_ms A B Bn rhs) (core_impl_ms A B Bn rhs').
Proof.
  intros s s' Hs. unfold core_impl_ms. destruct (rel_id _ _ Hs) as (E2 & E3 & _ & _).
  assert (Q : impl_ms_fixed_step A B Bn rhs' (cache s') (hstep s') = omap (fun p => (f (fst p), snd p)) (impl_ms_fixed_step A B Bn rhs (cache s) (hstep s))).
  { unfold impl_ms_fixed_step, ms_combination, ysize, buf_y. rewrite (rel_t _ _ _ _ _ _ _ _ Hs), (rel_h _ _ _ _ _ _ _ _ Hs), E2, E3, f_add.
    unfold implicit_root. rewrite rhs_f.
    destruct (Nat.eqb _ 1); [destruct (j_newton _ _ _ _ _ _ _ _)|destruct (newton_hd _ _ _ _ _)]; reflexivity. }
  rewrite Q. refine (sim_bind _ _ _ _ _ _ (rty f gid okT) (fun _ _ => True) _ _ _ _ _ _ s s' Hs).
  - apply sim_lift. clear Q. destruct (impl_ms_fixed_step A B Bn rhs (cache s) (hstep s)) as [(t & y)| |]; cbn [omap]; constructor. split; [reflexivity|]. split; auto.
  - intros (t & y) (t' & y') (Et & Ey & _). cbn [fst snd] in *. subst t' y'. rewrite rhs_f.
    eapply (sim_bind _ _ _ _ _ _ (rvec gid okT)).
    + apply sim_lift. destruct (rhs t y); constructor. split; auto.
    + intros k k' Hk. apply sim_push; auto. split; auto.
Qed.
Lemma norm_fsal_id Ew o y y' x x' : vr = true -> rvec gid okT y y' -> rel x x' -> norm_fsal Ew o y' x' = norm_fsal Ew o y x.
Proof.
  intros Hv (-> & _) Hx. destruct (rel_id _ _ Hx) as (E2 & E3 & E5 & _). specialize (E5 Hv). unfold norm_fsal, buf_y. now rewrite E2, E5, (rel_h _ _ _ _ _ _ _ _ Hx).
Qed.
Lemma norm_dop_id E5' E3' o y y' x x' : vr = true -> rvec gid okT y y' -> rel x x' -> norm_dop853 E5' E3' o y' x' = norm_dop853 E5' E3' o y x.
Proof.
  intros Hv (-> & _) Hx. destruct (rel_id _ _ Hx) as (E2 & E3 & E5 & _). specialize (E5 Hv). unfold norm_dop853, buf_y. now rewrite E2, E5, (rel_h _ _ _ _ _ _ _ _ Hx).
Qed.
End Rel.

Notation relv := (rel f gid okT L nK true).
Notation msimv := (msim f gid okT L nK true).
Lemma rel_set_interp s s' i i' : relv s s' -> iQ i' = iQ i -> iF i' = iF i -> iupd i' = f (iupd i) -> relv (set_interp i s) (set_interp i' s').
Proof.
  intros (H1 & H2 & H3 & E4 & E5 & _) Q1 Q2 Q3. split; [exact H1|]. split; [exact H2|]. split; [exact H3|]. split; [exact E4|]. split; [exact E5|].
  intros _. cbn. rewrite !map_id. auto.
Qed.
Lemma rel_rk_update P s s' : relv s s' -> relv (rk_update P s) (rk_update P s').
Proof.
  intros Hs. destruct (rel_id _ _ _ Hs) as (E2 & E3 & E5 & E6). destruct (E6 eq_refl) as (Q1 & Q2 & Q3). specialize (E5 eq_refl).
  unfold rk_update. apply rel_set_interp; auto; cbn [iQ iF iupd].
  - unfold ysize, buf_y. now rewrite E2, E5.
  - exact (rel_t _ _ _ _ _ _ _ _ Hs).
Qed.
Lemma sim_rk P t : msimv (rarr gid okT L) (interp_rk P t) (interp_rk P (f t)).
Proof.
  intros s s' Hs. unfold interp_rk. cbn zeta. rewrite (rel_t _ _ _ _ _ _ _ _ Hs), (rel_tp _ _ _ _ _ _ _ _ Hs), !f_eq.
  destruct (rel_len _ _ _ _ _ _ _ _ Hs) as (L1 & L2). rewrite L1, L2.
  destruct (eqb t _); [split; [constructor; cbn; lia|exact Hs]|]. destruct (eqb t _); [split; [constructor; cbn; lia|exact Hs]|].
  destruct (rel_id _ _ _ Hs) as (E2 & E3 & E5 & E6). destruct (E6 eq_refl) as (Q1 & Q2 & Q3). specialize (E5 eq_refl). rewrite Q3, f_lt, !f_sub.
  set (s1 := if ltb t _ then s else _). set (s1' := if ltb t _ then s' else _).
  assert (Hs1 : relv s1 s1') by (unfold s1, s1'; destruct (ltb t _); [exact Hs|now apply rel_rk_update]).
  refine (sim_bind _ _ _ _ _ _ eq (rarr gid okT L) _ _ _ _ _ _ s1 s1' Hs1); [apply sim_lift, corr_eq_refl|]. intros x ? <-.
  apply sim_ret. destruct (rel_id _ _ _ Hs1) as (_ & _ & _ & E6'). destruct (E6' eq_refl) as (Q1' & _ & _).
  cbn. split; [|exact I]. rewrite Q1'. unfold buf_yp. now rewrite E2.
Qed.
Lemma dop_extra_f t y h rows : forall s K, dop_extra rhs' (f t) y h rows s K = dop_extra rhs t y h rows s K.
Proof.
  induction rows as [|(a & c) rows IH]; intros s K; cbn [dop_extra]; [reflexivity|]. rewrite f_add, rhs_f.
  destruct (rhs _ _); cbn [obind]; auto.
Qed.
Lemma sim_dop_update n D Af Cf : msimv (fun _ _ => True) (dop_update n D Af Cf rhs) (dop_update n D Af Cf rhs').
Proof.
  intros s s' Hs. unfold dop_update. cbn zeta. destruct (rel_id _ _ _ Hs) as (E2 & E3 & E5 & E6).
  rewrite (rel_t _ _ _ _ _ _ _ _ Hs), (rel_tp _ _ _ _ _ _ _ _ Hs), f_sub, dop_extra_f. specialize (E5 eq_refl). unfold buf_yp, buf_y, buf_f. rewrite E2, E3, E5.
  refine (sim_bind _ _ _ _ _ _ eq (fun _ _ => True) _ _ _ _ _ _ s s' Hs); [apply sim_lift, corr_eq_refl|]. intros K ? <- x x' Hx.
  split; [now constructor|]. cbn [snd]. destruct (rel_id _ _ _ Hx) as (_ & _ & _ & E6'). destruct (E6' eq_refl) as (Q1' & _ & _).
  apply rel_set_interp; auto.
Qed.
Lemma sim_dop n D Af Cf t : msimv (rarr gid okT L) (interp_dop n D Af Cf rhs t) (interp_dop n D Af Cf rhs' (f t)).
Proof.
  intros s s' Hs. unfold interp_dop. cbn zeta. rewrite (rel_t _ _ _ _ _ _ _ _ Hs), (rel_tp _ _ _ _ _ _ _ _ Hs), !f_eq.
  destruct (rel_len _ _ _ _ _ _ _ _ Hs) as (L1 & L2). rewrite L1, L2.
  destruct (eqb t _); [split; [constructor; cbn; lia|exact Hs]|]. destruct (eqb t _); [split; [constructor; cbn; lia|exact Hs]|].
  destruct (rel_id _ _ _ Hs) as (E2 & E3 & E5 & E6). destruct (E6 eq_refl) as (Q1 & Q2 & Q3). specialize (E5 eq_refl). rewrite Q3, f_lt, !f_sub.
  unfold buf_yp. rewrite E2.
  refine (sim_bind _ _ _ _ _ _ (fun _ _ => True) (rarr gid okT L) _ _ _ _ _ _ s s' Hs).
  - apply sim_if; [reflexivity|now apply sim_ret|apply sim_dop_update].
  - intros _ _ _ x x' Hx. destruct (rel_id _ _ _ Hx) as (_ & _ & _ & E6'). destruct (E6' eq_refl) as (_ & Q2' & _).
    refine (sim_bind _ _ _ _ _ _ eq (rarr gid okT L) _ _ _ _ _ _ x x' Hx); [apply sim_lift, corr_eq_refl|]. intros z ? <-.
    apply sim_ret. cbn. rewrite Q2'. auto.
Qed.

Lemma sim_core_id m fuelc o : (is_erk m -> shaped m /\ n_stages_of m = nK) ->
  msim f gid okT L nK (negb (is_fixed m)) (fun _ _ => True) (core_of m fuelc o rhs) (core_of m fuelc o rhs').
Proof.
  intros Hm. destruct m as [A B|A B Bn|A B C|A B C Ew ord P|A B C E5 E3 ord D Af Cf]; cbn [core_of is_fixed negb].
  - apply (sim_expl f gid okT L nK false f_add id_sub id_lin rhs rhs' Hr id_dim).
  - apply sim_impl.
  - destruct (Hm I) as ((H1 & H2) & H3). cbn in H3. apply (sim_erk f gid okT L nK false f_add id_add id_scale id_lin rhs rhs' Hr id_dim); auto.
  - apply (sim_fsal f gid okT L nK true f_add id_add id_scale id_lin rhs rhs' Hr id_dim); auto. intros. now apply (norm_fsal_id true).
  - apply (sim_fsal f gid okT L nK true f_add id_add id_scale id_lin rhs rhs' Hr id_dim); auto. intros. now apply (norm_dop_id true).
Qed.
Lemma sim_interp_id m t : msim f gid okT L nK (negb (is_fixed m)) (rarr gid okT L) (interp_of m rhs t) (interp_of m rhs' (f t)).
Proof.
  destruct m as [A B|A B Bn|A B C|A B C Ew ord P|A B C E5 E3 ord D Af Cf]; cbn [interp_of is_fixed negb];
    try apply (sim_hermite f gid okT L nK false f_eq f_sub id_add id_sub id_scale).
  - apply sim_rk.
  - apply sim_dop.
Qed.
End Id.
