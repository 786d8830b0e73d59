(** Proofs of C87 and C88: constructors. *)
From Coq Require Import List ZArith QArith Bool Arith Lia Reals Lra Floats.SpecFloat.
From Verif Require Import Base Scalar Vec MBuffer MZeros MSteps MApi MDop853 MClasses Laws Spec SpecInst SpecInit
  PStep PCore PHist PBound PTerm PVecR SpecRK SpecDense SpecCtl SpecMS SpecConv SpecLive PMS PMS7 PTop1 PTop2 PCtl PC3 PC5 PConv9 Ex PExR.
Import ListNotations.

Section Any.
Context {OT : Ops}.
Lemma fresh_base m g rhs t0 y0 h f0 : garbage_ok m g -> rhs t0 y0 = Ret f0 ->
  exists s, init_base m g rhs t0 y0 h = Ret s /\ fresh s t0 y0 f0 (match h with Some x => x | None => one end) /\ stages s = g_K g /\
    cache s = mkbuf (repeat t0 (len_history m)) (repeat y0 (len_history m)) (repeat f0 (len_history m)).
Proof.
  intros Hg Hf. destruct (init_base m g rhs t0 y0 h) as [s| |] eqn:e.
  2,3: (unfold init_base in e; rewrite Hf in e; discriminate).
  assert (K : stages s = g_K g) by (unfold init_base in e; rewrite Hf in e; injection e as <-; reflexivity).
  apply init_base_spec in e as (_ & f & Hf' & Hc & Hh); auto. rewrite Hf in Hf'. injection Hf' as <-.
  exists s. split; [reflexivity|]. split; [|split; [exact K|exact Hc]]. unfold fresh, now, state, deriv. rewrite Hc.
  destruct (len_history_pos m) as (k & Hk). rewrite Hk. unfold buf_t, buf_y, buf_f. cbn [ts ys fs].
  assert (L : forall X (x d : X) n, last (repeat x (S n)) d = x) by (intros X x d n; induction n as [|n IH]; [reflexivity|]; exact IH).
  rewrite !L. auto.
Qed.
Lemma C87_start_lemma m g rhs t0 y0 h : garbage_ok m g ->
  (forall e, rhs t0 y0 = Raise e -> init_rk m g rhs t0 y0 h = Raise e) /\
  (forall f0, rhs t0 y0 = Ret f0 -> exists s, init_rk m g rhs t0 y0 h = Ret s /\ fresh s t0 y0 f0 (match h with Some x => x | None => one end)).
Proof.
  intros Hg. split.
  - intros e He. unfold init_rk, init_base. now rewrite He.
  - intros f0 Hf. destruct (fresh_base m g rhs t0 y0 h f0 Hg Hf) as (s & H1 & H2 & _). exists s. auto.
Qed.
Lemma checks o : valid_options o <-> (match max_step o with Fin x => x <=? zero | PInf => false end = false /\ atol o <? zero = false)%sc.
Proof.
  unfold valid_options. destruct (max_step o) as [x|].
  - split; intros (H1 & H2); split; auto. intros z [= <-]. exact H1.
  - split; intros (H1 & H2); split; auto. discriminate.
Qed.
Lemma C87_invalid_lemma m g rhs t0 y0 o sel first : is_fixed m = false -> garbage_ok m g ->
  (forall e, rhs t0 y0 = Raise e -> init_var m g rhs t0 y0 o sel first = Raise e) /\
  (forall f0, rhs t0 y0 = Ret f0 -> ~ valid_options o -> init_var m g rhs t0 y0 o sel first = Raise ValueError).
Proof.
  intros Hm Hg. split.
  - intros e He. unfold init_var, init_base. now rewrite He.
  - intros f0 Hf Hv. destruct (fresh_base m g rhs t0 y0 None f0 Hg Hf) as (s & H1 & _). unfold init_var. rewrite H1. cbn [obind].
    destruct (match max_step o with Fin x => leb x zero | PInf => false end) eqn:e1; [reflexivity|].
    destruct (ltb (atol o) zero) eqn:e2; [reflexivity|]. exfalso. apply Hv, checks. auto.
Qed.
Lemma init_var_valid m g rhs t0 y0 o sel first s0 h : valid_options o -> init_base m g rhs t0 y0 None = Ret s0 ->
  match first with Some h => Ret h | None => sel (now s0) (state s0) (deriv s0) end = Ret h ->
  init_var m g rhs t0 y0 o sel first = match m with
    | Fsal _ _ _ _ _ P => Ret (rk_update P (set_h h s0))
    | Dop _ _ _ _ _ _ D Af Cf => match dop_update dop_n_stages D Af Cf rhs (set_h h s0) with (Ret _, s') => Ret s' | (Raise e, _) => Raise e | (Loop, _) => Loop end
    | _ => Ret (set_h h s0) end.
Proof.
  intros Hv Hb Hh. apply checks in Hv as (V1 & V2). unfold init_var. rewrite Hb. cbn [obind]. rewrite V1, V2.
  unfold now, state, deriv in Hh. rewrite Hh. reflexivity.
Qed.
Lemma init_var_sel m g rhs t0 y0 o (sel : T -> vec -> vec -> outcome T) s0 e : valid_options o -> init_base m g rhs t0 y0 None = Ret s0 ->
  sel (now s0) (state s0) (deriv s0) = Raise e -> init_var m g rhs t0 y0 o sel None = Raise e.
Proof.
  intros Hv Hb Hh. apply checks in Hv as (V1 & V2). unfold init_var. rewrite Hb. cbn [obind]. rewrite V1, V2.
  unfold now, state, deriv in Hh. rewrite Hh. reflexivity.
Qed.
Lemma C87_valid_lemma A B C Ew order P g rhs t0 y0 o sel f0 : garbage_ok (Fsal A B C Ew order P) g -> rhs t0 y0 = Ret f0 -> valid_options o ->
  (forall h, exists s, init_var (Fsal A B C Ew order P) g rhs t0 y0 o sel (Some h) = Ret s /\ fresh s t0 y0 f0 h) /\
  (forall h, sel t0 y0 f0 = Ret h -> exists s, init_var (Fsal A B C Ew order P) g rhs t0 y0 o sel None = Ret s /\ fresh s t0 y0 f0 h) /\
  (forall e, sel t0 y0 f0 = Raise e -> init_var (Fsal A B C Ew order P) g rhs t0 y0 o sel None = Raise e).
Proof.
  intros Hg Hf Hv. destruct (fresh_base _ g rhs t0 y0 None f0 Hg Hf) as (s & H1 & (F1 & F2 & F3 & F4) & _).
  assert (Fr : forall h, fresh (rk_update P (set_h h s)) t0 y0 f0 h) by (intros h; unfold fresh; auto).
  split; [|split].
  - intros h. rewrite (init_var_valid _ g rhs t0 y0 o sel (Some h) s h Hv H1 eq_refl). eauto.
  - intros h Hh. rewrite (init_var_valid _ g rhs t0 y0 o sel None s h Hv H1); [eauto|]. now rewrite F1, F2, F3.
  - intros e He. apply (init_var_sel _ g rhs t0 y0 o sel s e Hv H1). now rewrite F1, F2, F3.
Qed.
End Any.

(** ** DOP853 over the reals: every extra stage of the interpolator is taken at (t0, y0) *)
Lemma Forall_firstn' {A} (P : A -> Prop) n : forall l, Forall P l -> Forall P (firstn n l).
Proof. induction n; intros [|x l] H; cbn; auto. inversion H; subst. auto. Qed.
Lemma nth_repeat_lt {A} (x d : A) : forall n i, (i < n)%nat -> nth i (repeat x n) d = x.
Proof. induction n; intros [|i] H; cbn; auto; try lia. apply IHn. lia. Qed.
Section Dop.
Open Scope R_scope.
Lemma times_zero : forall (v : list R) i, cmp i (map (fun x : R => x * 0) v) = 0.
Proof. induction v as [|x v IH]; intros [|i]; cbn; auto. lra. Qed.
Lemma extra_fresh (rhs : @rhs_t Rops) t0 y0 f0 n : length y0 = n -> length f0 = n -> rhs t0 y0 = Ret f0 ->
  forall rows s K, Forall (fun k => length k = n) K -> exists K', dop_extra rhs t0 y0 0 rows s K = Ret K'.
Proof.
  intros Hy Hf0 Hf. induction rows as [|(a & c) rows IH]; intros s K HK; cbn [dop_extra]; [eauto|].
  assert (L : length (map (fun x : R => x * 0) (@lincomb Rops (length y0) (firstn s a) (firstn s K))) = n).
  { rewrite map_length, Hy. apply lincomb_len. now apply Forall_firstn'. }
  assert (Q : @vadd Rops y0 (map (fun x : R => x * 0) (@lincomb Rops (length y0) (firstn s a) (firstn s K))) = y0).
  { apply (vec_ext n); [apply vadd_len; auto|exact Hy|]. intros i Hi. rewrite (vadd_cmp n) by auto.
    exact (eq_trans (f_equal (Rplus (cmp i y0)) (times_zero _ i)) (Rplus_0_r _)). }
  assert (Q2 : @add Rops t0 (@mul Rops c 0) = t0) by (change (t0 + c * 0 = t0); lra).
  match goal with |- exists K', obind ?X _ = _ => assert (R0 : X = Ret f0) by (transitivity (rhs t0 y0); [f_equal; [exact Q2|exact Q]|exact Hf]) end.
  rewrite R0. cbn [obind]. apply IH. apply Forall_app. split; [exact HK|]. constructor; [exact Hf0|constructor].
Qed.
Lemma C87_dop_lemma A B C E5 E3 order D Af Cf g (rhs : @rhs_t Rops) t0 y0 (o : @options Rops) sel f0 : let m := @Dop Rops A B C E5 E3 order D Af Cf in
  garbage_ok m g -> garbage_dim (length y0) g -> rhs t0 y0 = Ret f0 -> length f0 = length y0 -> valid_options o ->
  (forall h, exists s, init_var m g rhs t0 y0 o sel (Some h) = Ret s /\ fresh s t0 y0 f0 h) /\
  (forall h, sel t0 y0 f0 = Ret h -> exists s, init_var m g rhs t0 y0 o sel None = Ret s /\ fresh s t0 y0 f0 h) /\
  (forall e, sel t0 y0 f0 = Raise e -> init_var m g rhs t0 y0 o sel None = Raise e).
Proof.
  intros m Hg Hd Hf Hl Hv. destruct (fresh_base m g rhs t0 y0 None f0 Hg Hf) as (s & H1 & (F1 & F2 & F3 & F4) & F5 & F6).
  assert (U : forall h, exists s', dop_update dop_n_stages D Af Cf rhs (set_h h s) = (Ret tt, s') /\ fresh s' t0 y0 f0 h).
  { intros h. unfold dop_update. cbn [cache set_h stages].
    assert (P : buf_tp (cache s) = t0 /\ buf_yp (cache s) = y0).
    { rewrite F6. destruct (len_history_pos m) as (k & Hk). rewrite Hk. unfold buf_tp, buf_yp. cbn [ts ys]. rewrite !repeat_length.
      split; apply nth_repeat_lt; lia. }
    destruct P as (-> & ->). replace (buf_t (cache s)) with t0 by (symmetry; exact F1).
    replace (@sub Rops t0 t0) with 0 by (symmetry; apply Rminus_eq_0).
    destruct (extra_fresh rhs t0 y0 f0 (length y0) eq_refl Hl Hf (combine (skipn (dop_n_stages + 1) Af) (skipn (dop_n_stages + 1) Cf)) (dop_n_stages + 1) (stages s)) as (K' & HK).
    { rewrite F5. exact Hd. }
    unfold bind, lift. rewrite HK. eexists. split; [reflexivity|]. unfold fresh. auto. }
  split; [|split].
  - intros h. rewrite (init_var_valid m g rhs t0 y0 o sel (Some h) s h Hv H1 eq_refl). unfold m at 1. destruct (U h) as (s' & -> & U2). eauto.
  - intros h Hh. rewrite (init_var_valid m g rhs t0 y0 o sel None s h Hv H1); [|now rewrite F1, F2, F3]. unfold m at 1. destruct (U h) as (s' & -> & U2). eauto.
  - intros e He. apply (init_var_sel m g rhs t0 y0 o sel s e Hv H1). now rewrite F1, F2, F3.
Qed.
End Dop.

(** ** binary64: uninitialised memory reaches the right-hand side *)
Section Nan.
Variable pw : spec_float -> spec_float -> spec_float.
Notation FI := (SFops pw).
(** y' = y, ValueError for a state that is not a number *)
Definition rhs_picky : @rhs_t FI := fun _ y => match y with [x] => if @eqb FI x x then Ret [x] else Raise ValueError | _ => Ret y end.
Definition nan_garb : @garbage FI := mkgarb (g_buf (garb (@DOP853 FI))) (repeat [S754_nan] 13).
Lemma C87_nan : garbage_ok (@DOP853 FI) nan_garb /\ garbage_dim (OT := FI) 1 nan_garb /\ valid_options (@default_options FI) /\
  (forall t x, x <> S754_nan -> rhs_picky t [x] = Ret [x]) /\
  forall sel, init_var (@DOP853 FI) nan_garb rhs_picky (@zero FI) [@one FI] (@default_options FI) sel (Some (@one FI)) = Raise ValueError.
Proof.
  split; [repeat split; vm_compute; reflexivity|]. split; [repeat constructor|].
  split; [split; [discriminate|vm_compute; reflexivity]|]. split.
  - intros t x Hx. assert (Q : SFeqb x x = true).
    { destruct x as [[]|[]| |b m e]; try reflexivity; try congruence.
      unfold SFeqb. cbn. destruct b; rewrite Z.compare_refl, Pos.compare_cont_refl; reflexivity. }
    unfold rhs_picky. change (@eqb FI x x) with (SFeqb x x). rewrite Q. reflexivity.
  - intros sel. vm_compute. reflexivity.
Qed.
End Nan.

(** ** a step size that is not positive: variable step classes *)
Section Neg.
Open Scope R_scope.
Context {E : @Env Rops}.
Lemma step_update_neg en (o : @options Rops) e (s : @st Rops) r s' : 0 <= min_factor o -> 0 <= max_factor o -> hstep s <= 0 ->
  step_update (E := E) en o e s = (r, s') -> hstep s' <= 0.
Proof.
  intros H1 H2 Hh H. unfold step_update in H.
  assert (Hpos : forall f, 0 <= Rmin (max_factor o) (Rmax (min_factor o) f)).
  { intros f. apply Rmin_glb; auto. eapply Rle_trans; [apply H1 | apply Rmax_l]. }
  assert (Hneg : forall q, 0 <= q -> hstep s * q <= 0).
  { intros q Hq. replace 0 with (0 * q) by lra. apply Rmult_le_compat_r; auto. }
  destruct (eqb en zero) eqn:e0.
  - injection H as <- <-. cbn. now apply Hneg.
  - unfold bind, lift in H. destruct (sdiv (safety_factor o) (powT en e)) as [f| |]; injection H as <- <-; auto. cbn.
    rewrite pymin_R, pymax_R. now apply Hneg.
Qed.
Lemma core_fsal_neg fuel : forall A B C norm (o : @options Rops) e rhs (s : @st Rops) r s' n, 0 <= min_factor o -> 0 <= max_factor o -> buf_len (S n) (cache s) ->
  core_fsal (E := E) fuel A B C norm o e rhs s = (r, s') -> hstep s <= 0 -> hstep s' <= 0 /\ now s' <= now s.
Proof.
  induction fuel as [|fuel IH]; intros A B C norm o e rhs s r s' n H1 H2 Hl H Hh; cbn [core_fsal] in H.
  - injection H as <- <-. split; auto. lra.
  - unfold bind in H. destruct (fsal_fixed_step A B C rhs s) as [r1 s1] eqn:e1.
    apply frame_fsal_fixed in e1 as ((F1 & F2 & F3 & F4) & Hty).
    assert (Hn1 : now s1 = now s) by (unfold now; now rewrite F1).
    destruct r1 as [[t y]| |]; try (injection H as <- <-; rewrite F2, ?Hn1; split; lra).
    destruct (Hty t y eq_refl) as [Ht _]. cbn [lift get] in H.
    destruct (norm o y s1) as [en| |]; cbn in H; try (injection H as <- <-; rewrite F2, ?Hn1; split; lra).
    destruct (step_update en o e s1) as [ok s2] eqn:eu.
    pose proof (step_update_frame _ _ _ _ _ _ eu) as (U1 & U2 & U3).
    apply step_update_neg in eu; auto; [|now rewrite F2].
    assert (Hn2 : now s2 = now s) by (unfold now; now rewrite U1, F1).
    destruct ok as [[]| |]; try (injection H as <- <-; rewrite ?Hn2; split; lra).
    + cbn in H. injection H as <- <-. cbn. split; auto.
      assert (now (set_cache (push (cache s2) t y (last (stages s2) [])) s2) = now s + hstep s).
      { unfold now. cbn [cache set_cache]. rewrite U1, F1. rewrite (push_t _ _ _ _ _ Hl). exact Ht. }
      unfold now in *. cbn in *. rewrite H. lra.
    + destruct (IH _ _ _ _ _ _ _ _ _ _ n H1 H2 ltac:(now rewrite U1, F1) H eu) as (I1 & I2).
      rewrite Hn2 in I2. auto.
Qed.
Lemma C88_neg_lemma m fuelc (o : @options Rops) rhs tb (s : @st Rops) x fuel r s' : reachable (E := E) rhs m fuelc o tb s -> is_fixed m = false ->
  0 <= min_factor o -> 0 <= max_factor o -> hstep s <= 0 -> now s <= x ->  @gt_ext Rops x tb = false ->
  step (solver_of (E := E) m fuelc o rhs tb) fuel None (Some (@Fin Rops x)) s <> (Ret r, s').
Proof.
  intros W Hf H1 H2 Hh Hx eb H. apply reachable_wf in W. set (sv := solver_of (E := E) m fuelc o rhs tb) in *.
  rewrite not_lt_upto in H. 2:{ cbn. apply Rltb_false. exact Hx. }
  change (ext_gt (@Fin Rops x) (s_bound sv)) with (@gt_ext Rops x tb) in H. rewrite eb in H.
  destruct (steps_ sv fuel (@Fin Rops x) s) as [[rs| |] s1] eqn:es; try discriminate.
  refine (steps_diverge sv (@Fin Rops x) (fun z => wf m z /\ hstep z <= 0 /\ now z <= x) _ _ fuel s rs s1 _ es).
  - intros z (_ & A & B) Hw. unfold would_pass in Hw. cbn in Hw. apply Rltb_true in Hw. unfold now in *. lra.
  - intros z z' (A & B & C) Hc. pose proof (core_wf m fuelc o rhs z A) as K. cbn in Hc. rewrite Hc in K. cbn in K. split; auto.
    destruct (len_history_pos m) as (k & Hk). pose proof A as (Wx & _). rewrite Hk in Wx.
    assert (K' : hstep z' <= 0 /\ now z' <= now z).
    { destruct m; try discriminate; cbn [core_of] in Hc; exact (core_fsal_neg _ _ _ _ _ _ _ _ _ _ _ _ H1 H2 Wx Hc B). }
    destruct K'. split; [assumption|]. apply Rle_trans with (now z); assumption.
  - auto.
Qed.
End Neg.

(** ** min_factor = 1: a rejected trial is repeated for ever *)
Section Stuck.
Open Scope R_scope.
(** y' = 24 t^2 *)
Definition rhs_sq : @rhs_t Rops := fun t _ => Ret [24 * t * t].
Definition o_stuck : @options Rops := mkopts (atol default_options) (rtol default_options) (min_step default_options) (max_step default_options)
  (@one Rops) (max_factor default_options) (safety_factor default_options).
Lemma stuck_valid : valid_options o_stuck.
Proof. split; [discriminate|]. cbn [atol o_stuck default_options]. apply tol_pos. Qed.
Definition r_stuck : @st Rops :=
  of_outcome (init_var (RungeKutta23 (OT := Rops)) (garb RungeKutta23) rhs_sq (0 : @T Rops) [0] o_stuck (fun _ _ _ => Ret one) (Some (1 : @T Rops))).
Lemma r_stuck_ok : init_var (RungeKutta23 (OT := Rops)) (garb RungeKutta23) rhs_sq (0 : @T Rops) [0] o_stuck (fun _ _ _ => Ret one) (Some (1 : @T Rops)) = Ret r_stuck.
Proof. unfold r_stuck, init_var, init_base. cbn [rhs_sq obind max_step o_stuck]. change (@ltb Rops (atol o_stuck) zero) with (@ltb Rops (atol default_options) zero). rewrite tol_pos. reflexivity. Qed.
Lemma r_stuck_built : built (OT := Rops) (E := ER) rhs_sq RungeKutta23 r_stuck.
Proof. exact (built_var (OT := Rops) (E := ER) _ RungeKutta23 (garb RungeKutta23) 0 [0] o_stuck _ (Some (1 : @T Rops)) _ eq_refl (garb_ok _) r_stuck_ok). Qed.
Lemma r_stuck_data : hstep r_stuck = 1 /\ state r_stuck = [0] /\ now r_stuck = 0 /\ deriv r_stuck = [24 * 0 * 0] /\ dims 1 r_stuck.
Proof.
  pose proof r_stuck_ok as H. unfold init_var, init_base in H. cbn [rhs_sq obind max_step o_stuck] in H. change (@ltb Rops (atol o_stuck) zero) with (@ltb Rops (atol default_options) zero) in H. rewrite tol_pos in H.
  cbn [obind] in H. injection H as <-. repeat split; try reflexivity; repeat constructor.
Qed.
Lemma stuck_attempts l y' f' h' : match @RungeKutta23 Rops with Fsal A B C Ew order _ =>
    ~ attempts rhs_sq A B C (fsal_error o_stuck Ew) o_stuck order 0 [0] [24 * 0 * 0] 1 l y' f' h' | _ => False end.
Proof.
  unfold RungeKutta23. intros H. remember 1 as h eqn:Hh.
  match type of H with attempts _ ?A ?B ?C (fsal_error _ ?W) _ _ _ _ _ _ _ _ _ _ =>
  assert (Err : forall K y1 e, @rk_step Rops rhs_sq A B C 0 [0] [24 * 0 * 0] 1 K y1 ->
     fsal_error o_stuck W [0] y1 1 (K ++ [[24 * (0 + 1) * (0 + 1)]]) e -> 1 < e) end.
  { intros K y1 e H1 H2. destruct H1 as (S1 & ->).
    cbn [skipn litm map lits] in S1. inversion S1 as [|a1 r1 c1 cs1 K1 k1 K1' E1 S1' X1]. subst. inversion S1' as [|a2 r2 c2 cs2 K2 k2 K2' E2 S2' X2]. subst.
    inversion S2'. subst. injection E1 as <-. injection E2 as <-. clear S1 S1' S2'.
    unfold fsal_error in H2. rewrite H2. clear H2. unfold scaled_rms, weighted, Rsum, rk_combine, rk23_B, fsal_E, rk23_B2. 
    cbn. match goal with |- context [Rmax (Rabs ?a) (Rabs ?b)] => replace (Rmax (Rabs a) (Rabs b)) with 8 by (replace a with 8 by field; rewrite Rabs_R0, Rabs_right by lra; symmetry; apply Rmax_left; lra) end.
    match goal with |- _ < sqrt ?x => replace x with ((1000000 / 8001) * (1000000 / 8001)) by field end. rewrite sqrt_square; lra. }
  induction H as [h K y' f' e H1 H2 H3 H4|h K y1 f1 e l y' f' h' H1 H2 H3 H4 H5 IH]; subst h.
  - injection H2 as <-. pose proof (Err _ _ _ H1 H3). destruct H4; lra.
  - apply IH. injection H2 as <-. pose proof (Err _ _ _ H1 H3) as He.
    assert (F1 : factor o_stuck 2 e <= 1) by (apply factor_reject; [lia|cbn [min_factor o_stuck]; rewrite one_R; lra|cbn [safety_factor o_stuck default_options]; rewrite lit_R; cbn; lra|exact H4]).
    assert (F2 : 1 <= factor o_stuck 2 e).
    { rewrite <- one_R at 1. apply (factor_bounds o_stuck 2 e). cbn [min_factor max_factor o_stuck default_options]. rewrite one_R, lit_R. cbn. lra. }
    apply Rle_antisym; lra.
Qed.
Lemma C88_stuck_lemma fuelc fuel r s' : step (solver_of (E := ER) RungeKutta23 fuelc o_stuck rhs_sq PInf) fuel None None r_stuck <> (Ret r, s').
Proof.
  intros H. destruct r_stuck_data as (D1 & D2 & D3 & D4 & D5).
  assert (Ht : took_step (solver_of (E := ER) RungeKutta23 fuelc o_stuck rhs_sq PInf) r_stuck s').
  { destruct r as [|t a|]; [|exists fuel, t, a; exact H|].
    - exfalso. unfold step, bind in H. destruct (step_cases (solver_of (E := ER) RungeKutta23 fuelc o_stuck rhs_sq PInf) PInf r_stuck) as [(W & _)|(_ & K)]; [discriminate|].
      cbn [s_bound solver_of] in H, K. rewrite K in H. destruct (s_core _ r_stuck) as [[[]| |] s1]; discriminate.
    - exfalso. unfold step, bind in H. destruct (step_ _ _ r_stuck) as [[[]| |] s1]; discriminate. }
  destruct (C36_lemma (E := ER) (@RungeKutta23 Rops) fuelc o_stuck rhs_sq PInf 1 _ _ _ _ _ r_stuck s' (var_fsal _ _ _ _ _ _ _)) as (l & Ha & _).
  - split; [reflexivity|discriminate].
  - lia.
  - intros t y f _ Hf. injection Hf as <-. reflexivity.
  - apply reach_built, r_stuck_built.
  - exact D5.
  - exact Ht.
  - rewrite D1, D2, D3, D4 in Ha. exact (stuck_attempts l _ _ _ Ha).
Qed.
End Stuck.
Lemma C88_refuted_lemma : exists (o : @options Rops) rhs g sel s, valid_options o /\ tolerances o /\ garbage_ok RungeKutta23 g /\
  lipschitz 1 0 rhs /\ defined_on 1 rhs /\ init_var (@RungeKutta23 Rops) g rhs 0%R [0%R] o sel (Some 1%R) = Ret s /\
  forall fuelc fuel r s', step (solver_of (E := ER) RungeKutta23 fuelc o rhs PInf) fuel None None s <> (Ret r, s').
Proof.
  exists o_stuck, rhs_sq, (garb RungeKutta23), (fun _ _ _ => Ret one), r_stuck.
  split; [apply stuck_valid|]. split; [unfold tolerances; cbn [atol rtol o_stuck default_options]; rewrite !lit_R; cbn; lra|].
  split; [apply garb_ok|]. split; [|split; [intros t y _; eexists; reflexivity|split; [apply r_stuck_ok|exact C88_stuck_lemma]]].
  split; [apply Rle_refl|]. split; [intros t y f _ Hf; injection Hf as <-; reflexivity|].
  intros t y z u v e _ _ _ Hu Hv. injection Hu as <-. injection Hv as <-. split; [reflexivity|].
  intros i _. rewrite Rminus_eq_0, Rabs_R0. lra.
Qed.
Lemma C88_ex_lemma : exists s, init_var (@RungeKutta23 Rops) (garb RungeKutta23) rhs_sq 0%R [0%R] default_options (fun _ _ _ => Ret one) (Some 0%R) = Ret s /\
  reachable (E := ER) rhs_sq RungeKutta23 0 default_options PInf s /\ hstep s = 0%R /\ now s = 0%R /\
  (0 <= min_factor (@default_options Rops))%R /\ (0 <= max_factor (@default_options Rops))%R.
Proof.
  destruct (C87_valid_lemma (OT := Rops) _ _ _ _ _ _ (garb RungeKutta23) rhs_sq 0%R [0%R] default_options (fun _ _ _ => Ret one) _ (garb_ok RungeKutta23) eq_refl) as (H & _).
  { split; [discriminate|apply tol_pos]. }
  destruct (H 0%R) as (s & H1 & H2 & H3 & H4 & H5). exists s. split; [exact H1|]. split.
  { apply reach_built. exact (built_var (OT := Rops) (E := ER) _ RungeKutta23 (garb RungeKutta23) 0%R [0%R] default_options _ (Some (0%R : @T Rops)) _ eq_refl (garb_ok _) H1). }
  split; [exact H5|]. split; [exact H2|]. cbn [min_factor max_factor default_options]. rewrite !lit_R. cbn. split; lra.
Qed.
