(** The linear test equation. *)
From Coq Require Import List ZArith QArith Bool Arith Lia Reals Lra Qreals.
From Verif Require Import Base Scalar Vec MBuffer MZeros MSteps MApi MDop853 MClasses Laws Spec SpecInst
  PStep PKeeps PCore PHist PBound PVecR SpecRK PDim PRK PTerm SpecMS PMS PMS2 PRK2 PMS3 PMS5 SpecConv PConv1 PConv2 PConv3 SpecStab.
Import ListNotations.
Open Scope R_scope.

Lemma times_len c y : length (times c y) = length y. Proof. apply map_length. Qed.
Lemma times_cmp c y i : cmp i (times c y) = c * cmp i y.
Proof.
  unfold times. destruct (Nat.lt_ge_cases i (length y)) as [H|H].
  - rewrite (nth_indep _ 0 (c * 0)) by now rewrite map_length. exact (map_nth (fun x => c * x) y 0 i).
  - rewrite (nth_overflow y) by exact H. rewrite nth_overflow by now rewrite map_length. lra.
Qed.
Lemma times_times c d y : times c (times d y) = times (c * d) y.
Proof. unfold times. rewrite map_map. apply map_ext. intros a. lra. Qed.
Lemma times_1 y : times 1 y = y.
Proof. unfold times. rewrite <- (map_id y) at 2. apply map_ext. intros a. lra. Qed.
Lemma times_inj c d (y : list R) : c = d -> times c y = times d y. Proof. now intros ->. Qed.

(** stages divided by lam y *)
Fixpoint lin_p (z : R) (rows : list (list R)) (ps : list R) : list R :=
  match rows with [] => ps | a :: r => lin_p z r (ps ++ [1 + z * dot (firstn (length ps) a) ps]) end.
Definition lin_K (lam : R) (y : list R) (ps : list R) : list (list R) := map (fun p => times (lam * p) y) ps.
Lemma lin_K_len lam y ps : Forall (fun k => length k = length y) (lin_K lam y ps).
Proof. apply Forall_forall. intros k H. apply in_map_iff in H as (p & <- & _). apply times_len. Qed.
Lemma dot_lin lam y i ps : forall c, dot c (map (fun k => cmp i k) (lin_K lam y ps)) = lam * dot c ps * cmp i y.
Proof.
  induction ps as [|p ps IH]; intros [|x c]; cbn [lin_K map dot]; try lra. rewrite times_cmp. fold (lin_K lam y ps). rewrite IH. lra.
Qed.
Lemma dot_scale h (B d : list R) : dot (map (Rmult h) B) d = h * dot B d.
Proof. revert d. induction B as [|b B IH]; intros [|x d]; cbn [map dot]; try lra. rewrite IH. lra. Qed.

Lemma lin_stages lam t y h rows cs K K' : stages_of (OT := Rops) (test_equation lam) t y h rows cs K K' ->
  forall ps, K = lin_K lam y ps -> K' = lin_K lam y (lin_p (h * lam) rows ps).
Proof.
  induction 1 as [|a rows c cs K k K' Hk _ IH]; intros ps HK; [exact HK|]. cbn [lin_p]. apply IH. subst K.
  unfold lin_K. rewrite map_app. f_equal. cbn [map]. f_equal. unfold test_equation in Hk. injection Hk as <-.
  change (@length (@T Rops) y) with (@length R y). fold (lin_K lam y ps).
  set (v := @lincomb Rops _ _ _).
  assert (Lv : length v = length y) by (apply lincomb_len, lin_K_len).
  change (times lam (@vadd Rops y (@vscale Rops h v)) = times (lam * (1 + h * lam * dot (firstn (length ps) a) ps)) y).
  apply (vec_ext (length y)).
  - rewrite times_len. apply vadd_len; [reflexivity|]. now apply vscale_len.
  - apply times_len.
  - intros i Hi. rewrite !times_cmp, (vadd_cmp (length y)), vscale_cmp; auto; [|now apply vscale_len].
    unfold v. rewrite (lincomb_cmp (length y)); [|apply lin_K_len|exact Hi]. rewrite dot_lin. match goal with |- context [h * (lam * dot (firstn ?x a) ps * _)] => replace x with (length ps) by (symmetry; apply map_length) end. rring.
Qed.
Lemma lin_step lam A B C t y h K y' : @rk_step Rops (test_equation lam) A B C t y (times lam y) h K y' ->
  y' = times (1 + h * lam * dot B (lin_p (h * lam) (skipn 1 A) [1])) y.
Proof.
  intros (Hs & ->). pose proof (lin_stages _ _ _ _ _ _ _ _ Hs [1]) as HK. rewrite HK.
  2:{ cbn [lin_K map]. now rewrite Rmult_1_r. }
  unfold rk_combine. apply (vec_ext (length y)).
  - apply vadd_len; [reflexivity|]. apply lincomb_len, lin_K_len.
  - apply times_len.
  - intros i Hi. rewrite (vadd_cmp (length y)); auto; [|apply lincomb_len, lin_K_len].
    rewrite (lincomb_cmp (length y)); [|apply lin_K_len|exact Hi].
    change (map (@mul Rops h) B) with (map (Rmult h) B). rewrite dot_scale, dot_lin, times_cmp. rring.
Qed.
Definition rk_factor (A : list (list R)) (B : list R) (f : R -> R) : Prop :=
  forall z, 1 + z * dot B (lin_p z (skipn 1 A) [1]) = f z.
Ltac fac := intros z; cbv [litm]; rewrite ?Rops_lits, ?Rops_over; cbn [map]; rewrite ?Rops_lits, ?Rops_over; cbn [map skipn lin_p length app dot firstn Qnum Qden]; unfold Q2R; cbn [Qnum Qden]; field.
Lemma f_Runge2 : match @Runge2 Rops with Erk A B C => rk_factor A B (fun z => 1 + z + z ^ 2 / 2) | _ => False end.
Proof. cbv [Runge2]. fac. Qed.
Lemma f_Runge3 : match @Runge3 Rops with Erk A B C => rk_factor A B (fun z => 1 + z + z ^ 2 / 2 + z ^ 3 / 6 + z ^ 4 / 12) | _ => False end.
Proof. cbv [Runge3]. fac. Qed.
Lemma f_Heun3 : match @Heun3 Rops with Erk A B C => rk_factor A B (fun z => 1 + z + z ^ 2 / 2 + z ^ 3 / 6) | _ => False end.
Proof. cbv [Heun3]. fac. Qed.
Lemma f_RK4 : match @RungeKutta4 Rops with Erk A B C => rk_factor A B (fun z => 1 + z + z ^ 2 / 2 + z ^ 3 / 6 + z ^ 4 / 24) | _ => False end.
Proof. cbv [RungeKutta4]. fac. Qed.
Lemma f_RK38 : match @RungeKutta3_8 Rops with Erk A B C => rk_factor A B (fun z => 1 + z + z ^ 2 / 2 + z ^ 3 / 6 + z ^ 4 / 24) | _ => False end.
Proof. cbv [RungeKutta3_8]. fac. Qed.
Lemma f_RK23 : match @RungeKutta23 Rops with Fsal A B C _ _ _ => rk_factor A B (fun z => 1 + z + z ^ 2 / 2 + z ^ 3 / 6) | _ => False end.
Proof. cbv [RungeKutta23 rk23_B]. fac. Qed.
Lemma f_RK45 : match @RungeKutta45 Rops with Fsal A B C _ _ _ => rk_factor A B (fun z => 1 + z + z ^ 2 / 2 + z ^ 3 / 6 + z ^ 4 / 24 + z ^ 5 / 120 + z ^ 6 / 600) | _ => False end.
Proof. cbv [RungeKutta45]. fac. Qed.

Lemma lastn_1 {A} (l : list A) d : l <> [] -> lastn 1 l = [last l d].
Proof.
  intros H. destruct (exists_last H) as (l' & x & ->). rewrite last_last. unfold lastn. rewrite app_length. cbn [length].
  replace (length l' + 1 - 1)%nat with (length l') by lia. rewrite skipn_app, skipn_all, Nat.sub_diag. reflexivity.
Qed.
Section Step.
Context {E : @Env Rops}.
Variable lam : R.
Let rhs := test_equation lam.
Lemma test_last m (s : @st Rops) : good rhs m s -> deriv s = times lam (state s).
Proof. intros G. pose proof (good_last _ _ _ G) as H. unfold rhs, test_equation in H. injection H as H. exact (eq_sym H). Qed.
Lemma core_took m fuelc o (s s' : @st Rops) : core_of (E := E) m fuelc o rhs s = (Ret tt, s') -> took_step (solver_of (E := E) m fuelc o rhs PInf) s s'.
Proof. intros Hc. exists 0%nat. eexists. eexists. rewrite step_none by reflexivity. cbn [s_core solver_of]. rewrite Hc. reflexivity. Qed.
Lemma rk_growth m A B C f fuelc o (s s' : @st Rops) : rk_data m = (A, B, C) -> ~ is_multistep m -> length C = length A -> A <> [] -> rk_factor A B f ->
  good rhs m s -> core_of (E := E) m fuelc o rhs s = (Ret tt, s') ->
  exists h, now s' = now s + h /\ state s' = times (f (h * lam)) (state s) /\ (is_fixed m = true -> h = hstep s).
Proof.
  intros Hd Hm HC HA Hf G Hc. destruct (rk_took (E := E) m fuelc o rhs PInf s s' A B C Hd Hm HC HA G (core_took _ _ _ _ _ Hc)) as (h & K & Hs & Ht & _ & Hh & _).
  exists h. split; [exact Ht|]. split; [|exact Hh]. rewrite (test_last m s G) in Hs. apply lin_step in Hs. rewrite Hs. apply times_inj. apply Hf.
Qed.
Lemma growth m f n fuelc o (s s' : @st Rops) : In (m, f) factors -> good rhs m s -> dims n s -> core_of (E := E) m fuelc o rhs s = (Ret tt, s') ->
  exists h, now s' = now s + h /\ state s' = times (f (h * lam)) (state s) /\ (is_fixed m = true -> h = hstep s).
Proof.
  intros Hm G D Hc.
  assert (AB : m = AB1 -> f = (fun z => 1 + z) -> exists h, now s' = now s + h /\ state s' = times (f (h * lam)) (state s) /\ (is_fixed m = true -> h = hstep s)).
  { intros -> ->. exists (hstep s).
    destruct (ab_formula (E := E) rhs n 1 AB1 [1] fuelc o s s') as (Ht & Hl & Hi & _); auto; [cbn; auto|].
    split; [exact Ht|]. split; [|auto]. pose proof (wf_state_dim _ _ _ (proj1 G) D) as Hn.
    apply (vec_ext n); [exact Hl|rewrite times_len; exact Hn|]. intros i Hi'. rewrite (Hi i Hi').
    rewrite (lastn_1 (A := list R) _ []).
    - change (last (fs (cache s)) []) with (deriv s). rewrite (test_last _ _ G). cbn [map dot]. rewrite !times_cmp. rring.
    - destruct (proj1 (proj1 G)) as (_ & _ & Lf). intros Hx. rewrite Hx in Lf. discriminate. }
  unfold factors in Hm.
  apply in_inv in Hm. destruct Hm as [Hm|Hm]; [injection Hm as <- <-; auto|].
  apply in_inv in Hm. destruct Hm as [Hm|Hm]; [injection Hm as <- <-; auto|].
  clear AB.
  apply in_inv in Hm. destruct Hm as [Hm|Hm]; [injection Hm as <- <-; refine (rk_growth Runge2 _ _ _ _ fuelc o s s' eq_refl (fun x => x) eq_refl _ f_Runge2 G Hc); discriminate|].
  apply in_inv in Hm. destruct Hm as [Hm|Hm]; [injection Hm as <- <-; refine (rk_growth Runge3 _ _ _ _ fuelc o s s' eq_refl (fun x => x) eq_refl _ f_Runge3 G Hc); discriminate|].
  apply in_inv in Hm. destruct Hm as [Hm|Hm]; [injection Hm as <- <-; refine (rk_growth Heun3 _ _ _ _ fuelc o s s' eq_refl (fun x => x) eq_refl _ f_Heun3 G Hc); discriminate|].
  apply in_inv in Hm. destruct Hm as [Hm|Hm]; [injection Hm as <- <-; refine (rk_growth RungeKutta4 _ _ _ _ fuelc o s s' eq_refl (fun x => x) eq_refl _ f_RK4 G Hc); discriminate|].
  apply in_inv in Hm. destruct Hm as [Hm|Hm]; [injection Hm as <- <-; refine (rk_growth RungeKutta3_8 _ _ _ _ fuelc o s s' eq_refl (fun x => x) eq_refl _ f_RK38 G Hc); discriminate|].
  apply in_inv in Hm. destruct Hm as [Hm|Hm]; [injection Hm as <- <-; refine (rk_growth RungeKutta23 _ _ _ _ fuelc o s s' eq_refl (fun x => x) eq_refl _ f_RK23 G Hc); discriminate|].
  apply in_inv in Hm. destruct Hm as [Hm|Hm]; [injection Hm as <- <-; refine (rk_growth RungeKutta45 _ _ _ _ fuelc o s s' eq_refl (fun x => x) eq_refl _ f_RK45 G Hc); discriminate|].
  destruct Hm.
Qed.
Lemma growth_implicit m w f fuelc o (s s' : @st Rops) : In (m, w, f) implicit_factors -> good rhs m s -> dims 1 s -> w * (hstep s * lam) <> 1 ->
  core_of (E := E) m fuelc o rhs s = (Ret tt, s') ->
  now s' = now s + hstep s /\ state s' = times (f (hstep s * lam)) (state s).
Proof.
  intros Hm G D Hne Hc. pose proof (core_took _ _ _ _ _ Hc) as St.
  assert (Af : affine1 rhs (fun _ => lam) (fun _ => 0)) by (intros t y; unfold rhs, test_equation; cbn [map]; do 2 f_equal; lra).
  assert (Hn : exists y, state s = [y]). { pose proof (wf_state_dim _ _ _ (proj1 G) D) as Hn. destruct (state s) as [|y [|? ?]]; try discriminate. eauto. }
  destruct Hn as (y & Hy). pose proof (test_last _ _ G) as Hd. rewrite Hy in Hd. cbn [times map] in Hd.
  assert (Ny : ys (cache s) <> [] /\ fs (cache s) <> []).
  { destruct (proj1 (proj1 G)) as (_ & L1 & L2). destruct (len_history_pos m) as (k & Hk). rewrite Hk in L1, L2.
    split; intros Hx; rewrite Hx in *; discriminate. }
  destruct Ny as (Ny & Nf).
  assert (Main : forall a b Bn, m = @ImplMS Rops [a] [b] Bn -> Bn = w -> a = -1 ->
    (1 - hstep s * w * lam) * (f (hstep s * lam) * y) = y + hstep s * (b * (lam * y)) ->
    now s' = now s + hstep s /\ state s' = times (f (hstep s * lam)) (state s)).
  { intros a b Bn -> -> -> Heq.
    destruct (implicit_affine (E := E) [-1] [b] w fuelc o rhs PInf s s' (fun _ => lam) (fun _ => 0) (proj1 G) eq_refl D Af ltac:(cbv beta; intros Hx; apply Hne; lra) St) as (H1 & _ & _ & _ & H5).
    split; [exact H1|]. rewrite Hy. cbn [times map]. apply H5. intros i Hi. rewrite Hy in Hi. cbn [length] in Hi. destruct i as [|i]; [|lia].
    cbn [length]. rewrite (lastn_1 (A := @vec Rops) _ [] Ny), (lastn_1 (A := @vec Rops) _ [] Nf). change (last (ys (cache s)) []) with (state s). change (last (fs (cache s)) []) with (deriv s).
    rewrite Hy, Hd. cbn [map dot nth]. lra. }
  unfold implicit_factors in Hm.
  apply in_inv in Hm. destruct Hm as [Hm|Hm]; [injection Hm as <- <- <-|].
  { refine (Main _ _ _ eq_refl _ _ _); rewrite ?lit_R, ?zero_R; cbn [Qnum Qden]; [lra|lra|field; lra]. }
  apply in_inv in Hm. destruct Hm as [Hm|Hm]; [injection Hm as <- <- <-|].
  { refine (Main _ _ _ eq_refl _ _ _); rewrite ?lit_R, ?zero_R; cbn [Qnum Qden]; [lra|lra|field; lra]. }
  apply in_inv in Hm. destruct Hm as [Hm|Hm]; [injection Hm as <- <- <-|].
  { refine (Main _ _ _ eq_refl _ _ _); rewrite ?lit_R, ?zero_R; cbn [Qnum Qden]; [lra|lra|field; lra]. }
  apply in_inv in Hm. destruct Hm as [Hm|[]]. injection Hm as <- <- <-.
  refine (Main _ _ _ eq_refl _ _ _); rewrite ?lit_R, ?zero_R; cbn [Qnum Qden]; [lra|lra|field; lra].
Qed.

(** the sessions of the fixed step classes *)
Lemma geo_session m c n fuelc o tb fuel cs (s0 s : @st Rops) : is_fixed m = true -> good rhs m s0 -> dims n s0 ->
  (forall x x', good rhs m x -> dims n x -> hstep x = hstep s0 -> core_of (E := E) m fuelc o rhs x = (Ret tt, x') -> state x' = times c (state x)) ->
  s = session (E := E) (solver_of (E := E) m fuelc o rhs tb) fuel cs s0 ->
  exists k, now s = now s0 + INR k * hstep s0 /\ state s = times (c ^ k) (state s0).
Proof.
  intros Hfx G D Hst ->.
  assert (Kd : keeps_dim (OT := Rops) n rhs) by (intros t y v Hl Hv; injection Hv as <-; rewrite map_length; exact Hl).
  apply (session_inv (solver_of (E := E) m fuelc o rhs tb) (fun x => good rhs m x /\ dims n x /\ hstep x = hstep s0 /\
    exists k, now x = now s0 + INR k * hstep s0 /\ state x = times (c ^ k) (state s0))).
  - intros b x _ _ (Gx & Dx & Hx & k & Hk & Hsx). cbn [s_core solver_of].
    pose proof (good_core (OT := Rops) (E := E) rhs m fuelc o x Gx) as G'.
    destruct (core_of m fuelc o rhs x) as [r x'] eqn:e. cbn [snd] in *. split; [exact G'|].
    assert (Err : r <> Ret tt -> dims n x' /\ hstep x' = hstep s0 /\ exists k, now x' = now s0 + INR k * hstep s0 /\ state x' = times (c ^ k) (state s0)).
    { intros Hr. apply core_of_ok in e; [|congruence]. destruct e as (_ & _ & E1 & E2). destruct r as [[]| |]; [congruence| |];
      unfold dims, now, state in *; rewrite E2; (split; [exact Dx|]); (split; [rewrite E1; auto|exists k; auto]). }
    destruct r as [[]|ex|]; [|apply Err; discriminate|apply Err; discriminate]. clear Err.
    destruct (core_fixed_now m fuelc o rhs x x' (proj1 Gx) Hfx e) as (H1 & Hh & _).
    pose proof (Hst x x' Gx Dx Hx e) as H2. change (@add Rops (now x) (hstep x)) with (now x + hstep x) in H1.
    split; [|split; [congruence|]].
    + pose proof (wf_state_dim _ _ _ (proj1 Gx) Dx) as Ln.
      pose proof e as e'. apply core_of_ok in e'; [|congruence]. destruct e' as (_ & _ & _ & t & y & f & (P1 & P2) & _).
      assert (Ey : state x' = y). { unfold state. rewrite P1. destruct (len_history_pos m) as (j & Hj). apply (push_y (S j)). rewrite <- Hj. apply Gx. }
      assert (Ly : length y = n) by (rewrite <- Ey, H2, times_len; exact Ln).
      unfold dims. rewrite P1. apply dims_push; auto. eapply Kd; eauto.
    + exists (S k). rewrite Hx in *. split; [rewrite H1, Hk, S_INR; lra|]. rewrite H2, Hsx, times_times. reflexivity.
  - intros t x (Gx & Dx & Hx & k & Hk & Hsx). pose proof (good_interp rhs m t x Gx) as G'. cbn [s_interp solver_of]. destruct (interp_of m rhs t x) as [r x'] eqn:e. cbn [snd] in *.
    apply interp_of_ok in e as (E1 & E2 & _). split; [exact G'|]. unfold dims, now, state in *. rewrite E1, E2. split; auto. split; auto. exists k. auto.
  - split; auto. split; auto. split; auto. exists 0%nat. cbn [INR pow]. rewrite times_1. split; [lra|reflexivity].
Qed.
Lemma C72_lemma m f n fuelc o tb fuel cs (s0 s : @st Rops) : In (m, f) factors -> is_fixed m = true -> built (E := E) rhs m s0 -> dims n s0 ->
  s = session (E := E) (solver_of (E := E) m fuelc o rhs tb) fuel cs s0 ->
  exists k, now s = now s0 + INR k * hstep s0 /\ state s = times (f (hstep s0 * lam) ^ k) (state s0).
Proof.
  intros Hm Hfx Hb D Hs. eapply geo_session; eauto; [eapply built_good; eauto|].
  intros x x' Gx Dx Hx Hc. destruct (growth m f n fuelc o x x' Hm Gx Dx Hc) as (h & _ & H2 & H3). rewrite H2, (H3 Hfx), Hx. reflexivity.
Qed.
Lemma C72_implicit_lemma m w f fuelc o tb fuel cs (s0 s : @st Rops) : In (m, w, f) implicit_factors -> built (E := E) rhs m s0 -> dims 1 s0 ->
  w * (hstep s0 * lam) <> 1 ->
  s = session (E := E) (solver_of (E := E) m fuelc o rhs tb) fuel cs s0 ->
  exists k, now s = now s0 + INR k * hstep s0 /\ state s = times (f (hstep s0 * lam) ^ k) (state s0).
Proof.
  intros Hm Hb D Hne Hs. eapply geo_session; eauto; [|eapply built_good; eauto|].
  - unfold implicit_factors in Hm. repeat (apply in_inv in Hm; destruct Hm as [Hm|Hm]; [injection Hm as <- _ _; reflexivity|]). destruct Hm.
  - intros x x' Gx Dx Hx Hc. rewrite <- Hx in *. apply (growth_implicit m w f fuelc o x x' Hm Gx Dx Hne Hc).
Qed.
Lemma C72_step_lemma m f n fuelc o tb (s s' : @st Rops) : In (m, f) factors -> reachable (E := E) rhs m fuelc o tb s -> dims n s ->
  took_step (solver_of (E := E) m fuelc o rhs tb) s s' -> state s' = times (f ((now s' - now s) * lam)) (state s).
Proof.
  intros Hm Hr D Hc. apply took_core in Hc. destruct (growth m f n fuelc o s s' Hm (reach_good _ _ _ _ _ _ Hr) D Hc) as (h & H1 & H2 & _).
  rewrite H1, H2. replace (now s + h - now s) with h; [reflexivity|]. lra.
Qed.

Lemma pow_le_1 c k : Rabs c <= 1 -> Rabs (c ^ k) <= 1.
Proof.
  intros H. induction k as [|k IH]; cbn [pow]; [rewrite Rabs_R1; lra|]. rewrite Rabs_mult.
  replace 1 with (1 * 1) by lra. apply Rmult_le_compat; auto; apply Rabs_pos.
Qed.
Lemma times_bound c k y i : Rabs c <= 1 -> Rabs (cmp i (times (c ^ k) y)) <= Rabs (cmp i y).
Proof.
  intros H. rewrite times_cmp, Rabs_mult. rewrite <- (Rmult_1_l (Rabs (cmp i y))) at 2. apply Rmult_le_compat_r; [apply Rabs_pos|now apply pow_le_1].
Qed.
Lemma implicit_le_1 m w f z : In (m, w, f) implicit_factors -> z <= 0 -> w * z <> 1 /\ Rabs (f z) <= 1.
Proof.
  intros Hm Hz.
  assert (B : Rabs (1 / (1 - z)) <= 1).
  { rewrite Rabs_right. - apply (Rmult_le_reg_r (1 - z)); [lra|]. unfold Rdiv. rewrite Rmult_assoc, Rinv_l by lra. lra.
    - apply Rle_ge. unfold Rdiv. rewrite Rmult_1_l. left. apply Rinv_0_lt_compat. lra. }
  unfold implicit_factors in Hm.
  apply in_inv in Hm. destruct Hm as [Hm|Hm]; [injection Hm as <- <- <-; split; [lra|exact B]|].
  apply in_inv in Hm. destruct Hm as [Hm|Hm]; [injection Hm as <- <- <-; split; [lra|exact B]|].
  apply in_inv in Hm. destruct Hm as [Hm|Hm]; [injection Hm as <- <- <-; split; [lra|exact B]|].
  apply in_inv in Hm. destruct Hm as [Hm|[]]. injection Hm as <- <- <-. split; [lra|].
  assert (P : 0 < 1 - z / 2) by lra. set (q := (1 + z / 2) / (1 - z / 2)). assert (Hq : q * (1 - z / 2) = 1 + z / 2) by (unfold q; field; lra).
  apply Rabs_le. split; apply (Rmult_le_reg_r (1 - z / 2)); auto; rewrite Hq; lra.
Qed.
Lemma C72_A_stable_lemma m w f fuelc o tb fuel cs (s0 s : @st Rops) : In (m, w, f) implicit_factors -> built (E := E) rhs m s0 -> dims 1 s0 ->
  hstep s0 * lam <= 0 ->
  s = session (E := E) (solver_of (E := E) m fuelc o rhs tb) fuel cs s0 ->
  forall i, Rabs (cmp i (state s)) <= Rabs (cmp i (state s0)).
Proof.
  intros Hm Hb D Hz Hs i. destruct (implicit_le_1 m w f _ Hm Hz) as (H1 & H2).
  destruct (C72_implicit_lemma m w f fuelc o tb fuel cs s0 s Hm Hb D H1 Hs) as (k & _ & ->). now apply times_bound.
Qed.
Lemma cubic_pos z : - (278 / 100) <= z <= 0 -> 0 <= 1 + z / 2 + z ^ 2 / 6 + z ^ 3 / 24.
Proof.
  intros H. set (a := - (278 / 100)) in *.
  replace (1 + z / 2 + z ^ 2 / 6 + z ^ 3 / 24) with
    ((1 + a / 2 + a ^ 2 / 6 + a ^ 3 / 24) + (z - a) * (1 / 2 + (z + a) / 6 + (z ^ 2 + z * a + a ^ 2) / 24)) by field.
  assert (0 <= 1 + a / 2 + a ^ 2 / 6 + a ^ 3 / 24) by (unfold a; lra).
  assert (0 <= 1 / 2 + (z + a) / 6 + (z ^ 2 + z * a + a ^ 2) / 24) by (unfold a; nra).
  assert (0 <= (z - a) * (1 / 2 + (z + a) / 6 + (z ^ 2 + z * a + a ^ 2) / 24)) by (apply Rmult_le_pos; lra). lra.
Qed.
Lemma q4 z : - (278 / 100) <= z <= 0 -> Rabs (1 + z + z ^ 2 / 2 + z ^ 3 / 6 + z ^ 4 / 24) <= 1.
Proof.
  intros H. pose proof (cubic_pos z H). apply Rabs_le. split; [nra|].
  assert (0 <= - z * (1 + z / 2 + z ^ 2 / 6 + z ^ 3 / 24)) by (apply Rmult_le_pos; lra). lra.
Qed.
Lemma q3 z : - (251 / 100) <= z <= 0 -> Rabs (1 + z + z ^ 2 / 2 + z ^ 3 / 6) <= 1.
Proof.
  intros H. apply Rabs_le. split; [|nra]. set (a := - (251 / 100)) in *.
  assert (0 <= 2 + a + a ^ 2 / 2 + a ^ 3 / 6) by (unfold a; lra).
  assert (0 <= (z - a) * (1 + (z + a) / 2 + (z ^ 2 + z * a + a ^ 2) / 6)) by (apply Rmult_le_pos; [lra|unfold a; nra]). lra.
Qed.
Lemma q34 z : - 2 <= z <= 0 -> Rabs (1 + z + z ^ 2 / 2 + z ^ 3 / 6 + z ^ 4 / 12) <= 1.
Proof.
  intros H. apply Rabs_le. split; [nra|].
  assert (0 <= - z * ((z + 2) * (1 / 2 + z ^ 2 / 12))) by (apply Rmult_le_pos; [lra|apply Rmult_le_pos; nra]). lra.
Qed.
Lemma q2 z : - 2 <= z <= 0 -> Rabs (1 + z + z ^ 2 / 2) <= 1.
Proof. intros H. apply Rabs_le. split; nra. Qed.
Lemma q1 z : - 2 <= z <= 0 -> Rabs (1 + z) <= 1.
Proof. intros H. apply Rabs_le. lra. Qed.
Lemma stable_le_1 m a : In (m, a) stable_for -> exists f, In (m, f) factors /\ is_fixed m = true /\ forall z, - a <= z <= 0 -> Rabs (f z) <= 1.
Proof.
  intros Hm. unfold stable_for in Hm.
  apply in_inv in Hm. destruct Hm as [Hm|Hm]; [injection Hm as <- <-; eexists; split; [left; reflexivity|]; split; [reflexivity|exact q1]|].
  apply in_inv in Hm. destruct Hm as [Hm|Hm]; [injection Hm as <- <-; eexists; split; [right; left; reflexivity|]; split; [reflexivity|exact q1]|].
  apply in_inv in Hm. destruct Hm as [Hm|Hm]; [injection Hm as <- <-; eexists; split; [do 2 right; left; reflexivity|]; split; [reflexivity|exact q2]|].
  apply in_inv in Hm. destruct Hm as [Hm|Hm]; [injection Hm as <- <-; eexists; split; [do 3 right; left; reflexivity|]; split; [reflexivity|exact q34]|].
  apply in_inv in Hm. destruct Hm as [Hm|Hm]; [injection Hm as <- <-; eexists; split; [do 4 right; left; reflexivity|]; split; [reflexivity|exact q3]|].
  apply in_inv in Hm. destruct Hm as [Hm|Hm]; [injection Hm as <- <-; eexists; split; [do 5 right; left; reflexivity|]; split; [reflexivity|exact q4]|].
  apply in_inv in Hm. destruct Hm as [Hm|Hm]; [injection Hm as <- <-; eexists; split; [do 6 right; left; reflexivity|]; split; [reflexivity|exact q4]|].
  destruct Hm.
Qed.
Lemma C72_stable_lemma m a n fuelc o tb fuel cs (s0 s : @st Rops) : In (m, a) stable_for -> built (E := E) rhs m s0 -> dims n s0 ->
  - a <= hstep s0 * lam <= 0 ->
  s = session (E := E) (solver_of (E := E) m fuelc o rhs tb) fuel cs s0 ->
  forall i, Rabs (cmp i (state s)) <= Rabs (cmp i (state s0)).
Proof.
  intros Hm Hb D Hz Hs i. destruct (stable_le_1 m a Hm) as (f & H1 & H2 & H3).
  destruct (C72_lemma m f n fuelc o tb fuel cs s0 s H1 H2 Hb D Hs) as (k & _ & ->). now apply times_bound, H3.
Qed.
(** beyond them the state grows without bound *)
Lemma k_steps m f n fuelc o (s0 : @st Rops) : In (m, f) factors -> is_fixed m = true -> good rhs m s0 -> dims n s0 -> forall k,
  let s := session (E := E) (solver_of (E := E) m fuelc o rhs PInf) 0 (repeat (CStep None None) k) s0 in
  state s = times (f (hstep s0 * lam) ^ k) (state s0).
Proof.
  intros Hm Hfx G D k s.
  assert (Ex : explicit m). { unfold factors in Hm. repeat (apply in_inv in Hm; destruct Hm as [Hm|Hm]; [injection Hm as <- _; first [exact I|discriminate Hfx]|]). destruct Hm. }
  assert (Tot : total rhs) by (intros t y; eexists; reflexivity).
  assert (Kd : keeps_dim (OT := Rops) n rhs) by (intros t y v Hl Hv; injection Hv as <-; rewrite map_length; exact Hl).
  assert (Hsh : shaped m). { unfold factors in Hm. repeat (apply in_inv in Hm; destruct Hm as [Hm|Hm]; [injection Hm as <- _; first [exact I|split; [reflexivity|discriminate]]|]). destruct Hm. }
  unfold s. clear s. revert s0 G D. induction k as [|k IH]; intros s0 G D; [cbn [repeat session pow]; now rewrite times_1|].
  cbn [repeat session exec_call]. rewrite step_none by reflexivity. cbn [s_core solver_of].
  destruct (core_total m fuelc o rhs s0 Tot Ex) as (s1 & Hc). rewrite Hc. cbn [snd].
  destruct (core_fixed_now m fuelc o rhs s0 s1 (proj1 G) Hfx Hc) as (_ & Hh & _).
  pose proof (good_core (OT := Rops) (E := E) rhs m fuelc o s0 G) as G1. rewrite Hc in G1.
  assert (D1 : dims n s1). { apply (core_dim (E := E) n rhs Kd m fuelc o s0 s1); [destruct m; try exact I; destruct Ex|apply G|exact Hsh|exact D|exact Hc]. }
  destruct (growth m f n fuelc o s0 s1 Hm G D Hc) as (h & _ & H2 & H3). rewrite (H3 Hfx) in H2.
  specialize (IH s1 G1 D1). rewrite Hh in IH. cbv zeta in IH. refine (eq_trans IH _). rewrite H2, times_times. apply times_inj. cbn [pow]. lra.
Qed.
Lemma C72_unstable_lemma m f n fuelc o (s0 : @st Rops) i : In (m, f) factors -> is_fixed m = true -> built (E := E) rhs m s0 -> dims n s0 ->
  1 < Rabs (f (hstep s0 * lam)) -> cmp i (state s0) <> 0 ->
  forall M, exists cs, M < Rabs (cmp i (state (session (E := E) (solver_of (E := E) m fuelc o rhs PInf) 0 cs s0))).
Proof.
  intros Hm Hfx Hb D Hf Hi M. destruct (Pow_x_infinity (f (hstep s0 * lam)) Hf ((Rabs M + 1) / Rabs (cmp i (state s0)))) as (k & Hk).
  specialize (Hk k (le_n k)). exists (repeat (CStep None None) k).
  pose proof (k_steps m f n fuelc o s0 Hm Hfx (built_good _ _ _ Hb) D k) as Hs. cbv zeta in Hs. rewrite Hs, times_cmp, Rabs_mult.
  apply Rabs_pos_lt in Hi. apply Rge_le, (Rmult_le_compat_r (Rabs (cmp i (state s0)))) in Hk; [|lra]. unfold Rdiv in Hk. rewrite Rmult_assoc, Rinv_l, Rmult_1_r in Hk by lra.
  pose proof (Rle_abs M) as HM. refine (Rlt_le_trans _ _ _ _ Hk). lra.
Qed.
End Step.
