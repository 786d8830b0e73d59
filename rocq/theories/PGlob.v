(** Accumulated error of the Adams classes on quadratics. *)
From Coq Require Import List ZArith QArith Bool Arith Lia Reals Lra Qreals.
From Verif Require Import Base Scalar Vec MBuffer MZeros MSteps MApi MDop853 MClasses Laws Spec SpecInst
  PStep PKeeps PCore PHist PBound PVecR SpecRK PDim PRK PTerm SpecMS PMS PMS2 PRK2 PMS3 PMS4 PMS5 PMS6 PMS7 SpecStab PStab SpecGlob.
Import ListNotations.
Open Scope R_scope.

(** the last [k] derivatives are those of [p] *)
Definition ftracks (k : nat) (p : list R) (h : R) (s : @st Rops) : Prop :=
  lastn k (fs (cache s)) = map (fun j => [peval (pder p) (now s - INR (k - 1 - j) * h)]) (seq 0 k).

Lemma ftracks_push k p h s s' n : (0 < k <= S n)%nat -> buf_len (S n) (cache s) -> ftracks k p h s -> pushed s s' ->
  now s' = now s + h -> deriv s' = [peval (pder p) (now s')] -> ftracks k p h s'.
Proof.
  intros Hk (L1 & L2 & L3) Hf P N D. unfold pushed in P. rewrite D in P.
  assert (N3 : fs (cache s) <> []) by (eapply nonnil_len; eauto).
  assert (Fs : fs (cache s') = skipn 1 (fs (cache s)) ++ [[peval (pder p) (now s')]]) by (rewrite P at 1; cbn [cache set_cache]; exact (@push_fs Rops _ _ _ _ N3)).
  assert (Lf : lastn k (fs (cache s')) = skipn 1 (lastn k (fs (cache s))) ++ [[peval (pder p) (now s')]]) by (rewrite Fs; eapply lastn_push; eauto).
  unfold ftracks in *. rewrite Lf, Hf, N. destruct k as [|k]; [lia|]. rewrite skipn_map', skipn_seq, map_seq_shift.
  rewrite (seq_S k 0), map_app. cbn [Nat.add]. rewrite Nat.sub_succ, Nat.sub_0_r. cbn [map]. f_equal.
  - apply map_ext_in. intros j Hj. apply in_seq in Hj.
    replace (k - j)%nat with (S (k - S j))%nat by lia. rewrite S_INR. do 2 f_equal.
    match goal with |- @eq _ ?a ?b => change (@eq R a b) end. ring.
  - do 3 f_equal. rewrite Nat.sub_diag. cbn [INR]. match goal with |- @eq _ ?a ?b => change (@eq R a b) end. ring.
Qed.
Lemma ftracks_of k p h s : tracks k [p] s -> hstep s = h -> ftracks k p h s.
Proof. intros (Ht & _ & Hf) <-. unfold ftracks. rewrite Hf, Ht, map_map. reflexivity. Qed.

(** what the classes of the list have in common *)
Definition adams (m : @meth Rops) (D : R) : Prop :=
  exists (A B : list R) (Bn : R) k, (m = @ExplMS Rops A B /\ Bn = 0 \/ m = @ImplMS Rops A B Bn) /\ A = repeat 0 (k - 1) ++ [-1] /\ length A = k /\ length B = k /\
    (2 <= k)%nat /\ ms_order m = k /\ quad_defect A B Bn D.
Lemma adams_spec m D : In (m, D) adams_defects -> adams m D.
Proof.
  intros H.
  assert (Ab : forall k m bs, In (k, m, bs) ab_table -> (2 <= k)%nat -> adams m (2 * INR k)).
  { clear. intros k m bs H Hk. pose proof (ab_defect _ _ _ H Hk) as Q. destruct (ab_table_spec _ _ _ H) as (A & -> & LA & LB & _ & EA).
    rewrite <- EA in Q. exists A, bs, 0, k. split; [left; split; reflexivity|]. split; [exact EA|]. split; [exact LA|]. split; [exact LB|]. split; [exact Hk|]. split; [|exact Q]. exact LA. }
  assert (Am : In (m, D) am_defects -> adams m D).
  { clear. intros H. cbn [am_defects In] in H. destruct H as [H|[H|[]]]; injection H as <- <-; cbv [AM4 AM5 am]; rtidy;
    do 4 eexists; (split; [right; reflexivity|]).
    - split; [instantiate (1 := 3%nat); cbn [Qnum Qden repeat app Nat.sub]; repeat (apply f_equal2; [lra|]); reflexivity|].
      repeat (split; [reflexivity||(cbn; lia)|]). cbn [Qnum Qden]. defect.
    - split; [instantiate (1 := 4%nat); cbn [Qnum Qden repeat app Nat.sub]; repeat (apply f_equal2; [lra|]); reflexivity|].
      repeat (split; [reflexivity||(cbn; lia)|]). cbn [Qnum Qden]. defect. }
  cbn [adams_defects In] in H. destruct H as [H|[H|[H|[H|H]]]].
  - injection H as <- <-. replace 4 with (2 * INR 2) by (cbn; lra). eapply Ab; [|lia]. cbn [ab_table In]. tauto.
  - injection H as <- <-. replace 6 with (2 * INR 3) by (cbn; lra). eapply Ab; [|lia]. cbn [ab_table In]. tauto.
  - injection H as <- <-. replace 8 with (2 * INR 4) by (cbn; lra). eapply Ab; [|lia]. cbn [ab_table In]. tauto.
  - injection H as <- <-. replace 10 with (2 * INR 5) by (cbn; lra). eapply Ab; [|lia]. cbn [ab_table In]. tauto.
  - apply Am. cbn [am_defects In]. tauto.
Qed.

Section Top.
Context {E : @Env Rops}.
Lemma core_took' rhs m fuelc o (s s' : @st Rops) : core_of (E := E) m fuelc o rhs s = (Ret tt, s') -> took_step (solver_of (E := E) m fuelc o rhs PInf) s s'.
Proof. intros Hc. exists 0%nat. eexists. eexists. rewrite step_none by reflexivity. cbn [s_core solver_of]. rewrite Hc. reflexivity. Qed.
Lemma adams_step m D p rhs fuelc o (s s' : @st Rops) : adams m D -> degree_le 2 p -> quadrature rhs [p] -> good rhs m s -> dims 1 s ->
  ftracks (ms_order m) p (hstep s) s -> core_of (E := E) m fuelc o rhs s = (Ret tt, s') ->
  now s' = now s + hstep s /\ hstep s' = hstep s /\ dims 1 s' /\ ftracks (ms_order m) p (hstep s) s' /\
  cmp 0 (state s') - peval p (now s') = cmp 0 (state s) - peval p (now s) - D * nth 2 p 0 * (hstep s * hstep s).
Proof.
  intros (A & B & Bn & k & Hm & EA & LA & LB & Hk & Ho & Q) HP Hq (W & Gl) Dm Hf Hc. apply core_took' in Hc.
  pose proof (wf_state_dim _ _ _ W Dm) as Hn. destruct (wf_pos _ _ W) as (j & Bl & Lh). rewrite Ho in *.
  assert (Main : now s' = now s + hstep s /\ length (state s') = 1%nat /\ lm_relation A B Bn s (state s') (slope [p] (now s + hstep s)) /\
    deriv s' = [peval (pder p) (now s')] /\ pushed s s').
  { destruct Hm as [(-> & ->) | ->].
    - destruct (expl_step A B fuelc o rhs PInf s s' _ (proj1 W) (eq_trans LA (eq_sym LB)) Dm Hn Hc) as (Ht & Hl & Rel & Er & Pu).
      split; [exact Ht|]. split; [exact Hl|]. split; [|split; [|exact Pu]].
      + intros i Hi. specialize (Rel i Hi). rewrite Rmult_0_l in *. exact Rel.
      + rewrite Hq in Er. injection Er as <-. rewrite Ht. reflexivity.
    - destruct (implicit_affine A B Bn fuelc o rhs PInf s s' _ _ W (eq_trans LA (eq_sym LB)) Dm (quad_affine _ _ Hq)) as (Ht & Hl & Pu & Hd & Hu); auto; [lra|].
      split; [exact Ht|]. split; [exact Hl|]. split; [|split; [|exact Pu]].
      + rewrite (len1 (state s') 0 Hl). pose proof (proj2 (Hu (nth 0 (state s') 0)) (len1 (state s') 0 Hl)) as R0.
        rewrite <- Ht. unfold slope. cbn [map]. intros i Hi. specialize (R0 i Hi). rewrite Rmult_0_l, Rplus_0_l in R0. exact R0.
      + rewrite Hd. f_equal. rring. }
  destruct Main as (Ht & Hl & Rel & Hd & Pu).
  assert (Lj : (k <= S j)%nat).
  { destruct Hm as [(-> & _) | ->]; cbn in Lh; unfold ms_len in Lh; (rewrite (LA : @length (@T Rops) A = k) in Lh || rewrite (LA : @length R A = k) in Lh); lia. }
  split; [exact Ht|]. split; [now rewrite Pu|]. split; [|split].
  - rewrite Pu. unfold dims. cbn [cache set_cache]. apply dims_push; auto. rewrite Hd. reflexivity.
  - apply (ftracks_push k p (hstep s) s s' j); auto; lia.
  - specialize (Rel 0%nat ltac:(rewrite Hn; lia)). rewrite LA, LB in Rel. rewrite (adams_y A k s j 0 EA) in Rel; [|lia|lia|exact Bl].
    unfold ftracks in Hf. rewrite Hf, map_map in Rel. 
    specialize (Q p (now s) (hstep s) HP). rewrite LA, LB in Q.
    assert (Ay : dot A (map (fun i => peval p (now s - INR (k - 1 - i) * hstep s)) (seq 0 k)) = - peval p (now s)).
    { rewrite EA. rewrite dot_adams with (j := (k - 1)%nat) by (rewrite map_length, seq_length; lia).
      f_equal. assert (G : forall q (x h : R), last (map (fun i => peval p (x - INR (q - i) * h)) (seq 0 (S q))) 0 = peval p x).
      { intros q x h. rewrite seq_S, map_app. cbn [map]. rewrite last_last, Nat.add_0_l, Nat.sub_diag. cbn [INR]. f_equal. lra. }
      specialize (G (k - 1)%nat (now s) (hstep s)). replace (S (k - 1)) with k in G by lia. exact G. }
    rewrite Ay in Q. rewrite Ht. cbn [nth slope map] in Rel, Q.
    match type of Rel with _ = ?r => match type of Q with _ - ?q = _ => change q with r in Q; set (X := r) in * end end.
    clearbody X. change (@T Rops) with R in *. lra.
Qed.

Definition drift (p : list R) (D h : R) (s0 x : @st Rops) : Prop :=
  exists n, now x = now s0 + INR n * h /\ length (state x) = 1%nat /\ cmp 0 (state x) = peval p (now x) - INR n * (D * nth 2 p 0 * (h * h)).
Lemma adams_start m D p rhs t0 h (s0 : @st Rops) : adams m D -> degree_le 2 p -> quadrature rhs [p] -> started_rk4 (E := E) rhs m t0 h [peval p t0] s0 ->
  good rhs m s0 /\ dims 1 s0 /\ hstep s0 = h /\ ftracks (ms_order m) p h s0 /\ state s0 = [peval p (now s0)] /\ now s0 = t0 + INR (ms_order m - 1) * h.
Proof.
  intros (A & B & Bn & k & Hm & EA & LA & LB & Hk & Ho & Q) HP Hq Hs.
  assert (Im : is_multistep m) by (destruct Hm as [(-> & _) | ->]; exact I).
  destruct (started_spec rhs m t0 h [p] s0 Im ltac:(lia) Hq) as (Bu & E1 & E2 & Tr & Dm).
  { constructor; [unfold degree_le in *; lia|constructor]. } { exact Hs. }
  pose proof (built_good _ _ _ Bu) as G. destruct (wf_pos _ _ (proj1 G)) as (j & Bl & Lh).
  assert (Lj : (ms_order m <= S j)%nat).
  { rewrite Ho. destruct Hm as [(-> & _) | ->]; cbn in Lh; unfold ms_len in Lh; (rewrite (LA : @length (@T Rops) A = k) in Lh || rewrite (LA : @length R A = k) in Lh); lia. }
  split; [exact G|]. split; [exact Dm|]. split; [exact E1|]. split; [now apply ftracks_of|]. split; [|exact E2].
  refine (eq_trans (proj1 (tracks_now (ms_order m) [p] s0 j _ Bl Tr)) eq_refl). lia.
Qed.
Lemma C73_lemma m D p rhs t0 h fuelc o tb fuel cs (s0 s : @st Rops) : In (m, D) adams_defects -> degree_le 2 p -> quadrature rhs [p] ->
  started_rk4 (E := E) rhs m t0 h [peval p t0] s0 ->
  s = session (E := E) (solver_of (E := E) m fuelc o rhs tb) fuel cs s0 ->
  exists n, now s = t0 + INR (ms_order m - 1 + n) * h /\ state s = [peval p (now s) - D * nth 2 p 0 * h * (INR n * h)].
Proof.
  intros Ha HP Hq Hs0 ->. apply adams_spec in Ha. destruct (adams_start m D p rhs t0 h s0 Ha HP Hq Hs0) as (G0 & D0 & H0 & F0 & S0 & N0).
  enough (X : drift p D h s0 (session (E := E) (solver_of (E := E) m fuelc o rhs tb) fuel cs s0)).
  { destruct X as (n & H1 & H2 & H3). exists n. rewrite plus_INR, Rmult_plus_distr_r, <- Rplus_assoc, <- N0. split; [exact H1|].
    rewrite (len1 _ 0 H2). f_equal. refine (eq_trans H3 _). rring. }
  assert (Fx : is_fixed m = true). { destruct Ha as (A & B & Bn & k & [(-> & _) | ->] & _); reflexivity. }
  apply (session_inv (solver_of (E := E) m fuelc o rhs tb) (fun x => (good rhs m x /\ dims 1 x /\ hstep x = h /\ ftracks (ms_order m) p h x) /\ drift p D h s0 x)).
  - intros b x _ _ ((Gx & Dx & Hx & Tx) & n & Hn & Ln & Hsx). cbn [s_core solver_of].
    pose proof (good_core (OT := Rops) (E := E) rhs m fuelc o x Gx) as G'.
    destruct (core_of m fuelc o rhs x) as [r x'] eqn:e. cbn [snd] in *.
    assert (Err : r <> Ret tt -> (good rhs m x' /\ dims 1 x' /\ hstep x' = h /\ ftracks (ms_order m) p h x') /\ drift p D h s0 x').
    { intros Hr. apply core_of_ok in e; [|congruence]. destruct e as (_ & _ & E1 & E2). destruct r as [[]| |]; [congruence| |];
      unfold dims, drift, ftracks, now, state in *; rewrite E2; (split; [split; [exact G'|split; [exact Dx|split; [rewrite E1; auto|exact Tx]]]|exists n; auto]). }
    destruct r as [[]|ex|]; [|apply Err; discriminate|apply Err; discriminate]. clear Err.
    rewrite <- Hx in *.
    destruct (adams_step m D p rhs fuelc o x x' Ha HP Hq Gx Dx Tx e) as (H1 & H2 & H3 & H4 & H5).
    split; [split; [exact G'|]; split; [exact H3|]; split; [exact H2|exact H4]|]. exists (S n). rewrite S_INR.
    split; [rewrite H1, Hn; rring|]. split; [exact (wf_state_dim _ _ _ (proj1 G') H3)|]. rewrite Hsx in H5.
    match type of H5 with ?a - ?b = _ => apply (Rplus_eq_reg_r (- b)); change (a - b = peval p (now x') - (INR n + 1) * (D * nth 2 p 0 * (hstep x * hstep x)) - b) end. rewrite H5. ring.
  - intros t x ((Gx & Dx & Hx & Tx) & Hd). pose proof (good_interp rhs m t x Gx) as G'. cbn [s_interp solver_of]. destruct (interp_of m rhs t x) as [r x'] eqn:e. cbn [snd] in *.
    apply interp_of_ok in e as (E1 & E2 & _). unfold dims, drift, ftracks, now, state in *. rewrite E1, E2. auto.
  - split; [auto|]. exists 0%nat. cbn [INR]. split; [symmetry; rewrite Rmult_0_l; apply Rplus_0_r|]. rewrite S0. split; [reflexivity|]. cbn [nth]. rring.
Qed.

(** every number of steps can be taken *)
Lemma adams_runs m D p rhs fuelc o (s : @st Rops) : adams m D -> quadrature rhs [p] -> good rhs m s -> dims 1 s ->
  exists s', core_of (E := E) m fuelc o rhs s = (Ret tt, s').
Proof.
  intros (A & B & Bn & k & Hm & EA & LA & LB & Hk & Ho & Q) Hq G Dm.
  assert (X : exists s', took_step (solver_of (E := E) m fuelc o rhs PInf) s s').
  { destruct Hm as [(-> & ->) | ->].
    - apply explicit_runs. intros t y. rewrite Hq. eexists. reflexivity.
    - apply (implicit_affine_runs A B Bn fuelc o rhs s (fun _ => 0) (peval (pder p))); [apply G|congruence|exact Dm|now apply quad_affine|lra]. }
  destruct X as (s' & St). exists s'. apply took_core in St. exact St.
Qed.
Lemma n_steps m D p rhs h fuelc o : adams m D -> degree_le 2 p -> quadrature rhs [p] -> forall n (s : @st Rops), good rhs m s -> dims 1 s -> hstep s = h -> ftracks (ms_order m) p h s ->
  now (session (E := E) (solver_of (E := E) m fuelc o rhs PInf) 0 (repeat (CStep None None) n) s) = now s + INR n * h.
Proof.
  intros Ha HP Hq. induction n as [|n IH]; intros s G Dm Hh Hf; [cbn [repeat session INR]; symmetry; rewrite Rmult_0_l; apply Rplus_0_r|].
  cbn [repeat session exec_call]. rewrite step_none by reflexivity. cbn [s_core solver_of].
  destruct (adams_runs m D p rhs fuelc o s Ha Hq G Dm) as (s1 & Hc). rewrite Hc. cbn [snd].
  pose proof (good_core (OT := Rops) (E := E) rhs m fuelc o s G) as G1. rewrite Hc in G1. rewrite <- Hh in *.
  destruct (adams_step m D p rhs fuelc o s s1 Ha HP Hq G Dm Hf Hc) as (H1 & H2 & H3 & H4 & _).
  cbn [forget]. refine (eq_trans (IH s1 G1 H3 H2 H4) _). rewrite H1, S_INR. rring.
Qed.
Lemma C73_refuted_lemma m D t0 K fuelc o : In (m, D) adams_defects -> exists h0, 0 < h0 /\ forall h, 0 < h < h0 ->
  exists (s0 : @st Rops) cs, let s := session (E := E) (solver_of (E := E) m fuelc o (rhs_poly [[0; 0; 1]]) PInf) 0 cs s0 in
    started_rk4 (E := E) (rhs_poly [[0; 0; 1]]) m t0 h [t0 ^ 2] s0 /\ t0 < now s < t0 + 1 /\ K * h ^ 2 < Rabs (cmp 0 (state s) - now s ^ 2).
Proof.
  intros Hin. assert (Hm := adams_spec _ _ Hin).
  assert (HD : 3 <= D). { cbn [adams_defects In] in Hin. destruct Hin as [H|[H|[H|[H|[H|[H|[]]]]]]]; injection H as _ <-; lra. }
  assert (Ho : (ms_order m - 1 <= 4)%nat /\ is_multistep m /\ (2 <= ms_order m)%nat).
  { cbn [adams_defects In] in Hin. destruct Hin as [H|[H|[H|[H|[H|[H|[]]]]]]]; injection H as <- _; cbn; repeat split; lia. }
  destruct Ho as (Ho & Im & Ho2).
  pose proof (Rle_abs K) as HK. pose proof (Rabs_pos K) as HK0.
  exists (/ (10 + 2 * Rabs K)). split; [apply Rinv_0_lt_compat; lra|]. intros h (Hp & Hh).
  assert (Hh1 : h * (10 + 2 * Rabs K) < 1). { apply (Rmult_lt_compat_r (10 + 2 * Rabs K)) in Hh; [|lra]. rewrite Rinv_l in Hh; lra. }
  assert (Hh2 : h * Rabs K >= 0) by (apply Rle_ge, Rmult_le_pos; lra).
  destruct (started_exists (E := E) m [[0; 0; 1]] t0 h Im Ho2) as (s0 & Hs).
  { constructor; [unfold degree_le; cbn; lia|constructor]. }
  assert (Ex : exists n, 1 / 2 <= INR n * h <= 1 / 2 + h).
  { destruct (archimed (/ (2 * h))) as (A1 & A2). set (z := up (/ (2 * h))) in *.
    assert (Ph : 0 < / (2 * h)) by (apply Rinv_0_lt_compat; lra).
    assert (Hz : (0 <= z)%Z) by (apply le_IZR; lra). exists (Z.to_nat z). rewrite INR_IZR_INZ, Z2Nat.id by exact Hz.
    assert (Eh : / (2 * h) * h = 1 / 2) by (field; lra).
    apply (Rmult_gt_compat_r h) in A1; [|lra]. apply (Rmult_le_compat_r h) in A2; [|lra]. rewrite Rmult_minus_distr_r in A2. lra. }
  destruct Ex as (n & Hn). 
  assert (Hs' : started_rk4 (E := E) (rhs_poly [[0; 0; 1]]) m t0 h [peval [0; 0; 1] t0] s0) by exact Hs.
  assert (Sq : forall x, peval [0; 0; 1] x = x ^ 2) by (intros; cbn; ring).
  assert (HP : degree_le 2 [0; 0; 1]) by (unfold degree_le; cbn; lia).
  destruct (adams_start m D [0; 0; 1] _ t0 h s0 Hm HP (rhs_poly_quad _) Hs') as (G0 & D0 & H0 & F0 & S0 & N0).
  exists s0, (repeat (CStep None None) n). cbv zeta.
  pose proof (n_steps m D [0; 0; 1] _ h fuelc o Hm HP (rhs_poly_quad _) n s0 G0 D0 H0 F0) as Nw.
  destruct (C73_lemma m D [0; 0; 1] (rhs_poly [[0; 0; 1]]) t0 h fuelc o PInf 0 (repeat (CStep None None) n) s0 _ Hin HP (rhs_poly_quad _) Hs' eq_refl) as (n' & Nw' & Sw).
  match type of Nw with now ?x = _ => set (s := x) in * end. clearbody s. split; [rewrite <- Sq; exact Hs'|].
  assert (Hi : 0 <= INR (ms_order m - 1) <= 4). { split; [apply pos_INR|]. replace 4 with (INR 4) by (cbn; lra). now apply le_INR. }
  assert (Hi' : 0 <= INR (ms_order m - 1) * h <= 4 * h) by (split; [apply Rmult_le_pos; lra|apply Rmult_le_compat_r; lra]).
  rewrite N0 in Nw. split; [rewrite Nw; change (@T Rops) with R in *; lra|].
  assert (En : INR n' * h = INR n * h). { rewrite plus_INR in Nw'. change (@T Rops) with R in *. lra. }
  rewrite Sw, Sq, En. cbn [nth].
  replace (now s ^ 2 - D * 1 * h * (INR n * h) - now s ^ 2) with (- (D * h * (INR n * h))) by rring.
  rewrite Rabs_Ropp, Rabs_pos_eq.
  2:{ apply Rmult_le_pos; [apply Rmult_le_pos|]; lra. }
  assert (B1 : 3 * h * (1 / 2) <= D * h * (INR n * h)). { apply Rmult_le_compat; [lra|lra| |lra]. apply Rmult_le_compat_r; lra. }
  assert (B2 : K * h ^ 2 <= h * (h * Rabs K)). { replace (K * h ^ 2) with (h * (h * K)) by ring. apply Rmult_le_compat_l; [lra|]. apply Rmult_le_compat_l; lra. }
  assert (B3 : h * (h * Rabs K) <= h * 1) by (apply Rmult_le_compat_l; lra). lra.
Qed.

(** the classes that have their order stay exact *)
Lemma exact_session m k p rhs a b fuelc o tb fuel cs (s0 s : @st Rops) : exact_meth m k -> is_impl m -> (0 < length (A_of m))%nat ->
  degree_le k p -> affine1 rhs a b -> solves rhs [p] -> built (E := E) rhs m s0 -> dims 1 s0 -> tracks (length (A_of m)) [p] s0 ->
  (forall t, 1 - hstep s0 * new_weight m * a t <> 0) ->
  s = session (E := E) (solver_of (E := E) m fuelc o rhs tb) fuel cs s0 ->
  state s = [peval p (now s)].
Proof.
  intros X Im LA HP Af So Bu D0 T0 Hne ->. pose proof (built_good _ _ _ Bu) as G0.
  assert (Fx : is_fixed m = true) by (destruct m; try contradiction; reflexivity).
  enough (Y : let x := session (E := E) (solver_of (E := E) m fuelc o rhs tb) fuel cs s0 in good rhs m x /\ dims 1 x /\ hstep x = hstep s0 /\ tracks (length (A_of m)) [p] x).
  { cbv zeta in Y. destruct Y as (Gx & _ & _ & Tx). destruct (wf_pos _ _ (proj1 Gx)) as (j & Bl & _). exact (proj1 (tracks_now _ [p] _ j LA Bl Tx)). }
  apply (session_inv (solver_of (E := E) m fuelc o rhs tb) (fun x => good rhs m x /\ dims 1 x /\ hstep x = hstep s0 /\ tracks (length (A_of m)) [p] x)).
  - intros bb x _ _ (Gx & Dx & Hx & Tx). cbn [s_core solver_of].
    pose proof (good_core (OT := Rops) (E := E) rhs m fuelc o x Gx) as G'.
    destruct (core_of m fuelc o rhs x) as [r x'] eqn:e. cbn [snd] in *.
    assert (Err : r <> Ret tt -> good rhs m x' /\ dims 1 x' /\ hstep x' = hstep s0 /\ tracks (length (A_of m)) [p] x').
    { intros Hr. apply core_of_ok in e; [|congruence]. destruct e as (_ & _ & E1 & E2). destruct r as [[]| |]; [congruence| |];
      unfold dims, tracks, now, state in *; rewrite E2; (split; [exact G'|split; [exact Dx|rewrite E1; auto]]). }
    destruct r as [[]|ex|]; [|apply Err; discriminate|apply Err; discriminate]. clear Err. split; [exact G'|].
    destruct (core_fixed_now m fuelc o rhs x x' (proj1 Gx) Fx e) as (_ & Hh & _). apply core_took' in e.
    destruct m; try contradiction; destruct X as (LAB & X); cbn [A_of new_weight] in *.
    assert (Hnx : 1 - hstep x * Bn * a (now x + hstep x) <> 0) by (rewrite Hx; apply Hne).
    destruct (implicit_exact A B Bn k p fuelc o rhs PInf x x' a b (proj1 Gx) LAB LA X HP Dx Af Tx So Hnx e) as (_ & _ & T').
    destruct (implicit_affine A B Bn fuelc o rhs PInf x x' a b (proj1 Gx) LAB Dx Af Hnx e) as (_ & Hl & Pu & Hd & _).
    split; [|split; [congruence|exact T']]. rewrite Pu. unfold dims. cbn [cache set_cache]. apply dims_push; auto. rewrite Hd. reflexivity.
  - intros t x (Gx & Dx & Hx & Tx). pose proof (good_interp rhs m t x Gx) as G'. cbn [s_interp solver_of]. destruct (interp_of m rhs t x) as [r x'] eqn:e. cbn [snd] in *.
    apply interp_of_ok in e as (E1 & E2 & _). unfold dims, tracks, now, state in *. rewrite E1, E2. auto.
  - auto.
Qed.
Lemma C73_exact_lemma k m p rhs a b fuelc o tb fuel cs (s0 s : @st Rops) : In (k, m) (am_table ++ bdf_table) ->
  degree_le k p -> affine1 rhs a b -> solves rhs [p] -> built (E := E) rhs m s0 -> dims 1 s0 -> tracks (length (A_of m)) [p] s0 ->
  (forall t, 1 - hstep s0 * new_weight m * a t <> 0) ->
  s = session (E := E) (solver_of (E := E) m fuelc o rhs tb) fuel cs s0 ->
  state s = [peval p (now s)].
Proof.
  intros Hin. assert (Y : exact_meth m k /\ is_impl m /\ (0 < length (A_of m))%nat).
  { apply in_app_or in Hin as [H|H]; [now apply am_spec|now apply bdf_spec]. }
  destruct Y as (Y1 & Y2 & Y3). now apply exact_session.
Qed.
End Top.
