(** Exactness of the fixed step Runge-Kutta classes on polynomials, and the
    start-up of the multistep classes. *)
From Coq Require Import List ZArith QArith Bool Arith Lia Reals Lra.
From Verif Require Import Base Scalar Vec MBuffer MZeros MSteps MApi MClasses Laws Spec SpecInst
  PStep PCore PHist PBound PVecR SpecRK PRK PDim PFwd SpecMS PMS PMS2 PRK2.
Import ListNotations.
Open Scope R_scope.

Definition quad_deg (B C : list R) (k : nat) : Prop := forall p t h, degree_le k p ->
  peval p (t + h) = peval p t + h * dot B (map (fun c => peval (pder p) (t + h * c)) C).
Definition quad_meth (m : @meth Rops) (k : nat) : Prop :=
  match m with
  | Erk A B C => length C = length A /\ A <> [] /\ (exists C', C = 0 :: C') /\ quad_deg B C k
  | Fsal A B C _ _ _ | Dop A B C _ _ _ _ _ _ => length C = length A /\ A <> [] /\ (exists C', C = 0 :: C') /\ quad_deg B C k
  | _ => False
  end.
Ltac quad :=
  cbv [quad_meth Runge2 Runge3 Heun3 RungeKutta4 RungeKutta3_8 RungeKutta23 RungeKutta45 rk23_B litm];
  rewrite ?Rops_lits, ?Rops_over, ?lit_R;
  cbn [map length Qnum Qden]; split; [reflexivity|]; split; [discriminate|];
  split; [eexists; apply f_equal2; [|reflexivity]; lra|];
  let p := fresh "p" in let Hp := fresh in
  intros p t h Hp; unfold degree_le in Hp; cbn [map dot];
  repeat (destruct p as [|? p]; [cbn [peval pder pder_from]; field | cbn [length] in Hp; try (exfalso; lia)]).
Lemma Runge2_quad : quad_meth Runge2 2. Proof. quad. Qed.
Lemma Runge3_quad : quad_meth Runge3 3. Proof. quad. Qed.
Lemma Heun3_quad : quad_meth Heun3 3. Proof. quad. Qed.
Lemma RungeKutta4_quad : quad_meth RungeKutta4 4. Proof. quad. Qed.
Lemma RungeKutta3_8_quad : quad_meth RungeKutta3_8 4. Proof. quad. Qed.
Lemma RungeKutta23_quad : quad_meth RungeKutta23 3. Proof. quad. Qed.
Lemma RungeKutta45_quad : quad_meth RungeKutta45 5. Proof. quad. Qed.

Section Quad.
Context {E : @Env Rops}.
Lemma rk_poly (A : list (list R)) (B C : list R) k Ps (rhs : @rhs_t Rops) t y h K y' :
  (exists C', C = 0 :: C') -> quad_deg B C k -> Forall (degree_le k) Ps -> quadrature rhs Ps -> length y = length Ps ->
  rk_step (OT := Rops) rhs A B C t y (slope Ps t) h K y' ->
  length y' = length Ps /\ forall i, (i < length Ps)%nat ->
    cmp i y' - cmp i y = peval (nth i Ps []) (t + h) - peval (nth i Ps []) t.
Proof.
  intros (C' & ->) Q HP Hq Hy H.
  replace (slope Ps t) with (slope Ps (t + h * 0)) in H by (f_equal; ring).
  destruct (rk_time (slope Ps) rhs A B 0 C' t y h (length Ps) K y' Hq) as (L & Hc); auto.
  { intros. apply map_length. }
  split; [exact L|]. intros i Hi. rewrite (Hc i Hi).
  rewrite (dot_map_ext _ (fun c => peval (pder (nth i Ps [])) (t + h * c))) by (intros; apply slope_cmp).
  rewrite (Q (nth i Ps []) t h). 2:{ rewrite Forall_forall in HP. apply HP. now apply nth_In. }
  rring.
Qed.
Lemma erk_poly_step A B C k Ps fuelc o rhs (s s' : @st Rops) : quad_meth (Erk A B C) k ->
  good rhs (Erk A B C) s -> dims (length Ps) s -> quadrature rhs Ps -> Forall (degree_le k) Ps ->
  core_of (E := E) (Erk A B C) fuelc o rhs s = (Ret tt, s') ->
  now s' = now s + hstep s /\ hstep s' = hstep s /\ length (state s') = length Ps /\
  forall i, (i < length Ps)%nat ->
    cmp i (state s') - cmp i (state s) = peval (nth i Ps []) (now s') - peval (nth i Ps []) (now s).
Proof.
  intros (LC & HA & HC & Q) G D Hq HP H. pose proof G as (W & _). pose proof (wf_state_dim _ _ _ W D) as Hn.
  pose proof (good_last _ _ _ G) as Hl. rewrite (Hq _ _) in Hl. injection Hl as Hl.
  cbn [core_of] in H. destruct W as (Wb & Ws). cbn in Ws.
  apply core_erk_iff in H as (K & y' & f' & Hk & Hf & ->); auto.
  rewrite <- Hl in Hk. destruct (rk_poly A B C k Ps rhs _ _ _ K y' HC Q HP Hq Hn Hk) as (L & Hc).
  unfold now, state in *. cbn [cache hstep]. cbn in Wb. rewrite (push_t 1), (push_y 1) by auto.
  split; [reflexivity|]. split; [reflexivity|]. split; [exact L|]. exact Hc.
Qed.

(** ** start-up *)
Definition btracks (k : nat) (Ps : list (list R)) (c : @buffer Rops) (t h : R) : Prop :=
  lastn k (ts c) = map (fun j => t - INR (k - 1 - j) * h) (seq 0 k) /\
  lastn k (ys c) = map (solution Ps) (lastn k (ts c)) /\ lastn k (fs c) = map (slope Ps) (lastn k (ts c)).
Lemma lastn_grow {A} k (l : list A) x n : length l = S n -> (k <= n)%nat ->
  lastn (S k) (skipn 1 l ++ [x]) = lastn k l ++ [x].
Proof.
  intros L H. unfold lastn. rewrite app_length, skipn_length, L. cbn [length].
  replace (S n - 1 + 1 - S k)%nat with (n - k)%nat by lia. rewrite skipn_app, skipn_length, L.
  replace (n - k - (S n - 1))%nat with 0%nat by lia. change (skipn 0 [x]) with [x]. f_equal.
  replace (S n - k)%nat with (S (n - k))%nat by lia. destruct l; [discriminate|]. reflexivity.
Qed.
Lemma btracks_grow k Ps c t h n : buf_len (S n) c -> (k <= n)%nat -> btracks k Ps c t h ->
  btracks (S k) Ps (@push Rops c (t + h) (solution Ps (t + h)) (slope Ps (t + h))) (t + h) h.
Proof.
  intros (L1 & L2 & L3) Hk (Ht & Hy & Hf).
  assert (N1 : ts c <> []) by (eapply nonnil_len; eauto).
  assert (N2 : ys c <> []) by (eapply nonnil_len; eauto).
  assert (N3 : fs c <> []) by (eapply nonnil_len; eauto).
  set (c' := @push Rops c (t + h) (solution Ps (t + h)) (slope Ps (t + h))).
  assert (Et : lastn (S k) (ts c') = lastn k (ts c) ++ [t + h]) by (unfold c'; rewrite push_ts by auto; now apply (lastn_grow k _ _ n)).
  assert (Ey : lastn (S k) (ys c') = lastn k (ys c) ++ [solution Ps (t + h)]) by (unfold c'; rewrite push_ys by auto; now apply (lastn_grow k _ _ n)).
  assert (Ef : lastn (S k) (fs c') = lastn k (fs c) ++ [slope Ps (t + h)]) by (unfold c'; rewrite push_fs by auto; now apply (lastn_grow k _ _ n)).
  split; [|split].
  - rewrite Et, Ht, seq_S, map_app. cbn [map Nat.add]. f_equal.
    + apply map_ext_in. intros j Hj. apply in_seq in Hj. replace (S k - 1 - j)%nat with (S (k - 1 - j))%nat by lia. rewrite S_INR.
      rring.
    + f_equal. replace (S k - 1 - k)%nat with 0%nat by lia. cbn [INR]. rring.
  - rewrite Ey, Et, map_app, Hy. reflexivity.
  - rewrite Ef, Et, map_app, Hf. reflexivity.
Qed.
Lemma loop_tracks rhs A B C d Ps fuel1 o1 : quad_meth (Erk A B C) d -> quadrature rhs Ps -> Forall (degree_le d) Ps ->
  forall n s1 c c' k N, good rhs (Erk A B C) s1 -> dims (length Ps) s1 -> state s1 = solution Ps (now s1) ->
  buf_len (S N) c -> (k + n <= S N)%nat -> btracks k Ps c (now s1) (hstep s1) ->
  fs_fixed_loop n (solver_of (E := E) (Erk A B C) fuel1 o1 rhs PInf) s1 c = Ret c' ->
  btracks (k + n) Ps c' (now s1 + INR n * hstep s1) (hstep s1) /\ buf_len (S N) c'.
Proof.
  intros Q Hq HP. induction n as [|n IH]; intros s1 c c' k N G D Hs Bl Hk Tr H; cbn [fs_fixed_loop] in H.
  - injection H as <-. rewrite Nat.add_0_r. cbn [INR]. rewrite Rmult_0_l, Rplus_0_r. auto.
  - rewrite step_none in H by reflexivity. cbn [s_core solver_of] in H.
    pose proof (good_core rhs (Erk A B C) fuel1 o1 s1 G) as G'.
    destruct (core_of (Erk A B C) fuel1 o1 rhs s1) as [[[]| |] s'] eqn:e; try discriminate. cbn [snd] in G'.
    destruct (erk_poly_step A B C d Ps fuel1 o1 rhs s1 s' Q G D Hq HP e) as (Nt & Nh & Nl & Nc).
    assert (Kd : keeps_dim (length Ps) rhs) by (intros ? ? ? _ er; rewrite Hq in er; injection er as <-; apply map_length).
    assert (D' : dims (length Ps) s').
    { refine (core_dim (length Ps) rhs Kd (Erk A B C) fuel1 o1 s1 s' I (proj1 G) _ D e). destruct Q as (Q1 & Q2 & _). split; auto. }
    assert (Es : state s' = solution Ps (now s')).
    { apply (vec_ext (length Ps)); [exact Nl|apply map_length|]. intros i Hi. specialize (Nc i Hi). rewrite Hs in Nc.
      rewrite solution_cmp in *. match type of Nc with @eq _ ?a ?b => change (@eq R a b) in Nc end. 
      apply (Rplus_eq_reg_r (- peval (nth i Ps []) (now s1))). exact Nc. }
    assert (Ed : deriv s' = slope Ps (now s')).
    { pose proof (good_last _ _ _ G') as Hl. rewrite (Hq _ _) in Hl. now injection Hl. }
    fold (now s') (state s') (deriv s') in H. rewrite Es, Ed in H.
    assert (Tr' : btracks (S k) Ps (@push Rops c (now s') (solution Ps (now s')) (slope Ps (now s'))) (now s') (hstep s')).
    { rewrite Nh, Nt. apply (btracks_grow k Ps c (now s1) (hstep s1) N); auto. lia. }
    destruct (IH s' _ c' (S k) N G' D' Es (push_len _ _ _ _ _ Bl) ltac:(lia) Tr' H) as (IH1 & IH2).
    split; [|exact IH2]. rewrite <- Nat.add_succ_comm. rewrite Nh, Nt in IH1. rewrite S_INR.
    replace (now s1 + (INR n + 1) * hstep s1) with (now s1 + hstep s1 + INR n * hstep s1) by ring. exact IH1.
Qed.
Lemma lastn_rep {A} (x : A) k n : (k <= n)%nat -> lastn k (repeat x n) = repeat x k.
Proof.
  intros H. unfold lastn. rewrite repeat_length. replace n with ((n - k) + k)%nat at 2 by lia.
  rewrite repeat_app, skipn_app, repeat_length, Nat.sub_diag. rewrite skipn_all2 by (rewrite repeat_length; lia). reflexivity.
Qed.
Lemma startup_tracks m g rhs t0 h A B C d Ps fuel1 o1 (s1 s : @st Rops) fuel :
  is_multistep m -> (2 <= ms_order m)%nat -> garbage_ok m g -> quad_meth (Erk A B C) d -> quadrature rhs Ps -> Forall (degree_le d) Ps ->
  good rhs (Erk A B C) s1 -> dims (length Ps) s1 -> now s1 = t0 -> state s1 = solution Ps t0 -> hstep s1 = h ->
  init_ms (E := E) m g rhs t0 (solution Ps t0) (Some h) (FSFixed (fun _ _ _ => Ret (solver_of (E := E) (Erk A B C) fuel1 o1 rhs PInf, s1))) fuel = Ret s ->
  hstep s = h /\ now s = t0 + INR (ms_order m - 1) * h /\ tracks (ms_order m) Ps s.
Proof.
  intros Hm Ho Hg Q Hq HP G D Ht Hs Hh H. unfold init_ms in H.
  destruct (init_base m g rhs t0 (solution Ps t0) (Some h)) as [s0| |] eqn:eb; try discriminate. cbn [obind] in H.
  apply init_base_spec in eb as (G0 & f & Hf & Hc & Hh0); auto. cbn in Hh0. rewrite Hq in Hf. injection Hf as <-.
  destruct (Nat.eqb_spec (ms_order m) 1) as [e|_]; [lia|]. cbn [fst snd] in H.
  destruct (fs_fixed_loop _ _ _ _) as [c'| |] eqn:el; try discriminate. cbn [obind] in H. injection H as <-.
  assert (Lh : len_history m = ms_order m) by (destruct m; try contradiction; apply Nat.max_l; exact Ho).
  destruct (ms_order m) as [|[|q]] eqn:eo; try lia.
  assert (Bl : buf_len (S (S q)) (cache s0)) by (rewrite <- Lh; apply G0).
  assert (Tr : btracks 1 Ps (cache s0) (now s1) (hstep s1)).
  { rewrite Hc, Lh. split; [|split]; cbn [ts ys fs]; rewrite ?lastn_rep by lia; cbn [repeat map seq].
    - rewrite Ht. cbn [INR Nat.sub]. f_equal. rewrite Rmult_0_l. symmetry. exact (Rminus_0_r t0).
    - reflexivity.
    - reflexivity. }
  assert (K1 : state s1 = solution Ps (now s1)) by (now rewrite Ht).
  assert (K2 : (1 + (S (S q) - 1) <= S (S q))%nat) by lia.
  destruct (loop_tracks rhs A B C d Ps fuel1 o1 Q Hq HP (S (S q) - 1) s1 (cache s0) c' 1 (S q) G D K1 Bl K2 Tr el) as (Tr' & Bl').
  replace (1 + (S (S q) - 1))%nat with (S (S q)) in Tr' by lia.
  assert (Nw : buf_t c' = t0 + INR (S (S q) - 1) * h).
  { destruct Tr' as (T1 & _). unfold buf_t. rewrite <- (last_lastn (S (S q))) by (destruct Bl'; lia). rewrite T1, seq_S, map_app.
    cbn [map]. rewrite last_last. replace (S (S q) - 1 - (0 + S q))%nat with 0%nat by lia. cbn [INR]. rewrite Ht, Hh. rring. }
  split; [exact Hh0|]. unfold tracks, now. cbn [cache set_cache hstep]. split; [exact Nw|].
  rewrite Nw, Hh0. rewrite Ht, Hh in Tr'. exact Tr'.
Qed.
Lemma tracks_one Ps (s : @st Rops) n : buf_len (S n) (cache s) -> state s = solution Ps (now s) -> deriv s = slope Ps (now s) ->
  tracks 1 Ps s.
Proof.
  intros (L1 & L2 & L3) Hs Hd.
  assert (K : forall {X} (l : list X) d, length l = S n -> lastn 1 l = [last l d]).
  { intros X l d L. destruct (exists_last (nonnil_len n l L)) as (l' & x & ->). unfold lastn. rewrite app_length in *. cbn [length] in *.
    replace (length l' + 1 - 1)%nat with (length l') by lia. rewrite skipn_app, skipn_all, Nat.sub_diag, last_last. reflexivity. }
  unfold tracks.
  rewrite (K _ (ts (cache s)) (@zero Rops) L1), (K (@vec Rops) (ys (cache s)) [] L2), (K (@vec Rops) (fs (cache s)) [] L3).
  change (last (ts (cache s)) zero) with (now s). change (last (ys (cache s)) []) with (state s). change (last (fs (cache s)) []) with (deriv s).
  cbn [seq map INR Nat.sub]. rewrite Hs, Hd. split; [f_equal; rewrite Rmult_0_l; symmetry; exact (Rminus_0_r (now s))|auto].
Qed.
End Quad.
