(** C30: y' = c. *)
From Coq Require Import List ZArith QArith Qreals Bool Arith Lia Reals Lra.
From Verif Require Import Base Scalar Vec MBuffer MZeros MSteps MApi MClasses MDop853 Laws Spec SpecInst
  PStep PCore PHist PBound PVecR SpecRK PRK PDim PDense PFwd Ex PTerm PTop1 SpecZeros PZeros PZeros2 SpecMS PMS PMS2 PRK2 PRK3 PMS3 PMS4.
Import ListNotations.
Open Scope R_scope.

Definition sumR (l : list R) : R := fold_right Rplus 0 l.
Lemma sum_lits l : sumR (@lits Rops l) = Q2R (fold_right Qplus 0%Q l).
Proof.
  induction l as [|q l IH]; [cbn; unfold Q2R; cbn; lra|]. cbn [lits map sumR fold_right]. rewrite Q2R_plus. 
  apply (f_equal2 Rplus); [|exact IH]. exact (lit_R q).
Qed.
Lemma dot_const B c : forall l, length l = length B -> Forall (fun x => x = c) l -> dot B l = sumR B * c.
Proof.
  induction B as [|b B IH]; intros [|x l] L F; try discriminate; cbn; [lra|]. inversion F; subst. rewrite IH by (auto; cbn in *; lia). unfold sumR. cbn. lra.
Qed.

Definition rk_data (m : @meth Rops) : list (list R) * list R * list R :=
  match m with Erk A B C | Fsal A B C _ _ _ | Dop A B C _ _ _ _ _ _ => (A, B, C) | _ => ([], [], []) end.
Lemma rk_sums_spec m w : In (m, w) rk_sums -> exists A B C, rk_data m = (A, B, C) /\ ~ is_multistep m /\
  length C = length A /\ length B = length C /\ A <> [] /\ (exists C', C = 0 :: C') /\ sumR B = w.
Proof.
  intros H. cbn [rk_sums In] in H.
  destruct H as [H|[H|[H|[H|[H|[H|[H|[H|[]]]]]]]]]; injection H as <- <-.
  1-7: cbv [Runge2 Runge3 Heun3 RungeKutta4 RungeKutta3_8 RungeKutta23 RungeKutta45 rk23_B litm rk_data];
    rewrite ?Rops_lits, ?Rops_over, ?lit_R; cbn [map length Qnum Qden]; do 3 eexists; (split; [reflexivity|]);
    (split; [intros []|]); (split; [reflexivity|]); (split; [reflexivity|]); (split; [discriminate|]);
    (split; [eexists; apply f_equal2; [|reflexivity]; lra|]); cbn [sumR fold_right]; lra.
  do 3 eexists. split; [reflexivity|]. split; [intros []|]. split; [reflexivity|]. split; [reflexivity|]. split; [discriminate|].
  split.
  - exists (firstn 11 (skipn 1 (@lits Rops dop_C))). change (firstn 12 (@lits Rops dop_C)) with (@lit Rops 0%Q :: firstn 11 (skipn 1 (@lits Rops dop_C))). 
    f_equal. rewrite lit_R. cbn. lra.
  - unfold dop_B. change (firstn dop_n_stages (@lits Rops (nth dop_n_stages dop_A []))) with (@lits Rops (firstn dop_n_stages (nth dop_n_stages dop_A []))).
    rewrite sum_lits. transitivity (Q2R (1 + (33 # 5000000000000000000000000000000))).
    + apply Qeq_eqR. vm_compute. reflexivity.
    + rewrite Q2R_plus. unfold Q2R. cbn. lra.
Qed.

Section C30.
Context {E : @Env Rops}.
Lemma rk_took m fuelc o rhs tb (s s' : @st Rops) A B C : rk_data m = (A, B, C) -> ~ is_multistep m -> length C = length A -> A <> [] ->
  good rhs m s -> took_step (solver_of (E := E) m fuelc o rhs tb) s s' ->
  exists h K, rk_step (OT := Rops) rhs A B C (now s) (state s) (deriv s) h K (state s') /\ now s' = now s + h /\
    rhs (now s') (state s') = Ret (deriv s') /\ (is_fixed m = true -> h = hstep s) /\
    cache s' = push (cache s) (now s') (state s') (deriv s').
Proof.
  intros ED Hm LC HA (W & En) St. apply took_core in St. cbn [s_core solver_of] in St. destruct W as (Wb & Ws).
  assert (Bl : buf_len 2 (cache s)) by (destruct m; try (exfalso; apply Hm; exact I); exact Wb).
  assert (K : exists h K y f, rk_step (OT := Rops) rhs A B C (now s) (state s) (deriv s) h K y /\
    rhs (@add Rops (now s) h) y = Ret f /\ cache s' = push (cache s) (@add Rops (now s) h) y f /\ (is_fixed m = true -> h = hstep s)).
  { destruct m; try (exfalso; apply Hm; exact I); cbn [core_of rk_data is_fixed] in *; injection ED as -> -> ->; cbn in Ws.
    - apply core_erk_iff in St as (K & y & f & H1 & H2 & ->); auto. exists (hstep s), K, y, f. auto.
    - apply core_fsal_step in St as (h & K & y & f & H1 & H2 & H3 & _); auto; [|rewrite Ws; apply Nat.add_1_r]. exists h, K, y, f.
      split; [exact H1|]. split; [exact H2|]. split; [exact H3|discriminate].
    - apply core_fsal_step in St as (h & K & y & f & H1 & H2 & H3 & _); auto; [|rewrite Ws; apply Nat.add_1_r]. exists h, K, y, f.
      split; [exact H1|]. split; [exact H2|]. split; [exact H3|discriminate]. }
  destruct K as (h & K & y & f & H1 & H2 & H3 & H4). exists h, K.
  assert (Ey : state s' = y) by (unfold state; rewrite H3; now apply (push_y 1)).
  assert (Et : now s' = now s + h) by (unfold now; rewrite H3; now apply (push_t 1)).
  assert (Ef : deriv s' = f) by (unfold deriv; rewrite H3; now apply (push_f 1)).
  rewrite Ey, Et, Ef. auto.
Qed.
Lemma C30_rk_lemma m w c rhs fuelc o tb (s s' : @st Rops) : In (m, w) rk_sums ->
  reachable (E := E) rhs m fuelc o tb s -> dims (length c) s -> constant rhs c ->
  took_step (solver_of (E := E) m fuelc o rhs tb) s s' ->
  length (state s') = length c /\
  forall i, (i < length c)%nat -> cmp i (state s') = cmp i (state s) + w * (now s' - now s) * cmp i c.
Proof.
  intros H G D Hc St. apply reach_good in G.
  destruct (rk_sums_spec _ _ H) as (A & B & C & ED & Hm & LC & LB & HA & (C' & HC) & HS).
  destruct (rk_took m fuelc o rhs tb s s' A B C ED Hm LC HA G St) as (h & K & Hr & Ht & _).
  pose proof (wf_state_dim _ _ _ (proj1 G) D) as Hn.
  pose proof (good_last _ _ _ G) as Hl. pose proof (eq_trans (eq_sym Hl) (Hc _ _)) as Hd. injection Hd as Hd. rewrite Hd in Hr.
  subst C. destruct (rk_time (fun _ => c) rhs A B 0 C' (now s) (state s) h (length c) K (state s') Hc) as (L & Hi); auto.
  split; [exact L|]. intros i Li. rewrite (Hi i Li). rewrite (dot_const B (cmp i c)), HS, Ht.
  - rring.
  - rewrite map_length. symmetry. exact LB.
  - apply Forall_map, Forall_forall. auto.
Qed.

(** recorded derivatives *)
Lemma entries_const rhs c (b : @buffer Rops) : constant rhs c -> entries_ok rhs b -> Forall (fun f => f = c) (fs b).
Proof.
  intros Hc H. unfold entries_ok in H. induction H as [|p f l1 l2 H _ IH]; constructor; auto.
  pose proof (eq_trans (eq_sym H) (Hc _ _)) as e. now injection e.
Qed.
Lemma dot_fs_const rhs m c (s : @st Rops) B i : good rhs m s -> constant rhs c -> (length B <= len_history m)%nat ->
  dot B (map (fun f => cmp i f) (lastn (length B) (fs (cache s)))) = sumR B * cmp i c.
Proof.
  intros (((L1 & L2 & L3) & _) & En) Hc HB. apply dot_const.
  - rewrite map_length. apply lastn_len. exact (eq_ind_r (fun x => (length B <= x)%nat) HB L3).
  - apply Forall_map. unfold lastn. apply Forall_skipn. eapply Forall_impl; [|apply (entries_const rhs c _ Hc En)]. cbn. now intros ? ->.
Qed.
Lemma ab_sum k m bs : In (k, m, bs) ab_table -> sumR bs = 1.
Proof. intros H. cbn [ab_table In] in H. destruct H as [H|[H|[H|[H|[H|[]]]]]]; injection H as <- <- <-; cbn; lra. Qed.
Lemma C30_ab_lemma k m bs c rhs fuelc o tb (s s' : @st Rops) : In (k, m, bs) ab_table ->
  reachable (E := E) rhs m fuelc o tb s -> dims (length c) s -> constant rhs c ->
  took_step (solver_of (E := E) m fuelc o rhs tb) s s' ->
  length (state s') = length c /\
  forall i, (i < length c)%nat -> cmp i (state s') = cmp i (state s) + (now s' - now s) * cmp i c.
Proof.
  intros H G D Hc St. destruct (C27_formula_lemma k m bs rhs fuelc o tb (length c) s s' H G D St) as (Ht & Hl & _ & Hi).
  split; [exact Hl|]. intros i Li. rewrite (Hi i Li). apply reach_good in G.
  destruct (ab_table_spec _ _ _ H) as (A & -> & LA & LB & Hk & EA). pose proof (dot_fs_const rhs _ c s bs i G Hc) as K.
  rewrite LB in K. rewrite K, (ab_sum _ _ _ H), Ht. rring. cbn. unfold ms_len. change (@length (@T Rops) A) with (@length R A). lia.
Qed.

(** Adams-Moulton *)
Lemma am_all_spec m : In m am_all -> exists A B Bn, m = @ImplMS Rops A B Bn /\ length A = length B /\ (0 < length A)%nat /\
  A = repeat 0 (length A - 1) ++ [-1] /\ sumR B + Bn = 1.
Proof.
  intros H. cbn [am_all In] in H. destruct H as [<-|[<-|[<-|[<-|[<-|[]]]]]]; cbv [AM1 AM2 AM3 AM4 AM5 am]; rtidy.
  all: do 3 eexists; (split; [reflexivity|]); (split; [reflexivity|]); cbn [length Qnum Qden]; (split; [lia|]).
  all: (split; [cbn [repeat app Nat.sub]; repeat (apply f_equal2; [lra|]); reflexivity|cbn; lra]).
Qed.
Lemma am_combo A B Bn rhs c fuelc o tb (s : @st Rops) i : length A = length B -> (0 < length A)%nat -> A = repeat 0 (length A - 1) ++ [-1] ->
  reachable (E := E) rhs (@ImplMS Rops A B Bn) fuelc o tb s -> constant rhs c ->
  dot A (map (fun y => cmp i y) (lastn (length A) (ys (cache s)))) = - cmp i (state s) /\
  dot B (map (fun f => cmp i f) (lastn (length B) (fs (cache s)))) = sumR B * cmp i c.
Proof.
  intros LAB LA EA G Hc. apply reach_good in G. destruct (wf_pos _ _ (proj1 G)) as (j & Bl & Lh).
  assert (Lj : (length A <= S j)%nat) by (rewrite <- Lh; cbn; unfold ms_len; apply Nat.le_max_l).
  split; [apply (adams_y A (length A) s j i EA LA Lj Bl)|].
  apply (dot_fs_const rhs (@ImplMS Rops A B Bn) c s B i G Hc). exact (eq_ind _ (fun x => (x <= Nat.max (length A) 2)%nat) (Nat.le_max_l (length A) 2) _ LAB).
Qed.
Lemma C30_am_lemma m c rhs fuelc o tb (s s' : @st Rops) : In m am_all ->
  reachable (E := E) rhs m fuelc o tb s -> dims 1 s -> constant rhs [c] ->
  took_step (solver_of (E := E) m fuelc o rhs tb) s s' ->
  now s' = now s + hstep s /\ state s' = [cmp 0 (state s) + hstep s * c].
Proof.
  intros H G D Hc St. destruct (am_all_spec _ H) as (A & B & Bn & -> & LAB & LA & EA & HS).
  destruct (am_combo A B Bn rhs [c] fuelc o tb s 0 LAB LA EA G Hc) as (C1 & C2).
  pose proof (proj1 (reach_good _ _ _ _ _ _ G)) as W. pose proof (wf_state_dim _ _ _ W D) as Hn.
  assert (Af : affine1 rhs (fun _ => 0) (fun _ => c)) by (intros t y; rewrite (Hc t [y]); f_equal; f_equal; ring).
  destruct (implicit_affine A B Bn fuelc o rhs tb s s' _ _ W LAB D Af) as (Ht & Hl & Pu & Hd & Hu); auto.
  { lra. }
  split; [exact Ht|]. apply Hu. intros i Hi. assert (i = 0%nat) as ->.
  { apply Nat.lt_1_r. exact (eq_ind _ (fun x => (i < x)%nat) Hi _ Hn). }
  match goal with |- ?a + ?x = ?h * (?y + ?z) => replace x with (- cmp 0 (state s)) by (symmetry; exact C1); replace y with (sumR B * nth 0 [c] 0) by (symmetry; exact C2) end.
  cbn [nth]. rewrite Rmult_0_l, Rplus_0_l. replace (hstep s * (sumR B * c + Bn * c)) with (hstep s * ((sumR B + Bn) * c)) by rring.
  rewrite HS. rring.
Qed.
(** in more dimensions a step may not move at all *)
Lemma stall_fixed A B Bn c rhs fuelc o tb (s : @st Rops) : length A = length B -> (0 < length A)%nat ->
  A = repeat 0 (length A - 1) ++ [-1] -> sumR B + Bn = 1 ->
  reachable (E := E) rhs (@ImplMS Rops A B Bn) fuelc o tb s -> dims (length c) s -> length c <> 1%nat -> constant rhs c ->
  norm2 (map (fun x => hstep s * x) c) <= 148 / 10000000000 ->
  @impl_ms_fixed_step Rops E A B Bn rhs (cache s) (hstep s) = Ret (now s + hstep s, state s).
Proof.
  intros LAB LA EA HS G D Hn1 Hc Hsm.
  pose proof (proj1 (reach_good _ _ _ _ _ _ G)) as W. pose proof (wf_state_dim _ _ _ W D) as Hn.
  unfold impl_ms_fixed_step. unfold ysize. change (buf_y (cache s)) with (state s). rewrite Hn.
  destruct (Nat.eqb_spec (length c) 1) as [e|_]; [congruence|].
  match goal with |- context [newton_hd ?F _ _ _ _] => set (func := F) end.
  assert (Fs : func (state s) = Ret (lm_residual A B Bn s (state s) c)).
  { apply (root_residual A B Bn rhs s (length c)); auto. }
  assert (Nr : norm2 (lm_residual A B Bn s (state s) c) <= 148 / 10000000000).
  { refine (Rle_trans _ _ _ (Req_le _ _ _) Hsm). unfold norm2. f_equal. unfold lm_residual. rewrite Hn.
    replace (map (fun x => hstep s * x) c) with (map (fun i => hstep s * cmp i c) (seq 0 (length c))).
    2:{ apply (nth_ext _ _ 0 0); [now rewrite !map_length, seq_length|]. intros i Hi. rewrite map_length, seq_length in Hi.
        rewrite nth_map_sq by exact Hi. symmetry. rewrite (nth_map_lt _ c i 0) by exact Hi. reflexivity. }
    assert (FR : forall (f g : nat -> R) l, (forall i, In i l -> f i = - g i) ->
       fold_right (fun x a => x * x + a) 0 (map f l) = fold_right (fun x a => x * x + a) 0 (map g l)).
    { intros f g l. induction l as [|i l IH]; intros Hfg; [reflexivity|]. cbn [map fold_right]. rewrite IH by (intros; apply Hfg; now right).
      rewrite (Hfg i) by (now left). ring. }
    apply FR. intros i Hi. destruct (am_combo A B Bn rhs c fuelc o tb s i LAB LA EA G Hc) as (C1 & C2).
    match goal with |- ?a + ?x - ?h * (?y + ?z) = _ => replace x with (- cmp i (state s)) by (symmetry; exact C1); replace y with (sumR B * cmp i c) by (symmetry; exact C2) end.
    replace (hstep s * cmp i c) with (hstep s * ((sumR B + Bn) * cmp i c)) by (rewrite HS; rring). rring. }
  unfold newton_hd, newton_hd_impl. rewrite Fs. cbn [obind Nat.add hd_loop].
  assert (Cl : @isclose Rops (@vnorm2 Rops (lm_residual A B Bn s (state s) c)) zero default_tol zero = true).
  { apply vnorm2_close. unfold default_tol. rewrite lit_R. exact Nr. }
  rewrite Cl. reflexivity.
Qed.
Lemma C30_stall_lemma m c rhs fuelc o tb (s s' : @st Rops) : In m am_all ->
  reachable (E := E) rhs m fuelc o tb s -> dims (length c) s -> length c <> 1%nat -> constant rhs c ->
  norm2 (map (fun x => hstep s * x) c) <= 148 / 10000000000 ->
  took_step (solver_of (E := E) m fuelc o rhs tb) s s' ->
  now s' = now s + hstep s /\ state s' = state s.
Proof.
  intros H G D Hn1 Hc Hsm St. destruct (am_all_spec _ H) as (A & B & Bn & -> & LAB & LA & EA & HS).
  pose proof (proj1 (reach_good _ _ _ _ _ _ G)) as W.
  destruct (impl_step_gen A B Bn fuelc o rhs tb s s' (proj1 W) St) as (Ht & Er & Pu & Ei). split; [exact Ht|].
  rewrite (stall_fixed A B Bn c rhs fuelc o tb s) in Ei by auto. injection Ei as Ei. symmetry. exact Ei.
Qed.
Lemma C30_stall_runs m c rhs fuelc o (s : @st Rops) fuel : In m am_all ->
  reachable (E := E) rhs m fuelc o PInf s -> dims (length c) s -> length c <> 1%nat -> constant rhs c ->
  norm2 (map (fun x => hstep s * x) c) <= 148 / 10000000000 ->
  exists (s' : @st Rops) a, step (solver_of (E := E) m fuelc o rhs PInf) fuel None None s = (Ret (@ROne Rops (now s + hstep s) a), s') /\
    now s' = now s + hstep s /\ state s' = state s /\ hstep s' = hstep s /\ dims (length c) s'.
Proof.
  intros H G D Hn1 Hc Hsm. destruct (am_all_spec _ H) as (A & B & Bn & -> & LAB & LA & EA & HS).
  pose proof (stall_fixed A B Bn c rhs fuelc o PInf s LAB LA EA HS G D Hn1 Hc Hsm) as Ef.
  pose proof (proj1 (reach_good _ _ _ _ _ _ G)) as W. pose proof (wf_state_dim _ _ _ W D) as Hn.
  set (s' := set_cache (push (cache s) (now s + hstep s) (state s) c) s).
  assert (Co : s_core (solver_of (E := E) (@ImplMS Rops A B Bn) fuelc o rhs PInf) s = (Ret tt, s')).
  { cbn [s_core solver_of core_of]. unfold core_impl_ms, bind, lift. rewrite Ef.
    match goal with |- context [rhs ?u ?v] => replace (rhs u v) with (@Ret (@vec Rops) c) by (symmetry; apply Hc) end. reflexivity. }
  destruct (wf_pos _ _ W) as (j & (L1 & L2 & L3) & _).
  pose proof (nonnil_len _ _ L1) as N1. pose proof (nonnil_len _ _ L2) as N2. pose proof (nonnil_len _ _ L3) as N3.
  assert (Nn : now s' = now s + hstep s).
  { unfold s', now, buf_t. cbn [cache set_cache]. rewrite push_ts by auto. apply last_last. }
  assert (Ns : state s' = state s).
  { unfold s'. unfold state at 1. unfold buf_y. cbn [cache set_cache]. rewrite push_ys by auto. apply last_last. }
  exists s', (CacheRow (length (ys (cache s')) - 1)). split.
  - rewrite step_none by reflexivity. rewrite Co. cbn [fst snd]. rewrite <- Nn. reflexivity.
  - split; [exact Nn|]. split; [exact Ns|]. split; [reflexivity|]. destruct D as (D1 & D2). unfold s'. split; cbn [cache set_cache].
    + rewrite push_ys by auto. apply Forall_app. split; [now apply Forall_skipn|]. constructor; [exact Hn|constructor].
    + rewrite push_fs by auto. apply Forall_app. split; [now apply Forall_skipn|]. constructor; [reflexivity|constructor].
Qed.


(** BDF without a first stepper *)
Lemma bdf_all_spec k m : In (k, m) bdf_table -> exists A B, m = @ImplMS Rops A B (new_weight m) /\ length A = length B /\ length A = k /\
  sumR A = -1 /\ sumR B = 0 /\ ((2 <= k)%nat -> new_weight m < 1).
Proof.
  intros H. cbn [bdf_table In] in H. destruct H as [H|[H|[H|[H|[H|[H|[]]]]]]]; injection H as <- <-; cbv [BDF1 BDF2 BDF3 BDF4 BDF5 BDF6 bdf new_weight]; rtidy.
  all: do 2 eexists; (split; [reflexivity|]); (split; [reflexivity|]); (split; [reflexivity|]); cbn [Qnum Qden sumR fold_right].
  all: repeat split; try lra; try lia.
Qed.
Lemma iter_same n (c : @buffer Rops) k y0 : buf_len (S k) c -> Forall (fun y => y = y0) (ys c) ->
  Forall (fun y => y = y0) (ys (iterate n (fun c => push c (buf_t c) (buf_y c) (buf_f c)) c)) /\
  buf_len (S k) (iterate n (fun c => push c (buf_t c) (buf_y c) (buf_f c)) c).
Proof.
  revert c. induction n as [|n IH]; intros c L F; cbn [iterate]; [auto|]. apply IH; [now apply push_len|].
  assert (N : ys c <> []) by (destruct L as (_ & L & _); eapply nonnil_len; eauto).
  rewrite push_ys by auto. apply Forall_app. split; [now apply Forall_skipn|]. constructor; [|constructor].
  unfold buf_y. rewrite Forall_forall in F. apply F. destruct (exists_last N) as (l' & x & ->). rewrite last_last. apply in_or_app. right. now left.
Qed.
Lemma C30_bdf_lemma k m g rhs t0 y0 h c fuel fuelc o tb (s s' : @st Rops) : In (k, m) bdf_table ->
  garbage_ok m g -> init_ms (E := E) m g rhs t0 [y0] (Some h) FSNone fuel = Ret s -> constant rhs [c] ->
  took_step (solver_of (E := E) m fuelc o rhs tb) s s' ->
  hstep s = h /\ state s = [y0] /\ state s' = [y0 + new_weight m * h * c].
Proof.
  intros H Hg Hi Hc St. destruct (bdf_all_spec _ _ H) as (A & B & Em & LAB & LA & SA & SB & _).
  set (Bn := new_weight m) in *. clearbody Bn. subst m.
  assert (G : good rhs (@ImplMS Rops A B Bn) s).
  { apply (built_good (E := E)). eapply built_ms; eauto. exact I. }
  unfold init_ms in Hi. destruct (init_base _ g rhs t0 [y0] (Some h)) as [s0| |] eqn:eb; try discriminate. cbn [obind] in Hi.
  apply init_base_spec in eb as (G0 & f & Hf & Hca & Hh0); auto. cbn in Hh0.
  assert (Es : s = set_cache (iterate (len_history (@ImplMS Rops A B Bn) - 1) (fun c => push c (buf_t c) (buf_y c) (buf_f c)) (cache s0)) s0)
    by (destruct (Nat.eqb _ _); injection Hi as <-; reflexivity).
  destruct (wf_pos _ _ (proj1 G0)) as (j & Bl & Lh).
  assert (F : Forall (fun y => y = [y0]) (ys (cache s))).
  { rewrite Es. cbn [cache set_cache]. apply (iter_same _ _ j); auto. rewrite Hca. cbn [ys]. apply Forall_forall. intros x Hx. now apply repeat_spec in Hx. }
  assert (Hs : state s = [y0]).
  { destruct (wf_pos _ _ (proj1 G)) as (j' & (_ & L & _) & _). unfold state, buf_y. rewrite Forall_forall in F. apply F.
    destruct (exists_last (nonnil_len _ _ L)) as (l' & x & ->). rewrite last_last. apply in_or_app. right. now left. }
  split; [rewrite Es; exact Hh0|]. split; [exact Hs|].
  assert (D : dims 1 s).
  { split; [eapply Forall_impl; [|exact F]; now intros ? ->|].
    eapply Forall_impl; [|apply (entries_const rhs [c] _ Hc (proj2 G))]. now intros ? ->. }
  assert (Hh : hstep s = h) by (rewrite Es; exact Hh0).
  assert (Af : affine1 rhs (fun _ => 0) (fun _ => c)) by (intros t y; rewrite (Hc t [y]); f_equal; f_equal; ring).
  destruct (implicit_affine A B Bn fuelc o rhs tb s s' _ _ (proj1 G) LAB D Af) as (Ht & Hl & Pu & Hd & Hu); auto.
  { lra. }
  apply Hu. intros i Hi'. assert (i = 0%nat) as -> by (rewrite Hs in Hi'; cbn in Hi'; lia).
  assert (C1 : dot A (map (fun y => cmp 0 y) (lastn (length A) (ys (cache s)))) = sumR A * y0).
  { apply dot_const.
    - rewrite map_length. apply lastn_len. destruct (wf_pos _ _ (proj1 G)) as (j' & (_ & L & _) & Lh').
      refine (eq_ind_r (fun x => (length A <= x)%nat) _ L). rewrite <- Lh'. cbn. unfold ms_len. apply Nat.le_max_l.
    - apply Forall_map. unfold lastn. apply Forall_skipn. eapply Forall_impl; [|exact F]. now intros ? ->. }
  assert (C2 : dot B (map (fun f => cmp 0 f) (lastn (length B) (fs (cache s)))) = sumR B * c).
  { apply (dot_fs_const rhs (@ImplMS Rops A B Bn) [c] s B 0 G Hc). exact (eq_ind _ (fun x => (x <= Nat.max (length A) 2)%nat) (Nat.le_max_l (length A) 2) _ LAB). }
  match goal with |- ?a + ?x = ?h * (?y + ?z) => replace x with (sumR A * y0) by (symmetry; exact C1); replace y with (sumR B * c) by (symmetry; exact C2) end.
  cbn [nth]. rewrite SA, SB, Hh. rring.
Qed.
End C30.
