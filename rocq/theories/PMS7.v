(** Instances of the multistep classes for which the expected orders fail. *)
From Coq Require Import List ZArith QArith Qreals Bool Arith Lia Reals Lra.
From Verif Require Import Base Scalar Vec MBuffer MZeros MSteps MApi MClasses MDop853 Laws Spec SpecInst
  PStep PCore PHist PBound PVecR SpecRK PRK PDim PDense PFwd Ex PTerm PTop1 SpecZeros PZeros PZeros2 SpecMS PMS PMS2 PRK2 PRK3 PMS3 PMS4 PMS5 PMS6.
Import ListNotations.
Open Scope R_scope.

Section S.
Context {E : @Env Rops}.
Lemma reach_built rhs m fuelc o tb (s : @st Rops) : built (E := E) rhs m s -> reachable (E := E) rhs m fuelc o tb s.
Proof. intros H. exists s, 0%nat, []. split; [exact H | reflexivity]. Qed.

Lemma started_spec rhs m t0 h Ps (s : @st Rops) : is_multistep m -> (2 <= ms_order m)%nat -> quadrature rhs Ps -> Forall (degree_le 4) Ps ->
  started_rk4 (E := E) rhs m t0 h (solution Ps t0) s ->
  built (E := E) rhs m s /\ hstep s = h /\ now s = t0 + INR (ms_order m - 1) * h /\ tracks (ms_order m) Ps s /\ dims (length Ps) s.
Proof.
  intros Hm Ho Hq HP (g & g1 & s1 & fuel & fuel1 & o1 & Hg & Hg1 & H1 & Hs).
  assert (B1 : built (OT := Rops) (E := E) rhs RungeKutta4 s1).
  { exact (built_rk (OT := Rops) (E := E) rhs RungeKutta4 g1 t0 (solution Ps t0) (Some h) s1 I Hg1 H1). }
  assert (P1 : now s1 = t0 /\ state s1 = solution Ps t0 /\ hstep s1 = h /\ dims (length Ps) s1).
  { unfold init_rk in H1. apply init_base_spec in H1 as (G0 & f & Hf & Hca & Hh0); [|exact Hg1].
    cbn in Hh0. rewrite (Hq t0 (solution Ps t0)) in Hf. injection Hf as <-.
    unfold now, state, buf_t, buf_y, dims. rewrite Hca. cbn. repeat split; auto; repeat constructor; apply map_length. }
  destruct P1 as (R1 & R2 & R3 & R4).
  assert (Bu : built (E := E) rhs m s).
  { exact (built_ms_fixed (E := E) rhs m g t0 (solution Ps t0) (Some h) fuel s RungeKutta4 s1 fuel1 o1 Hm Hg eq_refl B1 R1 R2 R3 Hs). }
  split; [exact Bu|].
  destruct (startup_tracks (E := E) m g rhs t0 h _ _ _ 4 Ps fuel1 o1 s1 s fuel Hm Ho Hg RungeKutta4_quad
     Hq HP (built_good _ _ _ B1) R4 R1 R2 R3 Hs) as (K1 & K2 & K3).
  split; [exact K1|]. split; [exact K2|]. split; [exact K3|].
  assert (Lh : len_history m = ms_order m) by (destruct m; try contradiction; apply Nat.max_l; exact Ho).
  pose proof (built_good _ _ _ Bu) as (((L1 & L2 & L3) & _) & _). rewrite Lh in *.
  destruct K3 as (_ & Y & F). split.
  - rewrite <- (lastn_all (ys (cache s))), L2, Y. apply Forall_map, Forall_forall. intros. apply map_length.
  - rewrite <- (lastn_all (fs (cache s))), L3, F. apply Forall_map, Forall_forall. intros. apply map_length.
Qed.
Lemma started_exists m Ps t0 h : is_multistep m -> (2 <= ms_order m)%nat -> Forall (degree_le 4) Ps ->
  exists s, started_rk4 (E := E) (rhs_poly Ps) m t0 h (solution Ps t0) s.
Proof.
  intros Hm Ho HP. destruct (startup_exists (E := E) m (garb m) Ps t0 h Hm Ho (garb_ok m) HP) as (s & Hs & _).
  exists s, (garb m), (garb RungeKutta4), (rk4_at Ps t0 h), 0%nat, 0%nat, default_options.
  split; [apply garb_ok|]. split; [apply garb_ok|]. split; [apply of_outcome_ok; reflexivity | exact Hs].
Qed.

Lemma C27_refuted_lemma k m bs t0 h : In (k, m, bs) ab_table -> (2 <= k)%nat -> h <> 0 ->
  exists s s' : @st Rops, started_rk4 (E := E) (rhs_poly [[0; 0; 1]]) m t0 h (solution [[0; 0; 1]] t0) s /\ tracks k [[0; 0; 1]] s /\
    took_step (solver_of (E := E) m 0 default_options (rhs_poly [[0; 0; 1]]) PInf) s s' /\
    now s' = now s + h /\ state s' = [peval [0; 0; 1] (now s') - 2 * INR k * h ^ 2] /\ state s' <> solution [[0; 0; 1]] (now s').
Proof.
  intros H Hk Hh. assert (HP : Forall (degree_le 4) [[0; 0; 1]]) by (constructor; [unfold degree_le; cbn; lia|constructor]).
  assert (Om : is_multistep m /\ ms_order m = k).
  { cbn [ab_table In] in H. destruct H as [H|[H|[H|[H|[H|[]]]]]]; injection H as <- <- <-; split; try exact I; reflexivity. }
  destruct Om as (Hm & Om).
  destruct (started_exists m [[0; 0; 1]] t0 h Hm ltac:(now rewrite Om) HP) as (s & Hs).
  destruct (started_spec _ m t0 h _ s Hm ltac:(now rewrite Om) (rhs_poly_quad _) HP Hs) as (Bu & E1 & E2 & Tr & D). rewrite Om in Tr.
  assert (Ex : exists s' : @st Rops, took_step (solver_of (E := E) m 0 default_options (rhs_poly [[0; 0; 1]]) PInf) s s').
  { destruct (ab_table_spec _ _ _ H) as (A & -> & _). apply explicit_runs. intros t y. eexists. reflexivity. }
  destruct Ex as (s' & St). exists s, s'.
  destruct (C27_defect_lemma k m bs (rhs_poly [[0; 0; 1]]) [[0; 0; 1]] 0 default_options PInf s s' H Hk (reach_built _ _ _ _ _ _ Bu) D) as (En & Ey); auto.
  { constructor; [unfold degree_le; cbn; lia|constructor]. }
  rewrite E1 in *. specialize (Ey 0%nat ltac:(cbn; lia)). cbn [nth] in Ey.
  destruct (C27_formula_lemma k m bs (rhs_poly [[0; 0; 1]]) 0 default_options PInf 1 s s' H (reach_built _ _ _ _ _ _ Bu) D St) as (_ & Hl & _).
  assert (Es : state s' = [peval [0; 0; 1] (now s') - 2 * INR k * h ^ 2]).
  { destruct (state s') as [|x [|]]; try discriminate Hl. cbn in Ey. f_equal. rewrite Ey. cbn. ring. }
  split; [exact Hs|]. split; [exact Tr|]. split; [exact St|]. split; [exact En|]. split; [exact Es|].
  rewrite Es. unfold solution. cbn [map]. intros [= Hx].
  assert (0 < INR k) by (apply lt_0_INR; lia).
  assert (0 < h ^ 2) by (rewrite <- Rsqr_pow2; apply Rsqr_pos_lt; exact Hh).
  assert (0 < 2 * INR k * h ^ 2) by (apply Rmult_lt_0_compat; lra). lra.
Qed.

Lemma C28_refuted_lemma m D t0 h : In (m, D) am_defects -> h <> 0 ->
  exists s s' : @st Rops, started_rk4 (E := E) (rhs_poly [[0; 0; 1]]) m t0 h (solution [[0; 0; 1]] t0) s /\ tracks (length (A_of m)) [[0; 0; 1]] s /\
    took_step (solver_of (E := E) m 0 default_options (rhs_poly [[0; 0; 1]]) PInf) s s' /\
    now s' = now s + h /\ state s' = [peval [0; 0; 1] (now s') - D * h ^ 2] /\ state s' <> solution [[0; 0; 1]] (now s').
Proof.
  intros H Hh. assert (HP : Forall (degree_le 4) [[0; 0; 1]]) by (constructor; [unfold degree_le; cbn; lia|constructor]).
  assert (Om : is_multistep m /\ is_impl m /\ ms_order m = length (A_of m) /\ (2 <= ms_order m)%nat /\ length (A_of m) = length (B_of m) /\ 0 < D).
  { cbn [am_defects In] in H. destruct H as [H|[H|[]]]; injection H as <- <-; repeat split; try reflexivity; try (cbn; lia); lra. }
  destruct Om as (Hm & Im & Om & Ho & LAB & HD).
  destruct (started_exists m [[0; 0; 1]] t0 h Hm Ho HP) as (s & Hs).
  destruct (started_spec _ m t0 h _ s Hm Ho (rhs_poly_quad _) HP Hs) as (Bu & E1 & E2 & Tr & Dm). rewrite Om in Tr.
  assert (Ex : exists s' : @st Rops, took_step (solver_of (E := E) m 0 default_options (rhs_poly [[0; 0; 1]]) PInf) s s').
  { apply (scalar_runs m _ (fun _ => 0) (fun t => peval (pder [0; 0; 1]) t)); auto.
    - now apply reach_built.
    - intros t y. unfold rhs_poly, slope. cbn [map]. do 2 f_equal. ring.
    - lra. }
  destruct Ex as (s' & St). exists s, s'.
  destruct (C28_defect_lemma m D (rhs_poly [[0; 0; 1]]) [0; 0; 1] 0 default_options PInf s s' H (reach_built _ _ _ _ _ _ Bu) Dm) as (En & Ey); auto.
  { unfold degree_le; cbn; lia. } { apply rhs_poly_quad. }
  rewrite E1 in *. cbn [nth] in Ey.
  assert (Es : state s' = [peval [0; 0; 1] (now s') - D * h ^ 2]) by (rewrite Ey; f_equal; cbn; ring).
  split; [exact Hs|]. split; [exact Tr|]. split; [exact St|]. split; [exact En|]. split; [exact Es|].
  rewrite Es. unfold solution. cbn [map]. intros [= Hx].
  assert (0 < h ^ 2) by (rewrite <- Rsqr_pow2; apply Rsqr_pos_lt; exact Hh).
  assert (0 < D * h ^ 2) by (apply Rmult_lt_0_compat; lra). lra.
Qed.

Lemma returns_session sv fuel cs : forall s s' : @st Rops, returns (E := E) sv fuel cs s s' -> session (E := E) sv fuel cs s = s'.
Proof.
  induction cs as [|c cs IH]; intros s s' H; inversion H; subst; [reflexivity|]. cbn [session].
  match goal with H1 : exec_call _ _ _ _ = _ |- _ => rewrite H1 end. cbn [snd]. auto.
Qed.
(** y' = c, started without a first stepper *)
Lemma fsnone_exists m t0 y0 h c : is_multistep m ->
  exists s : @st Rops, init_ms (E := E) m (garb m) (rhs_const c) t0 y0 (Some h) FSNone 0 = Ret s /\ built (E := E) (rhs_const c) m s.
Proof.
  intros Hm.
  assert (Ex : exists s : @st Rops, init_ms (E := E) m (garb m) (rhs_const c) t0 y0 (Some h) FSNone 0 = Ret s).
  { unfold init_ms. cbn [init_base obind rhs_const]. destruct (Nat.eqb _ 1); eauto. }
  destruct Ex as (s & Hs). exists s. split; [exact Hs|]. eapply built_ms; eauto. apply garb_ok.
Qed.
Lemma C30_bdf_refuted_lemma k m t0 y0 h c : In (k, m) bdf_table -> (2 <= k)%nat -> h <> 0 -> c <> 0 ->
  exists s s' : @st Rops, init_ms (E := E) m (garb m) (rhs_const [c]) t0 [y0] (Some h) FSNone 0 = Ret s /\
    took_step (solver_of (E := E) m 0 default_options (rhs_const [c]) PInf) s s' /\ 
    state s' = [y0 + new_weight m * h * c] /\ state s' <> [y0 + h * c].
Proof.
  intros H Hk Hh Hc. destruct (bdf_all_spec _ _ H) as (A & B & Em & LAB & LA & SA & SB & Hw).
  assert (Hm : is_multistep m) by (rewrite Em; exact I).
  destruct (fsnone_exists m t0 [y0] h [c] Hm) as (s & Hs & Bu).
  assert (Dm : dims 1 s).
  { revert Hs. unfold init_ms. destruct (init_base _ _ _ _ _ _) as [s0| |] eqn:eb; try discriminate. cbn [obind].
    apply init_base_spec in eb as (G0 & f & Hf & Hca & _); [|apply garb_ok]. injection Hf as <-.
    assert (D0 : dims 1 s0).
    { split; rewrite Hca; cbn [ys fs]; apply Forall_forall; intros x Hx; apply repeat_spec in Hx; subst x; reflexivity. }
    intros Hs. assert (Es : s = set_cache (iterate (len_history m - 1) (fun c => push c (buf_t c) (buf_y c) (buf_f c)) (cache s0)) s0)
      by (destruct (Nat.eqb _ _); injection Hs as <-; reflexivity).
    destruct (wf_pos _ _ (proj1 G0)) as (j & Bl & _).
    assert (It : forall n (b : @buffer Rops), buf_len (S j) b -> Forall (fun y => length y = 1%nat) (ys b) -> Forall (fun y => length y = 1%nat) (fs b) ->
       let b' := iterate n (fun c => push c (buf_t c) (buf_y c) (buf_f c)) b in
       Forall (fun y => length y = 1%nat) (ys b') /\ Forall (fun y => length y = 1%nat) (fs b')).
    { induction n as [|n IH]; intros b Lb Fy Ff; cbn [iterate]; [split; assumption|]. apply IH; [now apply push_len| |].
      - destruct Lb as (_ & L & _). pose proof (nonnil_len _ _ L) as N. rewrite push_ys by auto. apply Forall_app. split; [now apply Forall_skipn|].
        constructor; [|constructor]. unfold buf_y. rewrite Forall_forall in Fy. apply Fy. destruct (exists_last N) as (l' & x & ->). rewrite last_last. apply in_or_app. right. now left.
      - destruct Lb as (_ & _ & L). pose proof (nonnil_len _ _ L) as N. rewrite push_fs by auto. apply Forall_app. split; [now apply Forall_skipn|].
        constructor; [|constructor]. unfold buf_f. rewrite Forall_forall in Ff. apply Ff. destruct (exists_last N) as (l' & x & ->). rewrite last_last. apply in_or_app. right. now left. }
    rewrite Es. apply It; [exact Bl | apply D0 | apply D0]. }
  assert (Af : affine1 (rhs_const [c]) (fun _ => 0) (fun _ => c)) by (intros t y; unfold rhs_const; f_equal; f_equal; ring).
  destruct (scalar_runs m (rhs_const [c]) (fun _ => 0) (fun _ => c) 0 default_options s) as (s' & St); auto.
  { now rewrite Em. } { rewrite Em. exact LAB. } { now apply reach_built. } { lra. }
  exists s, s'. split; [exact Hs|]. split; [exact St|].
  destruct (C30_bdf_lemma k m (garb m) (rhs_const [c]) t0 y0 h c 0 0 default_options PInf s s' H (garb_ok m) Hs) as (_ & _ & Es); auto.
  { intros t y. reflexivity. }
  split; [exact Es|]. rewrite Es. intros [= Hx]. specialize (Hw Hk).
  assert (X : (1 - new_weight m) * (h * c) = 0).
  { replace ((1 - new_weight m) * (h * c)) with (y0 + h * c - (y0 + new_weight m * h * c)) by ring. rewrite Hx. ring. }
  apply Rmult_integral in X as [X|X]; [lra|]. apply Rmult_integral in X as [X|X]; contradiction.
Qed.

(** AdamsMoulton1 in two dimensions: after any number of steps it has not moved *)
Lemma C30_stall_refuted_lemma (n : nat) :
  exists s0 sn : @st Rops, built (E := E) (rhs_const [1 / 100000000; 0]) AM1 s0 /\ now s0 = 0 /\ state s0 = [0; 0] /\
    returns (E := E) (solver_of (E := E) AM1 0 default_options (rhs_const [1 / 100000000; 0]) PInf) 0 (repeat (CStep None None) n) s0 sn /\
    now sn = INR n /\ state sn = [0; 0].
Proof.
  destruct (fsnone_exists AM1 0 [0; 0] 1 [1 / 100000000; 0] I) as (s0 & Hs & Bu).
  set (c := [1 / 100000000; 0]) in *.
  assert (P0 : now s0 = 0 /\ state s0 = [0; 0] /\ hstep s0 = 1 /\ dims 2 s0).
  { unfold init_ms in Hs. cbn in Hs. injection Hs as <-. cbn. repeat split; repeat constructor. }
  destruct P0 as (P1 & P2 & P3 & P4).
  exists s0. set (sv := solver_of (E := E) AM1 0 default_options (rhs_const c) PInf).
  assert (Hn : norm2 (map (fun x => 1 * x) c) <= 148 / 10000000000).
  { unfold norm2, c. cbn [map fold_right]. replace (1 * (1 / 100000000) * (1 * (1 / 100000000)) + (1 * 0 * (1 * 0) + 0)) with ((1 / 100000000) * (1 / 100000000)) by lra.
    rewrite sqrt_square by lra. lra. }
  assert (Main : forall n, exists sn, returns (E := E) sv 0 (repeat (CStep None None) n) s0 sn /\ now sn = INR n /\ state sn = [0; 0] /\ hstep sn = 1 /\ dims 2 sn).
  { induction n0 as [|k (sk & Rk & K1 & K2 & K3 & K4)].
    - exists s0. split; [constructor|]. auto.
    - destruct (C30_stall_runs AM1 c (rhs_const c) 0 default_options sk 0) as (s' & a & St & S1 & S2 & S3 & S4).
      + now left.
      + exists s0, 0%nat, (repeat (CStep None None) k). split; [exact Bu|]. symmetry. exact (returns_session _ _ _ _ _ Rk).
      + exact K4. + discriminate. + intros t y. reflexivity. + rewrite K3. exact Hn.
      + exists s'. split; [|rewrite S1, S2, S3, K1, K3, S_INR; auto].
        assert (App : forall l s1 s2 s3, returns (E := E) sv 0 l s1 s2 -> exec_call sv 0 (CStep None None) s2 = (Ret tt, s3) -> returns (E := E) sv 0 (l ++ [CStep None None]) s1 s3).
        { clear. induction l as [|x l IH]; intros s1 s2 s3 H1 H2; inversion H1; subst; cbn [app].
          - eapply rts_cons; [exact H2|constructor]. - eapply rts_cons; eauto. }
        replace (repeat (CStep None None) (S k)) with (repeat (@CStep Rops None None) k ++ [CStep None None]).
        2:{ clear. induction k; [reflexivity|]. cbn [repeat app] in *. now rewrite IHk. }
        apply (App _ _ sk); [exact Rk|]. unfold exec_call, bind. unfold sv. rewrite St. reflexivity. }
  destruct (Main n) as (sn & M1 & M2 & M3 & _). exists sn. auto 10.
Qed.
End S.
