(** C89: the rows of the default first stepper limit the order to two. *)
From Coq Require Import List ZArith QArith Bool Arith Lia Reals Lra Classical.
From Verif Require Import Base Scalar Vec MBuffer MZeros MSteps MApi MDop853 MClasses Laws Spec SpecInst
  PStep PKeeps PCore PHist PRun PInterp PBound PVecR SpecRK SpecDense SpecCtl PDim PRK PDense PCtl PC1 PFwd PTerm SpecMS PMS PMS2 PRK2 PRK3 PMS3
  PMS6 SpecOrder SpecConv SpecConv2 SpecConv3 SpecLive SpecVL PConv1 PConv2 PConv3 PConv4 PConv5 PConv6 PConv7 PTop1 Ex PConv9 PConv10 PLmm2 SpecLmm PSolve6.
Import ListNotations.
Open Scope R_scope.

(** sin(90 pi t / H0): zero at every node of RungeKutta45 *)
Definition ripple (w : R) : @rhs_t Rops := fun t _ => Ret [sin (w * t)].
Definition ripple_sol (w t : R) : list R := [(1 - cos (w * t)) / w].

Lemma cos_far z : 0 < z <= 1 -> z ^ 2 / 4 < 1 - cos z.
Proof.
  intros Hz. destruct (pre_cos_bound z 0 ltac:(lra) ltac:(lra)) as (_ & Hc). unfold cos_approx, cos_term in Hc. cbn -[pow] in Hc.
  assert (Hc' : cos z <= 1 - z ^ 2 / 2 + z ^ 4 / 24) by (eapply Rle_trans; [exact Hc|]; right; field).
  assert (0 < z * z) by (apply Rmult_lt_0_compat; lra). assert (z * z <= 1) by nra.
  assert (z * z * (z * z) <= z * z * 1) by (apply Rmult_le_compat_l; lra).
  replace (z ^ 4) with (z * z * (z * z)) in Hc' by ring. replace (z ^ 2) with (z * z) in * by ring. lra.
Qed.

Section Ripple.
Variables (w : R).
Hypothesis Hw : 0 < w.
Definition ripple_D (j : nat) (t : R) : list R := match j with O => ripple_sol w t | S j => [w ^ j * sin (w * t + INR j * (PI / 2))] end.
Lemma lin_lim t c : derivable_pt_lim (fun x => w * x + c) t w.
Proof.
  assert (Q : derivable_pt_lim (fun x => w * x + c) t (w * 1 + 0)); [|rewrite Rmult_1_r, Rplus_0_r in Q; exact Q].
  apply (derivable_pt_lim_plus (fun x => w * x) (fun _ => c)); [|apply derivable_pt_lim_const].
  apply (derivable_pt_lim_scal id). apply derivable_pt_lim_id.
Qed.
Lemma lim_ext f g t l : (forall x, f x = g x) -> derivable_pt_lim f t l -> derivable_pt_lim g t l.
Proof. intros He H e Hp. destruct (H e Hp) as (d & Hd). exists d. intros z Hz Hz'. rewrite <- !He. now apply Hd. Qed.
Lemma ripple_lim j t : derivable_pt_lim (fun x => cmp 0 (ripple_D j x)) t (cmp 0 (ripple_D (S j) t)).
Proof.
  destruct j as [|j]; cbn [ripple_D nth pow].
  - replace (1 * sin (w * t + INR 0 * (PI / 2))) with (/ w * (0 - - sin (w * t + 0) * w)) by (cbn [INR]; rewrite Rmult_0_l; field; lra).
    apply (lim_ext (fun x => / w * (1 - cos (w * x + 0)))); [intros x; unfold ripple_sol; cbn [nth]; rewrite Rplus_0_r; unfold Rdiv; ring|].
    apply (derivable_pt_lim_scal (fun x => 1 - cos (w * x + 0))). apply (derivable_pt_lim_minus (fun _ => 1) (fun x => cos (w * x + 0))); [apply derivable_pt_lim_const|].
    apply (derivable_pt_lim_comp (fun x => w * x + 0) cos); [apply lin_lim|apply derivable_pt_lim_cos].
  - replace (w * w ^ j * sin (w * t + INR (S j) * (PI / 2))) with (w ^ j * (cos (w * t + INR j * (PI / 2)) * w)).
    2:{ rewrite S_INR. replace (w * t + (INR j + 1) * (PI / 2)) with (PI / 2 + (w * t + INR j * (PI / 2))) by ring. rewrite <- cos_sin. ring. }
    apply (derivable_pt_lim_scal (fun x => sin (w * x + INR j * (PI / 2)))).
    apply (derivable_pt_lim_comp (fun x => w * x + INR j * (PI / 2)) sin); [apply lin_lim|apply derivable_pt_lim_sin].
Qed.
Lemma ripple_solution k te : Ck_solution k (ripple w) 1 0 te (ripple_sol w).
Proof.
  exists ripple_D. split; [reflexivity|]. intros t _. split; [|split].
  - unfold ripple, ripple_D. cbn [INR pow]. do 2 f_equal. rewrite Rmult_0_l, Rplus_0_r. ring.
  - intros [|j] _; reflexivity.
  - intros i Hi. destruct i as [|i]; [|lia]. split; [intros j _; apply ripple_lim|]. apply derivable_continuous_pt. exists (cmp 0 (ripple_D (S k) t)). apply ripple_lim.
Qed.
Lemma ripple_lip : lipschitz 1 0 (ripple w).
Proof.
  split; [lra|]. split.
  - intros t u f _ Hf. injection Hf as <-. reflexivity.
  - intros t u v a b e _ _ (_ & _) Ha Hb. injection Ha as <-. injection Hb as <-. split; [reflexivity|]. intros i Hi.
    rewrite Rmult_0_l. unfold Rminus. rewrite Rplus_opp_r, Rabs_R0. lra.
Qed.
Lemma ripple_smooth te : smooth_along (ripple w) 1 0 te (ripple_sol w).
Proof.
  exists (fun _ _ _ => 0), (fun _ _ _ => 0), (fun _ _ _ => 0), 0. intros t _. split.
  - intros i j _ _. split; [apply derivable_pt_lim_const|]. split; [apply derivable_pt_lim_const|]. apply continuity_pt_const. intros x x'. reflexivity.
  - intros z f g e i (Hl & _) Hf Hg Hi. injection Hf as <-. injection Hg as <-. destruct i as [|i]; [|lia]. destruct z as [|z [|z' zs]]; try discriminate.
    cbn. match goal with |- Rabs ?a <= _ => replace a with 0 by ring end. rewrite Rabs_R0. lra.
Qed.
Lemma ripple_start : ripple_sol w 0 = [0].
Proof. unfold ripple_sol. f_equal. rewrite Rmult_0_r, cos_0. field. lra. Qed.
Lemma ripple_far x : 0 < x -> w * x <= 1 -> w / 4 * x ^ 2 < cmp 0 (ripple_sol w x).
Proof.
  intros Hx Hle. unfold ripple_sol. cbn [nth]. assert (0 < w * x) by (now apply Rmult_lt_0_compat). set (z := w * x) in *.
  assert (Hz : z ^ 2 / 4 < 1 - cos z) by (apply cos_far; lra).
  replace (w / 4 * x ^ 2) with (z ^ 2 / 4 * / w) by (unfold z; field; lra). apply Rmult_lt_compat_r; [now apply Rinv_0_lt_compat|exact Hz].
Qed.
End Ripple.

Section Init.
Context {E : @Env Rops}.
(** a right-hand side that vanishes at the nodes of the first step *)
Lemma zero_startup (rhs : @rhs_t Rops) t0 H0 m h : t0 = 0 -> keeps_dim 1 rhs -> total rhs -> (forall q u, rhs (t0 + H0 * (INR q / 90)) u = Ret [0]) -> 0 < H0 -> (2 <= ms_order m <= 6)%nat -> 0 < h < H0 / 8 ->
  exists fs s0, starts_default (E := E) rhs t0 [0] H0 fs /\
    init_ms (E := E) m (garb m) rhs t0 [0] (Some h) fs 1 = Ret s0 /\
    now s0 = INR (ms_order m - 1) * h /\ state s0 = [0].
Proof.
  intros Et0 Hd Htot Hz HH Hk2 Hh.
  assert (Z0 : rhs t0 [0] = Ret [0]).
  { pose proof (Hz 0%nat [0]) as Z. cbn [INR] in Z. unfold Rdiv in Z. rewrite Rmult_0_l, Rmult_0_r, Rplus_0_r in Z. exact Z. }
  assert (Z1 : rhs (t0 + H0) [0] = Ret [0]).
  { pose proof (Hz 90%nat [0]) as Z. replace (INR 90 / 90) with 1 in Z by (rewrite INR_IZR_INZ; cbn; field). rewrite Rmult_1_r in Z. exact Z. }
  assert (ZC : match @RungeKutta45 Rops with Fsal _ _ C _ _ _ => forall c u, In c C -> rhs (t0 + H0 * c) u = Ret [0] | _ => False end).
  { cbn [RungeKutta45]. intros c u Hc. unfold lits in Hc. cbn [map] in Hc. rewrite !lit_R in Hc. cbn [QArith_base.Qnum QArith_base.Qden] in Hc.
    assert (exists q, c = INR q / 90) as (q & ->); [|apply Hz].
    repeat (destruct Hc as [<-|Hc]); try (destruct Hc).
    - exists 0%nat. cbn. field.
    - exists 18%nat. rewrite INR_IZR_INZ. cbn. field.
    - exists 27%nat. rewrite INR_IZR_INZ. cbn. field.
    - exists 72%nat. rewrite INR_IZR_INZ. cbn. field.
    - exists 80%nat. rewrite INR_IZR_INZ. cbn. field.
    - exists 90%nat. rewrite INR_IZR_INZ. cbn. field. }
  assert (G45 := @garb_ok Rops RungeKutta45).
  destruct default_sane as (Hs & H1 & H2).
  destruct (@RungeKutta45 Rops) as [| | |A B C Ew order P|] eqn:em; try discriminate.
  assert (Hsh : length C = length A /\ A <> []) by (injection em as <- <- <- <- <- <-; split; [reflexivity|discriminate]).
  assert (Hor : (0 <= order)%Z) by (injection em as <- <- <- <- <- <-; lia).
  destruct (init_fsal A B C Ew order P (garb (@Fsal Rops A B C Ew order P)) rhs t0 [0] [0] H0 Z0 G45) as (s1 & I1 & I2 & I3).
  destruct (init_var_fresh _ _ _ _ _ _ _ _ _ G45 eq_refl I1) as (N1 & N2 & N3 & _).
  assert (N4 : deriv s1 = [0]) by (assert (Q := eq_trans (eq_sym N3) Z0); now injection Q).
  assert (Tid : tidy A B C Ew order P rhs 1 s1).
  { apply (built_tidy (E := E)); auto.
    - exact (built_var (E := E) rhs (@Fsal Rops A B C Ew order P) _ t0 [0] _ _ None s1 eq_refl G45 I1).
    - now rewrite N2.
    - lra. }
  pose proof (zero_attempts rhs t0 H0 0 A B C Ew default_options order (proj1 Hsh) ZC Z1) as Ha.
  destruct (zero_step rhs t0 H0 0 A B C (proj1 Hsh) ZC) as (K & HK & HK0).
  exists (FSVar (fun _ _ => Ret (solver_of (E := E) (@Fsal Rops A B C Ew order P) 1 default_options rhs PInf, s1))).
  pose proof (@starts_rk45 E rhs t0 [0] H0 (garb (@Fsal Rops A B C Ew order P)) (fun _ _ _ => Ret H0) s1 1%nat) as St. rewrite em in St.
  specialize (St G45 I1 I2).
  unfold init_ms. destruct (init_base m (garb m) rhs t0 [0] (Some h)) as [s0| |] eqn:eb.
  2,3: (unfold init_base in eb; rewrite Z0 in eb; discriminate).
  apply init_base_spec in eb as (G & f & _ & Hc & Hh0); [|apply garb_ok].
  cbn [obind]. remember (ms_order m) as k eqn:Ek. destruct (Nat.eqb_spec k 1) as [|_]; [lia|]. cbn [fst snd]. cbn in Hh0. rewrite Hh0.
  destruct k as [|[|k']]; try lia. replace (S (S k') - 1)%nat with (S k') by lia.
  set (times := map (fun i => @mul Rops (@ofnat Rops i) h) (seq 1 (S k'))).
  assert (Ft : Forall (fun t : R => now s1 < t < now s1 + last_h [(H0, 0)]) times).
  { unfold times. apply Forall_forall. intros t Hin. apply in_map_iff in Hin as (i & <- & Hin). apply in_seq in Hin. rewrite ofnat_R.
    unfold last_h. cbn [last fst]. rewrite N1, Et0. change (0 < INR i * h < 0 + H0). assert (1 <= INR i) by (change 1 with (INR 1); apply le_INR; lia).
    assert (INR i <= 5) by (replace 5 with (INR 5) by (cbn; lra); apply le_INR; lia). assert (0 <= INR i) by apply pos_INR. nra. }
  assert (So : is_sorted times = true) by (apply times_sorted; lra).
  assert (Tcons : exists ti ts, times = ti :: ts) by (unfold times; cbn [seq map]; eauto). destruct Tcons as (ti & ts & Et).
  destruct (fresh_run (E := E) A B C Ew order P 1 default_options rhs 1 Hsh Hd Hs Hor s1 [(H0, 0)] [0] [0] (H0 * factor default_options order 0) K 1 ti ts Tid I3) as (s' & Hr).
  - rewrite N1, N2, N4, I2. exact Ha.
  - cbn. lia.
  - lia.
  - rewrite N1, N2, N4. exact HK.
  - exact HH.
  - rewrite <- Et. exact Ft.
  - rewrite <- Et. exact So.
  - rewrite <- Et in Hr.
    assert (Em : map (fun t => (t, rk_dense P (now s1) (state s1) (last_h [(H0, 0)]) (K ++ [[0]]) t)) times = map (fun t => (t, [0])) times).
    { apply map_ext. intros t. rewrite N2. apply (f_equal (pair t)). apply zero_dense. apply Forall_app. auto. }
    assert (Hr' := eq_trans Hr (f_equal (fun z => (Ret z, s')) Em)). clear Hr.
    destruct (len_history_pos m) as (N & HN). pose proof G as ((Bl & _) & _). rewrite HN in Bl.
    destruct (push_const rhs [0] Htot times (cache s0) (S N) Bl) as (c' & P1 & P2 & P3).
    { unfold buf_y. rewrite Hc. cbn [MBuffer.ys]. apply last_repeat. rewrite HN. lia. }
    exists (set_cache c' s0). split; [exact St|]. 
    replace (run _ _ _ _) with (@Ret (list (@T Rops * @vec Rops)) (map (fun t => (t, [0])) times), s') by (symmetry; exact Hr').
    replace (fs_push_all _ _ _) with (@Ret (@buffer Rops) c') by (symmetry; exact P1). split; [reflexivity|]. unfold now, state. cbn [cache set_cache]. split; [|exact P2].
    rewrite P3. unfold times. rewrite seq_S, map_app. cbn [map]. rewrite last_last, ofnat_R. reflexivity.
Qed.

Lemma C89_refuted_lemma H0 : 0 < H0 -> exists rhs te y c h0, 0 < te /\ 0 < c /\ 0 < h0 /\ lipschitz 1 0 rhs /\ (forall k, Ck_solution k rhs 1 0 te y) /\ smooth_along rhs 1 0 te y /\
  forall k m h, In (k, m) (am_table ++ bdf_table) -> (3 <= k)%nat -> 0 < h <= h0 ->
  exists g fs s0 fuel0, garbage_ok m g /\ starts_default (E := E) rhs 0 (y 0) H0 fs /\ init_ms (E := E) m g rhs 0 (y 0) (Some h) fs fuel0 = Ret s0 /\
    now s0 <= te /\ ~ near (c * h ^ 2) (state s0) (y (now s0)).
Proof.
  intros HH. pose proof PI_RGT_0 as Hpi. set (w := 90 * PI / H0). assert (Hw : 0 < w) by (unfold w; apply Rdiv_lt_0_compat; lra).
  assert (Pw : 0 < / (5 * w)) by (apply Rinv_0_lt_compat; lra).
  exists (ripple w), H0, (ripple_sol w), (w / 4), (Rmin (H0 / 16) (/ (5 * w))). split; [exact HH|]. split; [lra|]. split; [apply Rmin_glb_lt; lra|].
  split; [apply ripple_lip|]. split; [intros k; now apply ripple_solution|]. split; [apply ripple_smooth|].
  intros k m h Hm Hk Hh. pose proof (Rmin_l (H0 / 16) (/ (5 * w))). pose proof (Rmin_r (H0 / 16) (/ (5 * w))).
  assert (Ho : (2 <= ms_order m <= 6)%nat) by (clear - Hm Hk; cbn in Hm; repeat (destruct Hm as [Hm|Hm]; [injection Hm as <- <-; cbn; lia|]); destruct Hm).
  destruct (zero_startup (ripple w) 0 H0 m h eq_refl) as (fs & s0 & S1 & S2 & S3 & S4); auto; try lra.
  - apply ripple_lip.
  - intros t u. eexists. reflexivity.
  - intros q u. unfold ripple. do 2 f_equal. replace (w * (0 + H0 * (INR q / 90))) with (0 + INR q * PI) by (unfold w; field; lra). rewrite Rplus_0_l, INR_IZR_INZ. apply sin_eq_0_1. now exists (Z.of_nat q).
  - exists (garb m), fs, s0, 1%nat. rewrite (ripple_start w Hw). split; [apply garb_ok|]. split; [exact S1|]. split; [exact S2|].
    assert (I5 : 1 <= INR (ms_order m - 1) <= 5).
    { split; [change 1 with (INR 1)|replace 5 with (INR 5) by (cbn; lra)]; apply le_INR; lia. }
    split; [rewrite S3; change (INR (ms_order m - 1) * h <= H0); nra|].
    intros (_ & Hn). rewrite S4 in Hn. specialize (Hn 0%nat ltac:(cbn; lia)). rewrite S3 in Hn. set (x := INR (ms_order m - 1) * h) in *.
    assert (Hx : h <= x) by (unfold x; nra).
    assert (Wx : w * x <= 1). { apply Rle_trans with (w * (5 * h)); [apply Rmult_le_compat_l; [lra|unfold x; nra]|]. assert (Q5 : h * (5 * w) <= / (5 * w) * (5 * w)) by (apply Rmult_le_compat_r; lra). rewrite Rinv_l in Q5 by lra. lra. }
    pose proof (ripple_far w Hw x ltac:(lra) Wx) as Q. cbn [nth] in Hn. revert Hn Q. generalize (cmp 0 (ripple_sol w x)). intros z Hn Q.
    assert (h ^ 2 <= x ^ 2) by (apply pow_incr; lra). assert (w / 4 * h ^ 2 <= w / 4 * x ^ 2) by (apply Rmult_le_compat_l; lra).
    assert (0 <= w / 4 * h ^ 2) by (apply Rmult_le_pos; [lra|apply pow2_ge_0]).
    rewrite Rminus_0_l, Rabs_Ropp, Rabs_pos_eq in Hn; lra.
Qed.
Lemma C89_partial_lemma rhs n L te y : lipschitz n L rhs -> 0 <= te -> C2_solution rhs n 0 te y -> forall k m H0, In (k, m) (am_table ++ bdf_table) -> 0 < H0 ->
  exists C hmax, 0 < hmax /\ forall h g fs fuel0 s0, 0 < h <= hmax -> garbage_ok m g -> starts_default (E := E) rhs 0 (y 0) H0 fs ->
    init_ms (E := E) m g rhs 0 (y 0) (Some h) fs fuel0 = Ret s0 -> now s0 <= te -> recorded (ms_order m) rhs y 0 (C * h ^ 2) s0.
Proof.
  intros HL Hte HC k m H0 Hm HH.
  assert (Sh : exists A B Bn, m = @ImplMS Rops A B Bn /\ (0 < length A)%nat) by (clear - Hm; cbn in Hm; repeat (destruct Hm as [Hm|Hm]; [injection Hm as <- <-; do 3 eexists; split; [reflexivity|cbn; lia]|]); destruct Hm).
  destruct Sh as (A & B & Bn & -> & LA).
  destruct (default_rec (E := E) rhs n L te y HL Hte HC A B Bn H0 HH LA) as (C & hm & P1 & P2 & P3). exists C, hm. split; [exact P2|].
  intros h g fs fuel0 s0 Hh Hg Hs Hi Hle. destruct (P3 h g fs fuel0 s0 Hh Hg Hs Hi) as (_ & _ & Q). apply (Q Hle).
Qed.
End Init.
