(** Linear first integrals (C66): instances. *)
From Coq Require Import List ZArith QArith Bool Arith Lia Reals Lra.
From Verif Require Import Base Scalar Vec MBuffer MZeros MSteps MApi MDop853 MClasses Laws Spec SpecInst SpecRK SpecMS SpecDense SpecInv
  PStep PKeeps PClean PCore PHist PBound PVecR PRun PFwd PInterp PRK PDim PDense PMS PConv9 PInv1 PInv2.
Import ListNotations.
Open Scope R_scope.

Section K.
Context {E : @Env Rops}.
Variables (n : nat) (w : list R) (y0 : list R).
Variable rhs : @rhs_t Rops.
Hypothesis Ht : tangent n w (dot w y0) rhs.
Hypothesis Hn : length y0 = n.
Notation c := (dot w y0).
Notation inV := (inV n w).
Notation inY := (inY n w c).
Notation level := (level n w c).
Notation meth := (@meth Rops).
Notation st := (@st Rops).

Lemma y0_Y : inY y0. Proof. split; auto. Qed.
Lemma base_level (m : meth) g t0 h s : garbage_ok m g -> init_base m g rhs t0 y0 h = Ret s -> wf m s /\ level s.
Proof.
  intros Hg H. apply init_base_spec in H as ((W & _) & f & Hr & Hc & _); auto. split; auto.
  unfold PInv1.level. rewrite Hc. cbn [ys fs]. split; apply Forall_repeat; [apply y0_Y|]. eapply (rhs_V n w c rhs Ht); [apply y0_Y | exact Hr].
Qed.
Lemma var_cache (m : meth) g t0 o sel first s : init_var m g rhs t0 y0 o sel first = Ret s ->
  exists s0, init_base m g rhs t0 y0 None = Ret s0 /\ cache s = cache s0 /\ stages s = stages s0.
Proof.
  intros H. unfold init_var in H. destruct (init_base m g rhs t0 y0 None) as [s0| |]; try discriminate. cbn [obind] in H. exists s0. split; auto.
  destruct (match max_step o with Fin x => _ | PInf => _ end); [discriminate|]. destruct (ltb _ _); [discriminate|].
  match type of H with (let! h := ?x in _) = _ => destruct x as [h| |] end; cbn [obind] in H; try discriminate.
  destruct m; try (injection H as <-; auto; fail).
  destruct (dop_update _ _ _ _ _ _) as [[[]| |] s1] eqn:e; try discriminate. injection H as <-.
  unfold dop_update, bind, lift in e. destruct (dop_extra _ _ _ _ _ _ _); try discriminate. injection e as <-. auto.
Qed.
Lemma var_level (m : meth) g t0 o sel first s : garbage_ok m g -> init_var m g rhs t0 y0 o sel first = Ret s -> wf m s /\ level s.
Proof.
  intros Hg H. apply var_cache in H as (s0 & H & Hc & Hst). destruct (base_level m g t0 None s0 Hg H) as ((W1 & W2) & L).
  split; [split; [rewrite Hc | rewrite Hst]; auto|]. unfold PInv1.level. rewrite Hc. exact L.
Qed.
Lemma var_ready (m : meth) g t0 o sel first s : explicit_class m -> is_fixed m = false -> garbage_ok m g ->
  init_var m g rhs t0 y0 o sel first = Ret s -> 0 <= hstep s -> ready n w c rhs m s.
Proof.
  intros Hm Hf Hg H Hh. destruct (var_level m g t0 o sel first s Hg H) as (W & L). split; auto.
  destruct (init_var_fresh m g rhs t0 y0 o sel first s Hg Hf H) as (N1 & N2 & _).
  pose proof (built_var (E := E) rhs m g t0 y0 o sel first s Hf Hg H) as Hb.
  assert (Hl : length (state s) = n) by (rewrite N2; exact Hn).
  destruct m as [A B|A B Bn|A B C|A B C Ew order P|A B C E5 E3 order DD Af Cf]; try discriminate; cbn [explicit_class] in Hm.
  - eapply (built_tidy (E := E)); eauto. apply Ht.
  - destruct Hm as (M1 & M2 & M3 & M4). eapply (dbuilt_tidy (E := E)); eauto. apply Ht.
Qed.

Lemma loop_level (m1 : meth) fuel1 o1 k : explicit_class m1 -> forall s1 (b b' : @buffer Rops), wf m1 s1 -> level s1 ->
  Forall inY (ys b) -> Forall inV (fs b) ->
  fs_fixed_loop k (solver_of (E := E) m1 fuel1 o1 rhs PInf) s1 b = Ret b' -> Forall inY (ys b') /\ Forall inV (fs b').
Proof.
  intros Hm. induction k as [|k IH]; intros s1 b b' W L B1 B2 H; cbn [fs_fixed_loop] in H.
  - injection H as <-. auto.
  - rewrite step_none in H by reflexivity. cbn [s_core solver_of] in H.
    pose proof (core_wf m1 fuel1 o1 rhs s1 W) as W'.
    destruct (core_of m1 fuel1 o1 rhs s1) as [[[]| |] s'] eqn:e; try discriminate. cbn [snd] in W'.
    pose proof (level_core n w c rhs Ht m1 fuel1 o1 s1 s' Hm W L e) as L'.
    destruct (level_state n w c m1 s' W' L') as (Y' & V').
    destruct (level_push n w c b (buf_t (cache s')) (state s') (deriv s') B1 B2 Y' V') as (B1' & B2').
    eapply IH; [exact W' | exact L' | exact B1' | exact B2' | exact H].
Qed.
Lemma push_all_level rows : forall (b b' : @buffer Rops), Forall (fun r => inY (snd r)) rows -> Forall inY (ys b) -> Forall inV (fs b) ->
  @fs_push_all Rops rhs rows b = Ret b' -> Forall inY (ys b') /\ Forall inV (fs b').
Proof.
  induction rows as [|[t y] rows IH]; intros b b' F B1 B2 H; cbn [fs_push_all] in H.
  - injection H as <-. auto.
  - pose proof (Forall_inv F) as Fy. pose proof (Forall_inv_tail F) as F'. cbn [snd] in Fy. destruct (rhs t y) as [f| |] eqn:e; cbn [obind] in H; try discriminate.
    destruct (level_push n w c b t y f B1 B2 Fy (rhs_V n w c rhs Ht t y f Fy e)) as (B1' & B2'). eapply IH; eauto.
Qed.

Lemma push_same_level k (t : @T Rops) (y f : @vec Rops) : inY y -> inV f -> forall b : @buffer Rops, Forall inY (ys b) -> Forall inV (fs b) ->
  Forall inY (ys (@push_all Rops (repeat (t, y, f) k) b)) /\ Forall inV (fs (@push_all Rops (repeat (t, y, f) k) b)).
Proof.
  intros Hy Hf. induction k as [|k IH]; intros b B1 B2; auto.
  destruct (level_push n w c b t y f B1 B2 Hy Hf) as (B1' & B2'). exact (IH _ B1' B2').
Qed.
Lemma ns_level (m : meth) (s0 : st) k : wf m s0 -> level s0 ->
  level (set_cache (iterate k (fun c => push c (buf_t c) (buf_y c) (buf_f c)) (cache s0)) s0).
Proof.
  intros W0 L0. destruct (len_history_pos m) as (q & Hk). pose proof W0 as (Wb & _). rewrite Hk in Wb.
  rewrite (iterate_same (S q)) by auto. destruct (level_state n w c m s0 W0 L0) as (Ys & Vs).
  exact (push_same_level k (now s0) (state s0) (deriv s0) Ys Vs (cache s0) (proj1 L0) (proj2 L0)).
Qed.
Lemma instance_level (m : meth) s : explicit_class m -> explicit_instance (E := E) rhs y0 m s -> wf m s /\ level s.
Proof.
  intros Hm H. assert (Hw : wf m s).
  { destruct H as [m g t0 h s He Hg H|m g t0 o sel first s Hf Hg H|m g t0 h fuel s Hx Hg H|m g t0 h fuel s m1 g1 s1 h1 fuel1 o1 Hx Hg He1 Hm1 Hg1 H1 H|m g t0 h fuel s m1 g1 s1 o1 sel first fuel1 Hx Hg Hf1 Hm1 Ho1 Hg1 H1 Hh1 Hh H].
    - exact (proj1 (base_level _ _ _ _ _ Hg H)).
    - exact (proj1 (var_level _ _ _ _ _ _ _ Hg H)).
    - eapply init_ms_good; [exact Hg | | exact H]. exact I.
    - eapply init_ms_good; [exact Hg | | exact H]. cbn. intros ? ? ? ? ? Hq. injection Hq as <- <-. exists m1, fuel1, o1. split; auto. split.
      + eapply init_base_spec; eauto.
      + destruct m1; cbn in He1; try destruct He1; reflexivity.
    - eapply init_ms_good; [exact Hg | | exact H]. exact I. }
  split; auto.
  destruct H as [m g t0 h s He Hg H|m g t0 o sel first s Hf Hg H|m g t0 h fuel s Hx Hg H|m g t0 h fuel s m1 g1 s1 h1 fuel1 o1 Hx Hg He1 Hm1 Hg1 H1 H|m g t0 h fuel s m1 g1 s1 o1 sel first fuel1 Hx Hg Hf1 Hm1 Ho1 Hg1 H1 Hh1 Hh H].
  - exact (proj2 (base_level _ _ _ _ _ Hg H)).
  - exact (proj2 (var_level _ _ _ _ _ _ _ Hg H)).
  - unfold init_ms in H. destruct (init_base m g rhs t0 y0 h) as [s0| |] eqn:e; try discriminate. cbn [obind] in H.
    destruct (base_level _ _ _ _ _ Hg e) as (W0 & L0).
    destruct (Nat.eqb _ 1); injection H as <-; now apply (ns_level m).
  - unfold init_ms in H. destruct (init_base m g rhs t0 y0 h) as [s0| |] eqn:e; try discriminate. cbn [obind] in H.
    destruct (base_level _ _ _ _ _ Hg e) as (W0 & L0).
    destruct (Nat.eqb _ 1); [injection H as <-; now apply (ns_level m)|].
    cbn [fst snd obind] in H. destruct (base_level _ _ _ _ _ Hg1 H1) as (W1 & L1).
    destruct (fs_fixed_loop _ _ _ _) as [b| |] eqn:el; cbn [obind] in H; try discriminate. injection H as <-.
    exact (loop_level m1 fuel1 o1 _ Hm1 s1 (cache s0) b W1 L1 (proj1 L0) (proj2 L0) el).
  - unfold init_ms in H. destruct (init_base m g rhs t0 y0 h) as [s0| |] eqn:e; try discriminate. cbn [obind] in H.
    destruct (base_level _ _ _ _ _ Hg e) as (W0 & L0). apply init_base_spec in e as (_ & _ & _ & _ & Hs0); auto.
    destruct (Nat.eqb _ 1); [injection H as <-; now apply (ns_level m)|].
    cbn [fst snd obind] in H.
    pose proof (var_ready m1 g1 t0 o1 sel first s1 Hm1 Hf1 Hg1 H1 Hh1) as R1.
    destruct (run _ _ _ _) as [[rows| |] s2] eqn:er; try discriminate.
    assert (Hpos : 0 < hstep s0).
    { rewrite Hs0. destruct h as [x|]; [now apply Hh|]. change (0 < @one Rops). rewrite one_R. lra. }
    pose proof (run_Y n w c rhs Ht m1 fuel1 o1 PInf Hm1 (or_intror Ho1) s1 fuel _ rows s2 R1 (times_sorted _ Hpos _ _) er) as FY.
    destruct (fs_push_all _ _ _) as [b| |] eqn:el; cbn [obind] in H; try discriminate. injection H as <-.
    exact (push_all_level rows (cache s0) b FY (proj1 L0) (proj2 L0) el).
Qed.
Lemma instance_ready (m : meth) s : explicit_class m -> explicit_instance (E := E) rhs y0 m s ->
  (is_fixed m = true \/ 0 <= hstep s) -> ready n w c rhs m s.
Proof.
  intros Hm H Hh. destruct (instance_level m s Hm H) as (W & L).
  destruct (Bool.bool_dec (is_fixed m) true) as [ef|ef].
  - split; auto. destruct m; try discriminate; exact W.
  - apply not_true_is_false in ef. destruct Hh as [Hh|Hh]; [congruence|].
    destruct H as [m g t0 h s He Hg H|m g t0 o sel first s Hf Hg H|m g t0 h fuel s Hx Hg H|m g t0 h fuel s m1 g1 s1 h1 fuel1 o1 Hx|m g t0 h fuel s m1 g1 s1 o1 sel first fuel1 Hx].
    + destruct m; cbn in He; try destruct He; discriminate.
    + eapply var_ready; eauto.
    + destruct m; cbn in Hx; try destruct Hx; discriminate.
    + destruct m; cbn in Hx; try destruct Hx; discriminate.
    + destruct m; cbn in Hx; try destruct Hx; discriminate.
Qed.

Lemma C66_lemma (m : meth) fuelc o tb s0 fuel cs y : explicit_class m -> explicit_instance (E := E) rhs y0 m s0 ->
  In y (ys (cache (session (E := E) (solver_of (E := E) m fuelc o rhs tb) fuel cs s0))) -> dot w y = dot w y0.
Proof.
  intros Hm Hi. destruct (instance_level m s0 Hm Hi) as (W & L).
  destruct (level_session n w c rhs Ht m fuelc o tb fuel cs s0 Hm W L) as (L1 & _).
  intros Hy. rewrite Forall_forall in L1. exact (proj2 (L1 y Hy)).
Qed.
Lemma C66_run_lemma (m : meth) fuelc o tb s0 fuel cs s fuel' t rows s' : explicit_class m -> explicit_instance (E := E) rhs y0 m s0 ->
  (is_fixed m = true \/ (sane o /\ 0 <= hstep s0)) ->
  returns (E := E) (solver_of (E := E) m fuelc o rhs tb) fuel cs s0 s -> is_sorted t = true ->
  run (solver_of (E := E) m fuelc o rhs tb) fuel' t s = (Ret rows, s') ->
  forall r, In r rows -> length (snd r) = n /\ dot w (snd r) = dot w y0.
Proof.
  intros Hm Hi Ho Hr Hs H.
  assert (Ho' : is_fixed m = true \/ sane o) by (destruct Ho as [Ho|(Ho & _)]; auto).
  assert (R : ready n w c rhs m s).
  { eapply (returns_inv (solver_of (E := E) m fuelc o rhs tb) (ready n w c rhs m)); [| |exact Hr|].
    - intros b x x' _ _ Rx Hc. eapply (ready_core n w c rhs Ht m fuelc o tb Hm Ho'); eauto.
    - intros t' x Rx. pose proof (ready_interp n w c rhs m fuelc o tb Hm Ho' t' x Rx) as Q.
      destruct (s_interp _ t' x) as [[]]; auto.
    - apply instance_ready; auto. destruct Ho as [Ho|(_ & Ho)]; auto. }
  pose proof (run_Y n w c rhs Ht m fuelc o tb Hm Ho' s fuel' t rows s' R Hs H) as F.
  intros r Hin. rewrite Forall_forall in F. exact (F r Hin).
Qed.
End K.
