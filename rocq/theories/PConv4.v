(** C33: start-up of the Adams-Bashforth classes. *)
From Coq Require Import List ZArith QArith Bool Arith Lia Reals Lra.
From Verif Require Import Base Scalar Vec MBuffer MZeros MSteps MApi MDop853 MClasses Laws Spec SpecInst
  PStep PKeeps PCore PHist PBound PVecR SpecRK PDim PRK PFwd PTerm SpecMS PMS PMS2 PRK2 PRK3 PMS3 SpecOrder SpecConv PConv1 PConv2 PConv3.
Import ListNotations.
Open Scope R_scope.

Section Start.
Context {E : @Env Rops}.
Variables (rhs : @rhs_t Rops) (n : nat) (L t0 te M : R) (y dy : R -> list R).
Hypothesis HL : lipschitz n L rhs.
Hypothesis HS : sol_ok n t0 te M y dy.
Hypothesis HD : forall t, t0 <= t <= te -> rhs t (y t) = Ret (dy t).

Lemma loop_near m1 La D h fuel1 o1 N : 0 <= La -> 0 <= D -> 0 < h <= 1 ->
  (forall x x', rk_inv rhs t0 te y m1 La D h x -> core_of (E := E) m1 fuel1 o1 rhs x = (Ret tt, x') ->
     rk_inv rhs t0 te y m1 La D h x' /\ now x' = now x + h /\ rhs (now x') (state x') = Ret (deriv x')) ->
  forall k s1 c c', rk_inv rhs t0 te y m1 La D h s1 -> buf_len (S N) c -> buf_t c = now s1 ->
  (now s1 <= te -> wnear rhs t0 y (S N) (acc La 0 D 1 (te - t0) * h) c (now s1) h) ->
  fs_fixed_loop k (solver_of (E := E) m1 fuel1 o1 rhs PInf) s1 c = Ret c' ->
  t0 <= buf_t c' /\ (buf_t c' <= te -> wnear rhs t0 y (S N) (acc La 0 D 1 (te - t0) * h) c' (buf_t c') h).
Proof.
  intros PL PD Hh Hc. induction k as [|k IH]; intros s1 c c' I Bl Ht W H; cbn [fs_fixed_loop] in H.
  - injection H as <-. rewrite Ht. split; [apply I|exact W].
  - rewrite step_none in H by reflexivity. cbn [s_core solver_of] in H.
    destruct (core_of m1 fuel1 o1 rhs s1) as [[[]| |] s'] eqn:e; try discriminate.
    destruct (Hc s1 s' I e) as (I' & N1 & N2). fold (now s') (state s') (deriv s') in H.
    apply (IH s') in H; auto.
    + now apply push_len.
    + now apply (push_t N).
    + intros Hte. rewrite N1 in Hte. assert (0 <= now s1 - t0) by (assert (t0 <= now s1) by apply I; lra).
      rewrite N1 in *. apply (wnear_push rhs t0 y N (acc La 0 D 1 (te - t0) * h)); auto; try lra.
      * apply W. lra.
      * destruct I' as (_ & _ & _ & I'). rewrite N1 in I'. eapply near_mono; [|apply I'; lra].
        eapply Rle_trans; [apply (acc_mono La 0 0 D h _ (te - t0)); lra|]. unfold acc. lra.
Qed.

Lemma base_near (m : @meth Rops) (g : garbage) h s : t0 <= te -> 0 < h -> garbage_ok m g -> init_base m g rhs t0 (y t0) (Some h) = Ret s ->
  good rhs m s /\ hstep s = h /\ now s = t0 /\ forall e, 0 <= e -> wnear rhs t0 y (len_history m) e (cache s) t0 h.
Proof.
  intros Hte Hh Hg H. apply init_base_spec in H as (G & f & Hf & Hc & Hh0); auto. cbn in Hh0.
  destruct (len_history_pos m) as (k & Hk).
  split; [exact G|]. split; [exact Hh0|]. split; [unfold now, buf_t; rewrite Hc, Hk; apply last_repeat; lia|].
  intros e He. rewrite Hc. apply wnear_init; auto; try lra. now apply near_refl.
Qed.

(** the start-up establishes the invariant *)
Lemma ab_inv_start (start : option (@meth Rops)) : t0 <= te -> (forall m1, start = Some m1 -> exists p, In (m1, p) rk_table) ->
  exists E0, 0 <= E0 /\ forall k m bs g h fs fuel s, In (k, m, bs) ab_table -> 0 < h <= 1 -> garbage_ok m g ->
    starts (E := E) rhs t0 (y t0) h start fs -> init_ms (E := E) m g rhs t0 (y t0) (Some h) fs fuel = Ret s ->
    ab_inv rhs t0 te y m (ab_La L bs) E0 (ab_D M m bs) h s.
Proof.
  intros Hte Hst.
  assert (fin : forall k m bs E0 h s, In (k, m, bs) ab_table -> 0 <= E0 -> 0 < h <= 1 -> good rhs m s -> hstep s = h -> t0 <= now s ->
    (now s <= te -> wnear rhs t0 y (len_history m) (E0 * h) (cache s) (now s) h) -> ab_inv rhs t0 te y m (ab_La L bs) E0 (ab_D M m bs) h s).
  { intros k m bs E0 h s Hm HE Hh G Hs Ht W. split; [exact G|]. split; [exact Hs|]. split; [exact Ht|]. intros H.
    eapply wnear_mono; [|apply W; exact H]. apply acc_ge; try lra; [eapply ab_La_pos; eauto|eapply ab_D_pos; eauto]. }
  assert (none : forall k m bs g h s0 fs fuel s, In (k, m, bs) ab_table -> 0 < h <= 1 -> garbage_ok m g ->
     init_base m g rhs t0 (y t0) (Some h) = Ret s0 -> init_ms (E := E) m g rhs t0 (y t0) (Some h) fs fuel = Ret s ->
     s = set_cache (iterate (len_history m - 1) (fun c => push c (buf_t c) (buf_y c) (buf_f c)) (cache s0)) s0 ->
     good rhs m s /\ hstep s = h /\ now s = t0 /\ forall e, 0 <= e -> wnear rhs t0 y (len_history m) e (cache s) t0 h).
  { intros k m bs g h s0 fs fuel s Hm Hh Hg H0 _ ->.
    destruct (base_near m g h s0 Hte ltac:(lra) Hg H0) as (G & B1 & B2 & B3).
    destruct (len_history_pos m) as (j & Hj). pose proof G as ((Bl & _) & _). rewrite Hj in *.
    split; [|split; [exact B1|]].
    - rewrite (iterate_same (S j)) by exact Bl. apply good_push_all; auto. apply Forall_repeat. exact (good_last _ _ _ G).
    - unfold now. cbn [cache set_cache].
      assert (K : forall e, 0 <= e -> _) by exact (fun e He => iterate_near rhs t0 y (S j) e t0 h (S (S j) - 1) ltac:(lra) (Rle_refl t0) (cache s0) Bl (B3 e He) B2).
      split; [exact (proj2 (K 0 ltac:(lra)))|intros e He; exact (proj1 (K e He))]. }
  destruct start as [m1|].
  - destruct (Hst m1 eq_refl) as (p & Hp).
    destruct (rk_inv_core (E := E) rhs n L t0 te M y dy HL HS HD m1 p Hp) as (La & D & H1 & H2 & H3).
    exists (acc La 0 D 1 (te - t0)). split; [apply acc_pos; lra|].
    intros k m bs g h fs fuel s Hm Hh Hg Hs H.
    inversion Hs as [|? g1 s1 fuel1 o1 Hg1 Hi1]; subst. clear Hs.
    pose proof H as H'. unfold init_ms in H'.
    destruct (init_base m g rhs t0 (y t0) (Some h)) as [s0| |] eqn:eb; try discriminate. cbn [obind] in H'.
    destruct (Nat.eqb_spec (ms_order m) 1) as [e1|e1].
    + injection H' as <-. destruct (none k m bs g h s0 _ fuel _ Hm Hh Hg eb H eq_refl) as (G & B1 & B2 & B3).
      apply (fin k m bs); auto; rewrite ?B2; try lra; [apply acc_pos; lra|]. intros _. apply B3. apply Rmult_le_pos; [apply acc_pos; lra|lra].
    + cbn [fst snd] in H'. destruct (fs_fixed_loop _ _ _ _) as [c'| |] eqn:el; try discriminate. cbn [obind] in H'. injection H' as <-.
      destruct (base_near m g h s0 Hte ltac:(lra) Hg eb) as (G & B1 & B2 & B3).
      destruct (len_history_pos m) as (j & Hj). pose proof G as ((Bl & _) & _). rewrite Hj in Bl.
      destruct (rk_inv_init rhs t0 te y m1 p La D g1 h s1 Hp Hte ltac:(lra) H2 Hg1 Hi1) as (I1 & N1).
      assert (G' : good rhs m (set_cache c' s0)).
      { destruct (rk_table_tab m1 p Hp) as (A & B & C & Em & _).
        apply fs_fixed_loop_spec in el as (l & -> & F & _); [|apply I1|now rewrite Em]. now apply good_push_all. }
      apply (loop_near m1 La D h fuel1 o1 (S j)) in el; auto.
      * destruct el as (T1 & T2). apply (fin k m bs); auto; [apply acc_pos; lra|]. rewrite Hj. exact T2.
      * intros x x' Ix Hx. exact (H3 h fuel1 o1 x x' Hh Ix Hx).
      * exact (eq_trans B2 (eq_sym N1)).
      * intros _. rewrite N1. rewrite Hj in B3. apply B3. apply Rmult_le_pos; [apply acc_pos; lra|lra].
  - exists 0. split; [lra|]. intros k m bs g h fs fuel s Hm Hh Hg Hs H. inversion Hs; subst. clear Hs.
    pose proof H as H'. unfold init_ms in H'.
    destruct (init_base m g rhs t0 (y t0) (Some h)) as [s0| |] eqn:eb; try discriminate. cbn [obind] in H'.
    assert (Es : s = set_cache (iterate (len_history m - 1) (fun c => push c (buf_t c) (buf_y c) (buf_f c)) (cache s0)) s0).
    { destruct (Nat.eqb (ms_order m) 1); injection H' as <-; reflexivity. }
    destruct (none k m bs g h s0 _ fuel _ Hm Hh Hg eb H Es) as (G & B1 & B2 & B3).
    apply (fin k m bs); auto; rewrite ?B2; try lra. intros _. apply B3. lra.
Qed.
End Start.

Lemma C33_ab_lemma {E : @Env Rops} k m bs start rhs n L t0 te y : In (k, m, bs) ab_table ->
  (forall m1, start = Some m1 -> exists p, In (m1, p) rk_table) ->
  lipschitz n L rhs -> t0 <= te -> C2_solution rhs n t0 te y ->
  exists K, forall h g fs s0 fuel0 fuelc o tb fuel cs s, 0 < h <= 1 -> garbage_ok m g ->
    starts (E := E) rhs t0 (y t0) h start fs -> init_ms (E := E) m g rhs t0 (y t0) (Some h) fs fuel0 = Ret s0 ->
    s = session (E := E) (solver_of (E := E) m fuelc o rhs tb) fuel cs s0 -> now s <= te ->
    near (K * h) (state s) (y (now s)).
Proof.
  intros Hm Hst HL Hte HC. destruct (C2_sol_ok rhs n t0 te y Hte (proj1 (proj2 HL)) HC) as (dy & M & HS & HD).
  destruct (ab_inv_start (E := E) rhs n L t0 te M y dy HL HS HD start Hte Hst) as (E0 & HE & H0).
  exists (acc (ab_La L bs) E0 (ab_D M m bs) 1 (te - t0)). intros h g fs s0 fuel0 fuelc o tb fuel cs s Hh Hg Hs Hi -> Hn.
  specialize (H0 k m bs g h fs fuel0 s0 Hm Hh Hg Hs Hi).
  destruct (ab_table_spec _ _ _ Hm) as (A & Em & _).
  pose proof (ab_inv_session rhs t0 te y m (ab_La L bs) E0 (ab_D M m bs) h fuelc o tb fuel cs s0 ltac:(lra)
    (fun x x' I Hc => ab_inv_core (E := E) rhs n L t0 te M y dy HL HS HD k m bs E0 h fuelc o x x' Hm HE Hh I Hc) ltac:(now rewrite Em) H0) as (_ & _ & It & In).
  specialize (In Hn). destruct (len_history_pos m) as (j & Hj). rewrite Hj in In.
  eapply near_mono; [|exact (wnear_last rhs t0 y _ _ _ _ _ In eq_refl)].
  assert (0 <= ab_La L bs) by (eapply ab_La_pos; eauto). assert (0 <= ab_D M m bs) by (eapply ab_D_pos; eauto).
  eapply Rle_trans; [apply (acc_mono _ E0 E0 _ h _ (te - t0)); lra|]. unfold acc. lra.
Qed.
