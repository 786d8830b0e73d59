(** C33: the values run returns. *)
From Coq Require Import List ZArith QArith Bool Arith Lia Reals Lra.
From Verif Require Import Base Scalar Vec MBuffer MZeros MSteps MApi MDop853 MClasses Laws Spec SpecInst
  PStep PKeeps PCore PHist PRun PInterp PBound PVecR SpecRK PDim PRK PFwd PTerm SpecMS PMS PMS2 PRK2 PRK3 PMS3 SpecOrder SpecConv PConv1 PConv2 PConv3 PConv4.
Import ListNotations.
Open Scope R_scope.

Lemma rev_first {A} (l : list A) N x d : length l = S N -> nth_error (rev l) N = Some x -> hd d l = x.
Proof.
  intros Hl H. destruct l as [|a l]; [discriminate|]. injection Hl as Hl. cbn [rev] in H.
  rewrite nth_error_app2 in H by (rewrite rev_length; lia). rewrite rev_length, Hl, Nat.sub_diag in H. now injection H.
Qed.

Lemma hermite_bound a b ya yb fa fb t u eps F L w : 0 <= L -> 0 <= F -> 0 <= eps -> a < b -> a <= t <= b -> b - a <= w ->
  Rabs (ya - u) <= eps + F * w -> Rabs (yb - ya) <= 2 * eps + F * w -> Rabs fa <= F + L * eps -> Rabs fb <= F + L * eps ->
  let X := (t - a) / (b - a) in
  Rabs (ya + X * (yb - ya) + X * (X - 1) * ((1 - 2 * X) * (yb - ya) + (b - a) * ((X - 1) * fa + X * fb)) - u) <=
  5 * eps + 5 * (F * w) + 2 * (w * (L * eps)).
Proof.
  intros HL HF He Hab Ht Hw H1 H2 H3 H4 X.
  assert (X0 : 0 <= X) by (unfold X, Rdiv; apply Rmult_le_pos; [lra|left; apply Rinv_0_lt_compat; lra]).
  assert (X1 : X <= 1). { unfold X. apply (Rmult_le_reg_r (b - a)); [lra|]. unfold Rdiv. rewrite Rmult_assoc, Rinv_l, Rmult_1_r by lra. lra. }
  clearbody X.
  set (d := yb - ya) in *. set (g := (X - 1) * fa + X * fb).
  assert (Hg : Rabs g <= F + L * eps).
  { unfold g. eapply Rle_trans; [apply Rabs_triang|]. rewrite !Rabs_mult, (Rabs_left1 (X - 1)), (Rabs_right X) by lra.
    pose proof (Rabs_pos fa). pose proof (Rabs_pos fb).
    assert (- (X - 1) * Rabs fa <= - (X - 1) * (F + L * eps)) by (apply Rmult_le_compat_l; lra).
    assert (X * Rabs fb <= X * (F + L * eps)) by (apply Rmult_le_compat_l; lra). lra. }
  assert (Hi : Rabs ((1 - 2 * X) * d + (b - a) * g) <= Rabs d + w * (F + L * eps)).
  { eapply Rle_trans; [apply Rabs_triang|]. rewrite !Rabs_mult, (Rabs_right (b - a)) by lra.
    assert (Rabs (1 - 2 * X) <= 1) by (apply Rabs_le; lra).
    assert (Rabs (1 - 2 * X) * Rabs d <= 1 * Rabs d) by (apply Rmult_le_compat_r; [apply Rabs_pos|auto]).
    assert ((b - a) * Rabs g <= w * (F + L * eps)) by (apply Rmult_le_compat; try lra; apply Rabs_pos). lra. }
  assert (Hx : Rabs (X * (X - 1)) <= 1).
  { rewrite Rabs_mult, (Rabs_right X), (Rabs_left1 (X - 1)) by lra. rewrite <- (Rmult_1_l 1) at 2. apply Rmult_le_compat; lra. }
  replace (ya + X * d + X * (X - 1) * ((1 - 2 * X) * d + (b - a) * g) - u) with
    ((ya - u) + X * d + X * (X - 1) * ((1 - 2 * X) * d + (b - a) * g)) by lra.
  eapply Rle_trans; [apply Rabs_triang|]. eapply Rle_trans; [apply Rplus_le_compat_r; apply Rabs_triang|].
  rewrite (Rabs_mult X d), (Rabs_right X), (Rabs_mult (X * (X - 1))) by lra.
  assert (X * Rabs d <= 1 * Rabs d) by (apply Rmult_le_compat_r; [apply Rabs_pos|auto]).
  assert (Rabs (X * (X - 1)) * Rabs ((1 - 2 * X) * d + (b - a) * g) <= 1 * (Rabs d + w * (F + L * eps)))
    by (apply Rmult_le_compat; auto; apply Rabs_pos).
  assert (0 <= F * w) by (apply Rmult_le_pos; lra). assert (0 <= L * eps) by (apply Rmult_le_pos; lra).
  assert (0 <= w * (L * eps)) by (apply Rmult_le_pos; lra). lra.
Qed.

Section Run.
Context {E : @Env Rops}.
Variables (rhs : @rhs_t Rops) (n : nat) (L t0 te M : R) (y dy : R -> list R).
Hypothesis HL : lipschitz n L rhs.
Hypothesis HS : sol_ok n t0 te M y dy.
Hypothesis HD : forall t, t0 <= t <= te -> rhs t (y t) = Ret (dy t).

Lemma slope_bound : t0 <= te -> exists F, 0 <= F /\
  (forall t i, t0 <= t <= te -> (i < n)%nat -> Rabs (cmp i (dy t)) <= F) /\
  (forall s t i, t0 <= s <= t -> t <= te -> (i < n)%nat -> Rabs (cmp i (y t) - cmp i (y s)) <= F * (t - s)).
Proof.
  intros Hte. destruct HS as (HM & Hl & Hd & Hy).
  destruct (max_bound (fun i _ => cmp i (dy t0)) t0 te n Hte) as (F & HF & HB).
  { intros i c _ _. apply continuity_pt_const. intros ? ?. reflexivity. }
  assert (B0 : forall t i, t0 <= t <= te -> (i < n)%nat -> Rabs (cmp i (dy t)) <= F + M * (te - t0)).
  { intros t i Ht Hi. replace (cmp i (dy t)) with (cmp i (dy t0) + (cmp i (dy t) - cmp i (dy t0))) by lra.
    eapply Rle_trans; [apply Rabs_triang|]. apply Rplus_le_compat; [apply (HB i t0); auto; lra|].
    eapply Rle_trans; [apply Hd; auto; lra|]. apply Rmult_le_compat_l; lra. }
  assert (P : 0 <= M * (te - t0)) by (apply Rmult_le_pos; lra).
  exists (F + 2 * (M * (te - t0))). split; [lra|]. split.
  - intros t i Ht Hi. specialize (B0 t i Ht Hi). lra.
  - intros s t i Hs Ht Hi. specialize (Hy s t i Hs Ht Hi). specialize (B0 s i ltac:(lra) Hi).
    replace (cmp i (y t) - cmp i (y s)) with ((cmp i (y t) - cmp i (y s) - (t - s) * cmp i (dy s)) + (t - s) * cmp i (dy s)) by lra.
    eapply Rle_trans; [apply Rabs_triang|]. rewrite (Rabs_mult (t - s)), (Rabs_right (t - s)) by lra.
    assert ((t - s) * Rabs (cmp i (dy s)) <= (t - s) * (F + M * (te - t0))) by (apply Rmult_le_compat_l; lra).
    assert (M * ((t - s) * (t - s)) <= M * ((te - t0) * (t - s))) by (apply Rmult_le_compat_l; auto; apply Rmult_le_compat_r; lra). lra.
Qed.

(** the interpolant of a history close to the solution *)
Lemma hermite_near F N e c h t a : 0 <= e -> 0 <= h -> 0 <= F ->
  (forall t i, t0 <= t <= te -> (i < n)%nat -> Rabs (cmp i (dy t)) <= F) ->
  (forall s t i, t0 <= s <= t -> t <= te -> (i < n)%nat -> Rabs (cmp i (y t) - cmp i (y s)) <= F * (t - s)) ->
  buf_len (S N) c -> wnear rhs t0 y (S N) e c (buf_t c) h -> buf_t c <= te -> buf_t0 c <= t <= buf_t c ->
  hermite (OT := Rops) t c = Ret a ->
  near (5 * e + 5 * (F * (INR N * h)) + 2 * (INR N * h * (L * e))) (deref c a) (y t).
Proof.
  intros He Hh HF F1 F2 Bl W Hte Ht H. pose proof Bl as (B1 & B2 & B3). assert (HL0 : 0 <= L) by apply HL.
  destruct (wnear_top rhs t0 y N e c (buf_t c) h W) as (U1 & V1).
  destruct (W N ltac:(lia)) as (ti & yi & fi & A1 & A2 & A3 & V0 & A5 & A6 & U0).
  apply (rev_first _ N _ (@zero Rops) B1) in A1. apply (rev_first _ N _ [] B2) in A2. apply (rev_first _ N _ [] B3) in A3.
  assert (E1 : buf_t0 c = ti) by (rewrite <- A1; unfold buf_t0; destruct (ts c); reflexivity).
  assert (E2 : buf_y0 c = yi) by (rewrite <- A2; unfold buf_y0; destruct (ys c); reflexivity).
  assert (E3 : buf_f0 c = fi) by (rewrite <- A3; unfold buf_f0; destruct (fs c); reflexivity).
  rewrite <- E1, <- E2, <- E3 in *. clear A1 A2 A3 E1 E2 E3 ti yi fi.
  set (a0 := buf_t0 c) in *. set (b0 := buf_t c) in *.
  assert (P0 : 0 <= INR N * h) by (apply Rmult_le_pos; auto; apply pos_INR).
  assert (P1 : 0 <= F * (INR N * h)) by (apply Rmult_le_pos; auto).
  assert (P2 : 0 <= L * e) by (apply Rmult_le_pos; auto).
  assert (P3 : 0 <= INR N * h * (L * e)) by (apply Rmult_le_pos; auto).
  destruct HS as (HM & Hl & _). destruct (Hl a0 ltac:(lra)) as (La1 & La2). destruct (Hl b0 ltac:(lra)) as (Lb1 & Lb2).
  destruct (Hl t ltac:(lra)) as (Lt1 & Lt2).
  destruct (Req_dec t a0) as [->|Hne].
  - assert (Ha : a = CacheRow 0).
    { unfold hermite in H. fold a0 in H. replace (@eqb Rops a0 a0) with true in H by (symmetry; now apply Reqb_true). now injection H. }
    subst a. cbn [deref]. replace (nth 0 (ys c) []) with (buf_y0 c) by (unfold buf_y0; destruct (ys c); reflexivity).
    eapply near_mono; [|exact U0]. lra.
  - assert (Hab : a0 < b0) by lra.
    assert (N0 : near (L * e) (buf_f0 c) (dy a0)) by (apply (rhs_near rhs n L t0 te M y dy HL HS HD a0 (buf_y0 c)); auto; lra).
    assert (N1 : near (L * e) (buf_f c) (dy b0)) by (apply (rhs_near rhs n L t0 te M y dy HL HS HD b0 (buf_y c)); auto; lra).
    destruct U0 as (U0l & U0). destruct U1 as (U1l & U1). destruct N0 as (N0l & N0). destruct N1 as (N1l & N1).
    assert (SD : same_dim n c). { split; [|split; [|split]]; eapply eq_trans; eauto. }
    split.
    + destruct n as [|n']. 
      * pose proof (hermite_eval c t Hne Hab) as He'. cbn zeta in He'. rewrite He' in H. injection H as <-. cbn [deref].
        rewrite Lt1. destruct SD as (S1 & S2 & S3 & S4). auto 10 with vlen.
      * destruct (hermite_cmp c (S n') t 0 SD ltac:(lia) Hab Hne) as (a' & Ha & Hln & _). rewrite Ha in H. injection H as <-. 
        rewrite Lt1. exact Hln.
    + intros i Hi. assert (Hin : (i < n)%nat).
      { destruct n as [|n']; [exfalso|].
        - pose proof (hermite_eval c t Hne Hab) as He'. cbn zeta in He'. rewrite He' in H. injection H as <-. cbn [deref] in Hi.
          destruct SD as (S1 & S2 & S3 & S4). 
          match type of Hi with (_ < ?l)%nat => assert (K : l = 0%nat) by auto 10 with vlen end. lia.
        - destruct (hermite_cmp c (S n') t 0 SD ltac:(lia) Hab Hne) as (a' & Ha & Hln & _). rewrite Ha in H. injection H as <-.
          eapply Nat.lt_le_trans; [exact Hi|]. apply Nat.eq_le_incl. exact Hln. }
      destruct (hermite_cmp c n t i SD Hin Hab Hne) as (a' & Ha & _ & Hv). rewrite Ha in H. injection H as <-. cbn zeta in Hv.
      refine (eq_ind_r (fun z => Rabs (z - cmp i (y t)) <= _) _ Hv). fold a0 b0.
      specialize (U0 i ltac:(rewrite U0l, La1; exact Hin)). specialize (U1 i ltac:(rewrite U1l, Lb1; exact Hin)).
      specialize (N0 i ltac:(rewrite N0l, La2; exact Hin)). specialize (N1 i ltac:(rewrite N1l, Lb2; exact Hin)).
      assert (Hw : b0 - a0 <= INR N * h) by exact A6.
      apply (hermite_bound a0 b0 _ _ _ _ t (cmp i (y t)) e F L (INR N * h)); auto.
      * assert (Q := F2 a0 t i ltac:(lra) ltac:(lra) Hin).
        assert (F * (t - a0) <= F * (INR N * h)) by (apply Rmult_le_compat_l; lra).
        replace (cmp i (buf_y0 c) - cmp i (y t)) with ((cmp i (buf_y0 c) - cmp i (y a0)) - (cmp i (y t) - cmp i (y a0))) by (change (@T Rops) with R; lra).
        eapply Rle_trans; [apply Rabs_triang|]. rewrite Rabs_Ropp. eapply Rle_trans; [apply Rplus_le_compat; [exact U0|exact Q]|]. lra.
      * assert (Q := F2 a0 b0 i ltac:(lra) ltac:(lra) Hin).
        assert (F * (b0 - a0) <= F * (INR N * h)) by (apply Rmult_le_compat_l; lra).
        replace (cmp i (buf_y c) - cmp i (buf_y0 c)) with
          ((cmp i (buf_y c) - cmp i (y b0)) + (cmp i (y b0) - cmp i (y a0)) - (cmp i (buf_y0 c) - cmp i (y a0))) by (change (@T Rops) with R; lra).
        eapply Rle_trans; [apply Rabs_triang|]. rewrite Rabs_Ropp. eapply Rle_trans; [apply Rplus_le_compat_r; apply Rabs_triang|].
        eapply Rle_trans; [apply Rplus_le_compat; [apply Rplus_le_compat; [exact U1|exact Q]|exact U0]|]. lra.
      * assert (Q := F1 a0 i ltac:(lra) Hin). replace (cmp i (buf_f0 c)) with (cmp i (dy a0) + (cmp i (buf_f0 c) - cmp i (dy a0))) by (change (@T Rops) with R; lra).
        eapply Rle_trans; [apply Rabs_triang|]. eapply Rle_trans; [apply Rplus_le_compat; [exact Q|exact N0]|]. lra.
      * assert (Q := F1 b0 i ltac:(lra) Hin). replace (cmp i (buf_f c)) with (cmp i (dy b0) + (cmp i (buf_f c) - cmp i (dy b0))) by (change (@T Rops) with R; lra).
        eapply Rle_trans; [apply Rabs_triang|]. eapply Rle_trans; [apply Rplus_le_compat; [exact Q|exact N1]|]. lra.
Qed.
End Run.
