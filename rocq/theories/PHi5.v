(** Order of the values run returns. *)
From Coq Require Import List ZArith QArith Bool Arith Lia Reals Lra.
From Verif Require Import Base Scalar Vec MBuffer MZeros MSteps MApi MDop853 MClasses Laws Spec SpecInst
  PStep PKeeps PCore PHist PRun PInterp PBound PVecR SpecRK PDim PRK PFwd PTerm SpecMS PMS PMS2 PRK2 PRK3 PMS3 SpecOrder SpecConv PConv1 PConv2 PConv3 PConv4 PConv5 PConv6
  SpecConv3 PHi1 PHi2 PHi3 PHi4.
Import ListNotations.
Open Scope R_scope.

(** the cubic of perturbed data *)
Definition cubic (X w ya yb fa fb : R) : R :=
  ya + X * (yb - ya) + X * (X - 1) * ((1 - 2 * X) * (yb - ya) + w * ((X - 1) * fa + X * fb)).
Lemma cubic_bound X w ya yb fa fb e f : 0 <= X <= 1 -> 0 <= w -> Rabs ya <= e -> Rabs yb <= e -> Rabs fa <= f -> Rabs fb <= f ->
  Rabs (cubic X w ya yb fa fb) <= 5 * e + w * f.
Proof.
  intros HX Hw H1 H2 H3 H4. unfold cubic.
  assert (He : 0 <= e) by (pose proof (Rabs_pos ya); lra). assert (Hf : 0 <= f) by (pose proof (Rabs_pos fa); lra).
  set (d := yb - ya). set (g := (X - 1) * fa + X * fb).
  assert (Hd : Rabs d <= 2 * e). { unfold d. eapply Rle_trans; [apply Rabs_triang|]. rewrite Rabs_Ropp. lra. }
  assert (Hg : Rabs g <= f).
  { unfold g. eapply Rle_trans; [apply Rabs_triang|]. rewrite !Rabs_mult, (Rabs_left1 (X - 1)), (Rabs_right X) by lra.
    assert (- (X - 1) * Rabs fa <= - (X - 1) * f) by (apply Rmult_le_compat_l; lra).
    assert (X * Rabs fb <= X * f) by (apply Rmult_le_compat_l; lra). lra. }
  assert (Hi : Rabs ((1 - 2 * X) * d + w * g) <= Rabs d + w * f).
  { eapply Rle_trans; [apply Rabs_triang|]. rewrite !Rabs_mult, (Rabs_right w) by lra.
    assert (Rabs (1 - 2 * X) <= 1) by (apply Rabs_le; lra).
    assert (Rabs (1 - 2 * X) * Rabs d <= 1 * Rabs d) by (apply Rmult_le_compat_r; [apply Rabs_pos|auto]).
    assert (w * Rabs g <= w * f) by (apply Rmult_le_compat_l; lra). lra. }
  assert (Hx : Rabs (X * (X - 1)) <= 1).
  { rewrite Rabs_mult, (Rabs_right X), (Rabs_left1 (X - 1)) by lra. rewrite <- (Rmult_1_l 1) at 2. apply Rmult_le_compat; lra. }
  assert (0 <= w * f) by (apply Rmult_le_pos; lra).
  eapply Rle_trans; [apply Rabs_triang|]. eapply Rle_trans; [apply Rplus_le_compat_r; apply Rabs_triang|].
  rewrite (Rabs_mult X d), (Rabs_right X), (Rabs_mult (X * (X - 1))) by lra.
  assert (X * Rabs d <= 1 * Rabs d) by (apply Rmult_le_compat_r; [apply Rabs_pos|lra]).
  assert (Rabs (X * (X - 1)) * Rabs ((1 - 2 * X) * d + w * g) <= 1 * (Rabs d + w * f))
    by (apply Rmult_le_compat; auto; apply Rabs_pos). lra.
Qed.
(** the cubic of exact data *)
Lemma cubic_exact (g : nat -> R -> R) a b t B : 0 <= B -> a < b -> a <= t <= b ->
  (forall j m x, (j + m <= 4)%nat -> 0 <= x -> a + x <= b -> Rabs (g j (a + x) - tpoly (fun q => g (j + q)%nat a) m x) <= B * x ^ m) ->
  Rabs (cubic ((t - a) / (b - a)) (b - a) (g 0%nat a) (g 0%nat b) (g 1%nat a) (g 1%nat b) - g 0%nat t) <= 4 * (B * (b - a) ^ 4).
Proof.
  intros HB Hab Ht H. set (w := b - a). set (X := (t - a) / w).
  assert (Hw : 0 < w) by (unfold w; lra). assert (Et : t = a + X * w) by (unfold X; field; lra).
  assert (X0 : 0 <= X) by (unfold X, Rdiv; apply Rmult_le_pos; [lra|left; apply Rinv_0_lt_compat; lra]).
  assert (X1 : X <= 1). { unfold X. apply (Rmult_le_reg_r w); [lra|]. unfold Rdiv. rewrite Rmult_assoc, Rinv_l, Rmult_1_r by lra. unfold w. lra. }
  assert (Hxw : 0 <= X * w <= w). { split; [apply Rmult_le_pos; lra|]. rewrite <- (Rmult_1_l w) at 2. apply Rmult_le_compat_r; lra. }
  pose proof (H 0%nat 4%nat w ltac:(lia) ltac:(lra) ltac:(unfold w; lra)) as R1.
  pose proof (H 1%nat 3%nat w ltac:(lia) ltac:(lra) ltac:(unfold w; lra)) as R2.
  pose proof (H 0%nat 4%nat (X * w) ltac:(lia) ltac:(lra) ltac:(unfold w in *; lra)) as R3.
  replace (a + w) with b in R1, R2 by (unfold w; lra). rewrite <- Et in R3.
  set (r1 := g 0%nat b - _) in R1. set (r2 := g 1%nat b - _) in R2. set (r3 := g 0%nat t - _) in R3.
  assert (Eq : cubic X w (g 0%nat a) (g 0%nat b) (g 1%nat a) (g 1%nat b) - g 0%nat t =
    X * r1 + X * (X - 1) * ((1 - 2 * X) * r1 + w * (X * r2)) - r3).
  { unfold cubic, r1, r2, r3. cbn [tpoly plus fact Nat.mul Nat.add].
    replace (INR 6) with 6 by (cbn; lra). replace (INR 2) with 2 by (cbn; lra). replace (INR 1) with 1 by reflexivity. field. }
  rewrite Eq. clearbody r1 r2 r3.
  assert (P4 : (X * w) ^ 4 <= w ^ 4) by (apply pow_incr; lra).
  assert (P5 : B * (X * w) ^ 4 <= B * w ^ 4) by (apply Rmult_le_compat_l; lra).
  assert (P6 : w * Rabs r2 <= B * w ^ 4) by (replace (B * w ^ 4) with (w * (B * w ^ 3)) by ring; apply Rmult_le_compat_l; lra).
  assert (Hx : Rabs (X * (X - 1)) <= 1).
  { rewrite Rabs_mult, (Rabs_right X), (Rabs_left1 (X - 1)) by lra. rewrite <- (Rmult_1_l 1) at 2. apply Rmult_le_compat; lra. }
  assert (Hi : Rabs ((1 - 2 * X) * r1 + w * (X * r2)) <= B * w ^ 4 + B * w ^ 4).
  { eapply Rle_trans; [apply Rabs_triang|]. rewrite !Rabs_mult, (Rabs_right w), (Rabs_right X) by lra.
    assert (Rabs (1 - 2 * X) <= 1) by (apply Rabs_le; lra).
    assert (Rabs (1 - 2 * X) * Rabs r1 <= 1 * Rabs r1) by (apply Rmult_le_compat_r; [apply Rabs_pos|auto]).
    assert (X * (w * Rabs r2) <= 1 * (w * Rabs r2)) by (apply Rmult_le_compat_r; [apply Rmult_le_pos; [lra|apply Rabs_pos]|lra]). lra. }
  eapply Rle_trans; [apply Rabs_triang|]. rewrite Rabs_Ropp. eapply Rle_trans; [apply Rplus_le_compat_r; apply Rabs_triang|].
  rewrite (Rabs_mult X), (Rabs_right X), (Rabs_mult (X * (X - 1))) by lra.
  assert (X * Rabs r1 <= 1 * Rabs r1) by (apply Rmult_le_compat_r; [apply Rabs_pos|lra]).
  assert (Rabs (X * (X - 1)) * Rabs ((1 - 2 * X) * r1 + w * (X * r2)) <= 1 * (B * w ^ 4 + B * w ^ 4))
    by (apply Rmult_le_compat; auto; apply Rabs_pos). lra.
Qed.

Section Run.
Context {E : @Env Rops}.
Variables (rhs : @rhs_t Rops) (n : nat) (L t0 te Bd : R) (y : R -> list R) (D : nat -> R -> list R).
Hypothesis HL : lipschitz n L rhs.
Hypothesis HB : 0 <= Bd.
Hypothesis D0 : forall t, D 0%nat t = y t.
Hypothesis HR : forall t, t0 <= t <= te -> rhs t (D 0%nat t) = Ret (D 1%nat t).
Hypothesis HDl : forall t j, t0 <= t <= te -> (j <= 4)%nat -> length (D j t) = n.
Hypothesis HDt : forall j m t x i, (j + m <= 4)%nat -> (i < n)%nat -> t0 <= t -> 0 <= x -> t + x <= te ->
  Rabs (cmp i (D j (t + x)) - tpoly (fun q => cmp i (D (j + q)%nat t)) m x) <= Bd * x ^ m.

Lemma rhs_near' t u f e : t0 <= t <= te -> near e u (y t) -> rhs t u = Ret f -> near (L * e) f (D 1%nat t).
Proof.
  intros Ht Hu Hf. assert (Hl : length (y t) = n) by (rewrite <- D0; apply HDl; auto; lia).
  apply (proj2 (proj2 HL) t u (y t)); auto; [destruct Hu; congruence|rewrite <- D0; auto].
Qed.
Lemma hermite_hi e c h t a : 0 <= e -> 0 <= h ->
  buf_len 2 c -> wnear rhs t0 y 2 e c (buf_t c) h -> buf_t c <= te -> buf_t0 c <= t <= buf_t c ->
  hermite (OT := Rops) t c = Ret a ->
  near (5 * e + h * (L * e) + 4 * (Bd * h ^ 4)) (deref c a) (y t).
Proof.
  intros He Hh Bl W Hte Ht H. pose proof Bl as (B1 & B2 & B3). assert (HL0 : 0 <= L) by apply HL.
  destruct (wnear_top rhs t0 y 1 e c (buf_t c) h W) as (U1 & V1).
  destruct (W 1%nat ltac:(lia)) as (ti & yi & fi & A1 & A2 & A3 & V0 & A5 & A6 & U0).
  apply (rev_first _ 1 _ (@zero Rops) B1) in A1. apply (rev_first _ 1 _ [] B2) in A2. apply (rev_first _ 1 _ [] B3) in A3.
  assert (E1 : buf_t0 c = ti) by (rewrite <- A1; unfold buf_t0; destruct (ts c); reflexivity).
  assert (E2 : buf_y0 c = yi) by (rewrite <- A2; unfold buf_y0; destruct (ys c); reflexivity).
  assert (E3 : buf_f0 c = fi) by (rewrite <- A3; unfold buf_f0; destruct (fs c); reflexivity).
  rewrite <- E1, <- E2, <- E3 in *. clear A1 A2 A3 E1 E2 E3 ti yi fi.
  set (a0 := buf_t0 c) in *. set (b0 := buf_t c) in *.
  assert (P2 : 0 <= L * e) by (apply Rmult_le_pos; auto).
  assert (P3 : 0 <= h * (L * e)) by (apply Rmult_le_pos; auto).
  assert (P4 : 0 <= Bd * h ^ 4) by (apply Rmult_le_pos; auto; apply pow_le; auto).
  assert (Hl : forall t, t0 <= t <= te -> length (y t) = n) by (intros; rewrite <- D0; apply HDl; auto; lia).
  pose proof (Hl a0 ltac:(lra)) as La1. pose proof (Hl b0 ltac:(lra)) as Lb1. pose proof (Hl t ltac:(lra)) as Lt1.
  destruct (Req_dec t a0) as [->|Hne].
  - assert (Ha : a = CacheRow 0).
    { unfold hermite in H. fold a0 in H. replace (@eqb Rops a0 a0) with true in H by (symmetry; now apply Reqb_true). now injection H. }
    subst a. cbn [deref]. replace (nth 0 (ys c) []) with (buf_y0 c) by (unfold buf_y0; destruct (ys c); reflexivity).
    eapply near_mono; [|exact U0]. lra.
  - assert (Hab : a0 < b0) by lra.
    pose proof (HDl a0 1 ltac:(lra) ltac:(lia)) as La2. pose proof (HDl b0 1 ltac:(lra) ltac:(lia)) as Lb2.
    assert (N0 : near (L * e) (buf_f0 c) (D 1%nat a0)) by (apply (rhs_near' a0 (buf_y0 c)); auto; lra).
    assert (N1 : near (L * e) (buf_f c) (D 1%nat b0)) by (apply (rhs_near' b0 (buf_y c)); auto; lra).
    destruct U0 as (U0l & U0). destruct U1 as (U1l & U1). destruct N0 as (N0l & N0). destruct N1 as (N1l & N1).
    assert (SD : same_dim n c). { split; [|split; [|split]]; eapply eq_trans; eauto. }
    assert (Ln : length (deref c a) = n).
    { destruct (Nat.eq_dec n 0) as [En|En].
      - pose proof (hermite_eval c t Hne Hab) as He'. cbn zeta in He'. rewrite He' in H. injection H as <-. cbn [deref].
        destruct SD as (S1 & S2 & S3 & S4). auto 10 with vlen.
      - destruct (hermite_cmp c n t 0 SD ltac:(lia) Hab Hne) as (a' & Ha & Hln & _). rewrite Ha in H. injection H as <-. exact Hln. }
    split; [exact (eq_trans Ln (eq_sym Lt1))|].
    intros i Hi0. assert (Hin : (i < n)%nat) by (eapply Nat.lt_le_trans; [exact Hi0|apply Nat.eq_le_incl; exact Ln]).
    destruct (hermite_cmp c n t i SD Hin Hab Hne) as (a' & Ha & _ & Hv). rewrite Ha in H. injection H as <-. cbn zeta in Hv.
    refine (eq_ind_r (fun z => Rabs (z - cmp i (y t)) <= _) _ Hv). fold a0 b0.
    specialize (U0 i ltac:(rewrite U0l, La1; exact Hin)). specialize (U1 i ltac:(rewrite U1l, Lb1; exact Hin)).
    specialize (N0 i ltac:(rewrite N0l, La2; exact Hin)). specialize (N1 i ltac:(rewrite N1l, Lb2; exact Hin)).
    assert (Hw : b0 - a0 <= h). { eapply Rle_trans; [exact A6|]. cbn [INR]. lra. }
    set (X := (t - a0) / (b0 - a0)).
    assert (X0 : 0 <= X) by (unfold X, Rdiv; apply Rmult_le_pos; [lra|left; apply Rinv_0_lt_compat; lra]).
    assert (X1 : X <= 1). { unfold X. apply (Rmult_le_reg_r (b0 - a0)); [lra|]. unfold Rdiv. rewrite Rmult_assoc, Rinv_l, Rmult_1_r by lra. lra. }
    pose proof (cubic_exact (fun j x => cmp i (D j x)) a0 b0 t Bd HB Hab Ht ltac:(intros; apply HDt; auto; lra)) as Ex.
    pose proof (cubic_bound X (b0 - a0) _ _ _ _ e (L * e) (conj X0 X1) ltac:(lra) U0 U1 N0 N1) as Pe.
    cbv beta in Ex. rewrite !D0 in Ex. fold X in Ex.
    assert (Q1 : (b0 - a0) * (L * e) <= h * (L * e)) by (apply Rmult_le_compat_r; lra).
    assert (Q2 : (b0 - a0) ^ 4 <= h ^ 4) by (apply pow_incr; lra).
    assert (Q3 : Bd * (b0 - a0) ^ 4 <= Bd * h ^ 4) by (apply Rmult_le_compat_l; lra).
    eapply Rle_trans; [|apply Rle_trans with (5 * e + (b0 - a0) * (L * e) + 4 * (Bd * (b0 - a0) ^ 4)); [apply Rplus_le_compat; [exact Pe|exact Ex]|lra]].
    eapply Rle_trans; [|apply Rabs_triang]. right. f_equal. unfold cubic. change (@T Rops) with R. ring.
Qed.
End Run.
