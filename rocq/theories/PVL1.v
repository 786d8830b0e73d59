(** Sizes of the trials of the variable step Runge-Kutta classes (C85). *)
From Coq Require Import List ZArith Bool Arith Lia Reals Lra.
From Verif Require Import Base Scalar Vec MBuffer MZeros MSteps MApi MClasses Laws Spec SpecInst PBound PVecR SpecRK PDim SpecDense PDense SpecCtl PCtl
  SpecConv PConv1 PLmm1 SpecLive SpecVL.
Import ListNotations.
Open Scope R_scope.

(** a vector of dimension [n] with components at most [c] *)
Definition vb (n : nat) (c : R) (v : list R) : Prop := length v = n /\ forall i, (i < n)%nat -> Rabs (cmp i v) <= c.
Lemma vb_mono n c c' v : c <= c' -> vb n c v -> vb n c' v.
Proof. intros H (H1 & H2). split; auto. intros i Hi. eapply Rle_trans; [now apply H2|exact H]. Qed.
Lemma vb_le n c c' K : c <= c' -> Forall (vb n c) K -> Forall (vb n c') K.
Proof. intros H. apply Forall_impl. intros v. now apply vb_mono. Qed.
Lemma vb_len n c K : Forall (vb n c) K -> Forall (fun k => length k = n) K.
Proof. apply Forall_impl. intros v. now intros (H & _). Qed.
Lemma dot_bound w i n c : 0 <= c -> (i < n)%nat -> forall K, Forall (vb n c) K -> Rabs (dot w (map (fun k => cmp i k) K)) <= sumA w * c.
Proof.
  intros Hc Hi. induction w as [|x w IH]; intros [|k K] F; cbn [map dot sumA fold_right]; try fold (sumA w).
  - rewrite Rabs_R0. lra.
  - rewrite Rabs_R0. lra.
  - rewrite Rabs_R0. pose proof (sumA_pos w). pose proof (Rabs_pos x). apply Rmult_le_pos; lra.
  - inversion F as [|? ? (F1 & F2) F3]; subst. eapply Rle_trans; [apply Rabs_triang|]. rewrite Rabs_mult, Rmult_plus_distr_r.
    apply Rplus_le_compat; [apply Rmult_le_compat_l; [apply Rabs_pos|now apply F2]|now apply IH].
Qed.
Lemma sumA_firstn w : forall j, sumA (firstn j w) <= sumA w.
Proof.
  induction w as [|x w IH]; intros [|j]; cbn [firstn sumA fold_right]; try fold (sumA w); try fold (sumA (firstn j w)); try lra.
  - pose proof (sumA_pos w). pose proof (Rabs_pos x). lra.
  - specialize (IH j). lra.
Qed.
Lemma lincomb_bound n c w K : 0 <= c -> Forall (vb n c) K -> vb n (sumA w * c) (@lincomb Rops n w K).
Proof.
  intros Hc F. pose proof (vb_len _ _ _ F) as FL. split; [now apply lincomb_len|]. intros i Hi. rewrite lincomb_cmp by auto. now apply (dot_bound w i n).
Qed.
Lemma vadd_bound n a b u v : vb n a u -> vb n b v -> vb n (a + b) (@vadd Rops u v).
Proof.
  intros (H1 & H2) (H3 & H4). split; [now apply vadd_len|]. intros i Hi. rewrite (vadd_cmp n) by auto.
  eapply Rle_trans; [apply Rabs_triang|]. apply Rplus_le_compat; auto.
Qed.
Lemma vscale_bound n h a u : 0 <= h -> vb n a u -> vb n (h * a) (@vscale Rops h u).
Proof.
  intros Hh (H1 & H2). split; [now apply vscale_len|]. intros i Hi. rewrite vscale_cmp, Rabs_mult, (Rabs_pos_eq h) by auto. apply Rmult_le_compat_l; auto.
Qed.
Lemma sumA_scale h w : 0 <= h -> sumA (map (Rmult h) w) = h * sumA w.
Proof.
  intros Hh. induction w as [|x w IH]; cbn [map sumA fold_right]; [lra|]. fold (sumA w) (sumA (map (Rmult h) w)). rewrite IH, Rabs_mult, (Rabs_pos_eq h) by auto. lra.
Qed.

Lemma abs_split a b p q : Rabs (a - b) <= p -> Rabs b <= q -> Rabs a <= p + q.
Proof. intros. replace a with ((a - b) + b) by ring. eapply Rle_trans; [apply Rabs_triang|]. lra. Qed.

(** t + h is allowed, hence so is every time before *)
Lemma allowed_time (tb : @ext Rops) t h c : 0 <= h -> 0 <= c <= 1 -> @gt_ext Rops (t + h) tb = false -> @gt_ext Rops (t + h * c) tb = false.
Proof.
  intros Hh Hc. destruct tb as [b|]; [|auto]. cbn. intros H. apply Rltb_false in H. apply Rltb_false.
  assert (h * c <= h * 1) by (apply Rmult_le_compat_l; lra). lra.
Qed.

Section B.
Variables (rhs : @rhs_t Rops) (n : nat) (L M t0 : R) (tb : @ext Rops) (Hm : R).
Hypothesis HL : lipschitz n L rhs.
Hypothesis Hdef : defined_on n rhs.
Hypothesis HM : 0 <= M.
Hypothesis HB : bounded_at_zero n M t0 tb rhs.
Hypothesis HHm : 0 <= Hm.
Let G := L + M.
Lemma G_pos : 0 <= G. Proof. unfold G. destruct HL. lra. Qed.

(** linear growth *)
Lemma growth t y a : t0 <= t -> @gt_ext Rops t tb = false -> 0 <= a -> vb n a y -> exists f, rhs t y = Ret f /\ vb n (G * (a + 1)) f.
Proof.
  intros Ht Hg Ha (Ly & Hy). destruct (Hdef t y Ly) as (f & Hf). exists f. split; [exact Hf|].
  destruct HL as (HL0 & Hk & Hlip). destruct (HB t Ht Hg) as (f0 & Hf0 & Hf0b).
  assert (L0 : length (repeat 0 n) = n) by apply repeat_length.
  assert (N : near a y (repeat 0 n)).
  { split; [exact (eq_trans Ly (eq_sym L0))|]. intros i Hi. replace (cmp i (repeat 0 n)) with 0 by (symmetry; apply nth_repeat). rewrite Rminus_0_r. apply Hy. rewrite <- Ly. exact Hi. }
  destruct (Hlip t y (repeat 0 n) f f0 a Ly L0 N Hf Hf0) as (N1 & N2). pose proof (Hk t y f Ly Hf) as Lf.
  split; [exact Lf|]. intros i Hi. specialize (N2 i (eq_ind_r (fun q => (i < q)%nat) Hi Lf)). specialize (Hf0b i Hi).
  apply Rle_trans with (L * a + M); [exact (abs_split _ _ _ _ N2 Hf0b)|]. unfold G. assert (0 <= M * a) by (apply Rmult_le_pos; auto). lra.
Qed.

(** the stages of a trial exist and grow at most linearly in the state *)
Lemma stages_bounded rows : forall cs c0, length cs = length rows -> Forall (fun c => 0 <= c <= 1) cs -> 0 <= c0 ->
  exists c1, c0 <= c1 /\ forall t y h a K, t0 <= t -> @gt_ext Rops (t + h) tb = false -> 0 <= h <= Hm -> 0 <= a -> vb n a y ->
    Forall (vb n (c0 * (a + 1))) K -> exists K', stages_of (OT := Rops) rhs t y h rows cs K K' /\ Forall (vb n (c1 * (a + 1))) K'.
Proof.
  induction rows as [|r rows IH]; intros [|c cs] c0 Hl Hc Hc0; try discriminate.
  - exists c0. split; [lra|]. intros t y h a K _ _ _ _ _ F. exists K. split; [constructor|exact F].
  - injection Hl as Hl. inversion Hc as [|? ? Hc1 Hc2]; subst. pose proof G_pos as PG. pose proof (sumA_pos r) as PS.
    set (c' := c0 + G * (1 + Hm * (sumA r * c0))).
    assert (Pq : 0 <= Hm * (sumA r * c0)) by (repeat apply Rmult_le_pos; auto).
    assert (Pc : 0 <= G * (1 + Hm * (sumA r * c0))) by (apply Rmult_le_pos; lra).
    destruct (IH cs c' Hl Hc2 ltac:(unfold c'; lra)) as (c1 & H1 & H2). exists c1. split; [unfold c' in H1; lra|].
    intros t y h a K Ht Hg Hh Ha Hy F.
    assert (Pca : 0 <= c0 * (a + 1)) by (apply Rmult_le_pos; lra).
    pose proof (lincomb_bound n (c0 * (a + 1)) (firstn (length K) r) K Pca F) as B1.
    pose proof (vscale_bound n h _ _ (proj1 Hh) B1) as B2. pose proof (vadd_bound n _ _ _ _ Hy B2) as B3.
    set (a' := (1 + Hm * (sumA r * c0)) * (a + 1) - 1).
    assert (Ha' : a + h * (sumA (firstn (length K) r) * (c0 * (a + 1))) <= a').
    { unfold a'. assert (Q1 : sumA (firstn (length K) r) * (c0 * (a + 1)) <= sumA r * (c0 * (a + 1))) by (apply Rmult_le_compat_r; [auto|apply sumA_firstn]).
      assert (Q2 : 0 <= sumA (firstn (length K) r) * (c0 * (a + 1))) by (apply Rmult_le_pos; [apply sumA_pos|auto]).
      assert (Q3 : h * (sumA (firstn (length K) r) * (c0 * (a + 1))) <= Hm * (sumA r * (c0 * (a + 1)))) by (apply Rmult_le_compat; lra).
      replace ((1 + Hm * (sumA r * c0)) * (a + 1) - 1) with (a + Hm * (sumA r * (c0 * (a + 1)))) by ring. lra. }
    assert (Pa' : 0 <= a').
    { eapply Rle_trans; [|exact Ha']. assert (0 <= h * (sumA (firstn (length K) r) * (c0 * (a + 1)))) by (apply Rmult_le_pos; [lra|apply Rmult_le_pos; [apply sumA_pos|auto]]). lra. }
    assert (Tc : t0 <= t + h * c). { assert (0 <= h * c) by (apply Rmult_le_pos; lra). lra. }
    destruct (growth (t + h * c) _ a' Tc (allowed_time tb t h c (proj1 Hh) Hc1 Hg) Pa' (vb_mono _ _ _ _ Ha' B3)) as (k & Hk & Bk).
    assert (Ek : G * (a' + 1) <= c' * (a + 1)).
    { unfold a', c'. replace (G * ((1 + Hm * (sumA r * c0)) * (a + 1) - 1 + 1)) with (G * (1 + Hm * (sumA r * c0)) * (a + 1)) by ring. apply Rmult_le_compat_r; lra. }
    destruct (H2 t y h a (K ++ [k]) Ht Hg Hh Ha Hy) as (K' & S1 & S2).
    { apply Forall_app. split; [|constructor; [eapply vb_mono; eauto|constructor]]. eapply vb_le; [|exact F]. apply Rmult_le_compat_r; [lra|]. unfold c'. lra. }
    exists K'. split; [|exact S2]. econstructor; [|exact S1]. change (@length (@T Rops) y) with (@length R y). rewrite (proj1 Hy). exact Hk.
Qed.
End B.
