(** The trials of a step of RungeKutta23 or RungeKutta45 end (C85). *)
From Coq Require Import List ZArith Bool Arith Lia Reals Lra.
From Verif Require Import Base Scalar Vec MBuffer MZeros MSteps MApi MClasses Laws Spec SpecInst PBound PVecR SpecRK PDim SpecDense PDense SpecCtl PCtl
  SpecConv PConv1 PLmm1 SpecLive SpecVL PVL1.
Import ListNotations.
Open Scope R_scope.

Lemma Rsum_le f b n : (forall i, (i < n)%nat -> f i <= b) -> Rsum f n <= INR n * b.
Proof.
  revert f. induction n as [|n IH]; intros f H; [unfold Rsum; cbn; lra|]. rewrite Rsum_S, S_INR.
  specialize (IH (fun k => f (S k)) ltac:(intros; apply H; lia)). specialize (H 0%nat ltac:(lia)). lra.
Qed.
Lemma Rsum_pos f n : (forall i, (i < n)%nat -> 0 <= f i) -> 0 <= Rsum f n.
Proof.
  revert f. induction n as [|n IH]; intros f H; [unfold Rsum; cbn; lra|]. rewrite Rsum_S.
  specialize (IH (fun k => f (S k)) ltac:(intros; apply H; lia)). specialize (H 0%nat ltac:(lia)). lra.
Qed.
(** the scaled error is at most the largest component over atol *)
Lemma rms_bound (o : @options Rops) yold y err b : tolerances o -> 0 <= b -> (1 <= length yold)%nat ->
  (forall i, (i < length yold)%nat -> Rabs (err i) <= b) -> 0 <= scaled_rms o yold y err <= b / atol o.
Proof.
  intros (Ha & Hr) Hb Hn H. unfold scaled_rms. split; [apply sqrt_pos|].
  assert (Pn : 0 < INR (length yold)) by (apply lt_0_INR; lia).
  assert (Pb : 0 <= b / atol o) by (apply Rmult_le_pos; [auto|left; apply Rinv_0_lt_compat; exact Ha]).
  rewrite <- (sqrt_Rsqr (b / atol o)) by exact Pb. apply sqrt_le_1_alt. unfold Rsqr.
  apply Rmult_le_reg_r with (INR (length yold)); [exact Pn|]. unfold Rdiv at 1. rewrite Rmult_assoc, Rinv_l by lra. rewrite Rmult_1_r.
  rewrite (Rmult_comm (b / atol o * (b / atol o))). apply Rsum_le. intros i Hi.
  set (d := atol o + rtol o * Rmax (Rabs (cmp i y)) (Rabs (cmp i yold))).
  assert (Hd : atol o <= d).
  { unfold d. assert (0 <= rtol o * Rmax (Rabs (cmp i y)) (Rabs (cmp i yold))) by (apply Rmult_le_pos; [exact Hr|]; eapply Rle_trans; [apply Rabs_pos|apply Rmax_l]).
    match goal with |- ?u <= ?v + ?w => change (u <= u + w) end. lra. }
  assert (Pa : 0 < atol o) by exact Ha. change (@T Rops) with R in *. set (at_ := atol o : R) in *.
  assert (Q : Rabs (err i / d) <= b / at_).
  { unfold Rdiv. rewrite Rabs_mult, Rabs_inv, (Rabs_pos_eq d) by lra. apply Rmult_le_compat; [apply Rabs_pos|left; apply Rinv_0_lt_compat; lra|now apply H|].
    apply Rinv_le_contravar; lra. }
  cbn [pow]. rewrite Rmult_1_r. rewrite <- (Rabs_pos_eq (err i / d * (err i / d))) by apply Rle_0_sqr. rewrite Rabs_mult. apply Rmult_le_compat; auto; apply Rabs_pos.
Qed.

(** an error below this makes the controller not reduce the step *)
Definition good_error (o : @options Rops) (order : Z) : R := Rpower (safety_factor o) (IZR (order + 1)).
Lemma good_error_spec (o : @options Rops) order e : (0 <= order)%Z -> shrinking o -> 0 <= e <= good_error o order -> accepted e /\ 1 <= factor o order e.
Proof.
  intros Ho (Hmn & Hs & Hmx) He. pose proof He as (He0 & He1). unfold good_error in He1.
  assert (Pz : 0 < IZR (order + 1)) by (apply IZR_lt; lia). assert (Ps : 0 < safety_factor o < 1) by exact Hs.
  change (@T Rops) with R in *. set (sf := safety_factor o : R) in *.
  assert (S1 : Rpower sf (IZR (order + 1)) < 1).
  { unfold Rpower. rewrite <- exp_0. apply exp_increasing. assert (ln sf < 0) by (rewrite <- ln_1; apply ln_increasing; lra).
    replace 0 with (IZR (order + 1) * 0) by ring. apply Rmult_lt_compat_l; auto. }
  split; [right; lra|]. unfold factor. destruct (Req_EM_T e 0) as [|e0]; [exact Hmx|]. apply Rmin_glb; [exact Hmx|].
  eapply Rle_trans; [|apply Rmax_r]. assert (Pe : 0 < e) by lra.
  assert (Q : Rpower e (1 / IZR (order + 1)) <= sf).
  { apply Rle_trans with (Rpower (Rpower sf (IZR (order + 1))) (1 / IZR (order + 1))); [apply Rle_Rpower_l|].
    - apply Rlt_le, Rdiv_lt_0_compat; lra.
    - lra.
    - rewrite Rpower_mult. replace (IZR (order + 1) * (1 / IZR (order + 1))) with 1 by (field; lra). rewrite Rpower_1; lra. }
  assert (Pp : 0 < Rpower e (1 / IZR (order + 1))) by apply exp_pos.
  apply Rmult_le_reg_r with (Rpower e (1 / IZR (order + 1))); [exact Pp|]. unfold Rdiv at 2. fold sf. rewrite Rmult_assoc, Rinv_l by lra. lra.
Qed.
Lemma reject_factor (o : @options Rops) order e : (0 <= order)%Z -> shrinking o -> ~ accepted e ->
  0 < min_factor o <= factor o order e /\ factor o order e <= Rmax (min_factor o) (safety_factor o).
Proof.
  intros Ho (Hmn & Hs & Hmx) He. assert (Hmm : min_factor o <= max_factor o) by (apply Rle_trans with 1; [lra|exact Hmx]).
  pose proof (factor_bounds o order e Hmm) as (B1 & _). split; [split; [apply Hmn|exact B1]|].
  unfold factor, accepted in *. destruct (Req_EM_T e 0) as [|e0]; [tauto|]. assert (H1 : 1 <= e) by lra.
  assert (Hp : 1 <= Rpower e (1 / IZR (order + 1))).
  { apply Rpower_ge1; auto. apply Rlt_le, Rdiv_lt_0_compat; [lra|]. apply IZR_lt. lia. }
  eapply Rle_trans; [apply Rmin_r|]. apply Rmax_lub; [apply Rmax_l|]. eapply Rle_trans; [|apply Rmax_r].
  apply Rmult_le_reg_r with (Rpower e (1 / IZR (order + 1))); [lra|]. unfold Rdiv. rewrite Rmult_assoc, Rinv_l by lra. rewrite Rmult_1_r.
  destruct Hs as (Hs1 & _). apply Rle_trans with (safety_factor o * 1); [right; symmetry; apply Rmult_1_r|]. apply Rmult_le_compat_l; [left; exact Hs1|exact Hp].
Qed.

Section T.
Variables (rhs : @rhs_t Rops) (n : nat) (L M t0 : R) (tb : @ext Rops) (Hm : R).
Hypothesis HL : lipschitz n L rhs.
Hypothesis Hdef : defined_on n rhs.
Hypothesis HM : 0 <= M.
Hypothesis HB : bounded_at_zero n M t0 tb rhs.
Hypothesis HHm : 0 <= Hm.
Hypothesis Hn : (1 <= n)%nat.
Variables (A : list (list R)) (B C Ew : list R) (order : Z) (o : @options Rops).
Hypothesis HC : length C = length A.
Hypothesis HA : A <> [].
Hypothesis Hcs : Forall (fun c => 0 <= c <= 1) (skipn 1 C).
Hypothesis Hord : (0 <= order)%Z.
Hypothesis Htol : tolerances o.
Hypothesis Hshr : shrinking o.

(** one trial from (t, y) with step h: it can be made, and the change of the state
    and the error are at most proportional to h *)
Definition trial (Ct : R) (t : R) (y f : list R) (h a : R) : Prop :=
  exists K y' f' e, rk_step (OT := Rops) rhs A B C t y f h K y' /\ rhs (t + h) y' = Ret f' /\
    fsal_error o Ew y y' h (K ++ [f']) e /\ vb n (a + h * (Ct * (a + 1))) y' /\ 0 <= e <= h * (Ct * (a + 1) / atol o).
Lemma trial_ex : exists Ct, 0 <= Ct /\ forall t y f h a, t0 <= t -> @gt_ext Rops (t + h) tb = false -> 0 <= h <= Hm -> 0 <= a -> vb n a y ->
  rhs t y = Ret f -> trial Ct t y f h a.
Proof.
  pose proof (G_pos rhs n L M HL HM) as PG. set (G := L + M) in *.
  destruct (stages_bounded rhs n L M t0 tb Hm HL Hdef HM HB HHm (skipn 1 A) (skipn 1 C) G) as (c1 & H1 & H2); auto.
  { rewrite !skipn_length. now rewrite HC. }
  assert (Pc1 : 0 <= c1) by lra. pose proof (sumA_pos B) as PB. pose proof (sumA_pos Ew) as PE.
  set (c2 := G * (1 + Hm * (sumA B * c1))).
  assert (P2 : 0 <= Hm * (sumA B * c1)) by (repeat apply Rmult_le_pos; auto). assert (Pc2 : 0 <= c2) by (unfold c2; apply Rmult_le_pos; lra).
  assert (P3 : 0 <= sumA B * c1) by (apply Rmult_le_pos; auto). assert (P4 : 0 <= sumA Ew * (c1 + c2)) by (apply Rmult_le_pos; lra).
  exists (sumA B * c1 + sumA Ew * (c1 + c2)). split; [lra|]. intros t y f h a Ht Hg Hh Ha Hy Hf.
  assert (Hg0 : @gt_ext Rops t tb = false).
  { pose proof (allowed_time tb t h 0 (proj1 Hh) ltac:(lra) Hg) as Q. rewrite Rmult_0_r, Rplus_0_r in Q. exact Q. }
  destruct (growth rhs n L M t0 tb HL Hdef HM HB t y a Ht Hg0 Ha Hy) as (f1 & Hf1 & Bf). assert (f1 = f) by congruence. subst f1. fold G in Bf.
  destruct (H2 t y h a [f] Ht Hg Hh Ha Hy ltac:(constructor; [exact Bf|constructor])) as (K & S1 & S2).
  assert (Pw : 0 <= c1 * (a + 1)) by (apply Rmult_le_pos; lra).
  set (y' := rk_combine (OT := Rops) y h B K).
  assert (By : vb n (a + h * (sumA B * c1 * (a + 1))) y').
  { unfold y', rk_combine. change (@length (@T Rops) y) with (@length R y). rewrite (proj1 Hy). apply vadd_bound; [exact Hy|].
    replace (h * (sumA B * c1 * (a + 1))) with (sumA (map (Rmult h) B) * (c1 * (a + 1))) by (rewrite sumA_scale by lra; ring).
    apply lincomb_bound; auto. }
  set (a' := (1 + Hm * (sumA B * c1)) * (a + 1) - 1).
  assert (Ha' : a + h * (sumA B * c1 * (a + 1)) <= a').
  { unfold a'. assert (h * (sumA B * c1 * (a + 1)) <= Hm * (sumA B * c1 * (a + 1))) by (apply Rmult_le_compat_r; [apply Rmult_le_pos; lra|lra]).
    replace ((1 + Hm * (sumA B * c1)) * (a + 1) - 1) with (a + Hm * (sumA B * c1 * (a + 1))) by ring. lra. }
  assert (Pa' : 0 <= a'). { eapply Rle_trans; [|exact Ha']. assert (0 <= h * (sumA B * c1 * (a + 1))) by (apply Rmult_le_pos; [lra|apply Rmult_le_pos; lra]). lra. }
  destruct (growth rhs n L M t0 tb HL Hdef HM HB (t + h) y' a' ltac:(lra) Hg Pa' (vb_mono _ _ _ _ Ha' By)) as (f' & Hf' & Bf'). fold G in Bf'.
  replace (G * (a' + 1)) with (c2 * (a + 1)) in Bf' by (unfold a', c2; ring).
  assert (BK : Forall (vb n ((c1 + c2) * (a + 1))) (K ++ [f'])).
  { assert (0 <= c2 * (a + 1)) by (apply Rmult_le_pos; lra). apply Forall_app. split; [eapply vb_le; [|exact S2]; lra|]. constructor; [|constructor]. eapply vb_mono; [|exact Bf']. lra. }
  exists K, y', f', (scaled_rms o y y' (weighted Ew h (K ++ [f']))).
  split; [split; [exact S1|reflexivity]|]. split; [exact Hf'|]. split; [reflexivity|]. split.
  - eapply vb_mono; [|exact By]. apply Rplus_le_compat_l. apply Rmult_le_compat_l; [lra|]. apply Rmult_le_compat_r; lra.
  - assert (Pcc : 0 <= (c1 + c2) * (a + 1)) by (apply Rmult_le_pos; lra).
    destruct (rms_bound o y y' (weighted Ew h (K ++ [f'])) (h * (sumA Ew * ((c1 + c2) * (a + 1)))) Htol) as (R1 & R2).
    + apply Rmult_le_pos; [lra|]. apply Rmult_le_pos; auto.
    + rewrite (proj1 Hy). exact Hn.
    + intros i Hi. rewrite (proj1 Hy) in Hi. unfold weighted. rewrite Rabs_mult, (Rabs_pos_eq h) by lra. apply Rmult_le_compat_l; [lra|]. now apply (dot_bound Ew i n).
    + split; [exact R1|]. eapply Rle_trans; [exact R2|]. unfold Rdiv. rewrite (Rmult_assoc h). apply Rmult_le_compat_l; [lra|].
      apply Rmult_le_compat_r; [left; apply Rinv_0_lt_compat; apply Htol|]. rewrite <- Rmult_assoc. apply Rmult_le_compat_r; lra.
Qed.

(** the trials of a step, when the error is at most h D *)
Let q := Rmax (min_factor o) (safety_factor o).
Lemma q_range : 0 < q < 1.
Proof. unfold q. destruct Hshr as ((H1 & H2) & (H3 & H4) & _). split; [eapply Rlt_le_trans; [exact H1|apply Rmax_l]|]. now apply Rmax_lub_lt. Qed.
Lemma trials_end Ct D del t y f a : 0 < del -> 0 <= a -> 0 <= Ct -> Ct * (a + 1) / atol o <= D -> del * D <= good_error o order ->
  (forall h, 0 <= h -> @gt_ext Rops (t + h) tb = false -> h <= Hm -> trial Ct t y f h a) ->
  forall k h, 0 < h <= Hm -> @gt_ext Rops (t + h) tb = false -> h * q ^ k <= del ->
  exists l y' f' h', attempts rhs A B C (fsal_error o Ew) o order t y f h l y' f' h' /\ (length l <= S k)%nat /\
    Rmin h (min_factor o * del) <= last_h l <= h /\ Rmin h (min_factor o * del) <= h' <= last_h l * max_factor o /\
    vb n (a + last_h l * (Ct * (a + 1))) y'.
Proof.
  intros Hdel Ha HCt HD Hg Htr. assert (PD : 0 <= D).
  { eapply Rle_trans; [|exact HD]. apply Rmult_le_pos; [apply Rmult_le_pos; lra|left; apply Rinv_0_lt_compat; apply Htol]. }
  pose proof q_range as Pq. assert (Pmf : 0 < min_factor o < 1) by apply Hshr. assert (Pxf : 1 <= max_factor o) by apply Hshr.
  change (@T Rops) with R in *. set (mf := min_factor o : R) in *. set (xf := max_factor o : R) in *.
  assert (Acc : forall h e, 0 < h -> 0 <= e <= h * D -> h <= del -> accepted e /\ 1 <= factor o order e).
  { intros h e H0 He Hd. apply good_error_spec; auto. split; [lra|]. assert (h * D <= del * D) by (apply Rmult_le_compat_r; lra). lra. }
  assert (Bnd : forall h, 0 <= h -> h * (Ct * (a + 1) / atol o) <= h * D) by (intros; apply Rmult_le_compat_l; auto).
  assert (Fb : forall e, mf <= factor o order e <= xf) by (intros e; apply factor_bounds; unfold mf, xf in *; apply Rle_trans with 1; [left; apply Hshr|apply Hshr]).
  (* an accepted trial *)
  assert (Done : forall k h K y' f' e, 0 < h -> rk_step (OT := Rops) rhs A B C t y f h K y' -> rhs (t + h) y' = Ret f' -> fsal_error o Ew y y' h (K ++ [f']) e ->
    vb n (a + h * (Ct * (a + 1))) y' -> 0 <= e <= h * D -> accepted e ->
    exists l y' f' h', attempts rhs A B C (fsal_error o Ew) o order t y f h l y' f' h' /\ (length l <= S k)%nat /\
      Rmin h (mf * del) <= last_h l <= h /\ Rmin h (mf * del) <= h' <= last_h l * xf /\ vb n (a + last_h l * (Ct * (a + 1))) y').
  { intros k h K y' f' e H0 T1 T2 T3 T4 T5 T6. exists [(h, e)], y', f', (h * factor o order e).
    split; [eapply att_accept; eauto|]. split; [cbn; lia|]. unfold last_h. cbn [last fst].
    split; [split; [apply Rmin_l|lra]|]. split; [|exact T4]. split; [|apply Rmult_le_compat_l; [lra|apply Fb]].
    destruct (Rle_dec h del) as [Hd|Hd].
    - destruct (Acc h e H0 T5 Hd) as (_ & F1). eapply Rle_trans; [apply Rmin_l|]. rewrite <- (Rmult_1_r h) at 1. apply Rmult_le_compat_l; lra.
    - eapply Rle_trans; [apply Rmin_r|]. rewrite Rmult_comm. apply Rmult_le_compat; try lra. apply Fb. }
  induction k as [|k IH]; intros h Hh Hgt Hk.
  - cbn in Hk. destruct (Htr h ltac:(lra) Hgt ltac:(lra)) as (K & y' & f' & e & T1 & T2 & T3 & T4 & T5).
    assert (T5' : 0 <= e <= h * D) by (specialize (Bnd h ltac:(lra)); lra).
    destruct (Acc h e ltac:(lra) T5' ltac:(lra)) as (T6 & _). eapply Done; eauto; lra.
  - destruct (Htr h ltac:(lra) Hgt ltac:(lra)) as (K & y1 & f1 & e & T1 & T2 & T3 & T4 & T5).
    assert (T5' : 0 <= e <= h * D) by (specialize (Bnd h ltac:(lra)); lra).
    assert (Dec : accepted e \/ ~ accepted e) by (unfold accepted; destruct (Req_EM_T e 0); destruct (Rlt_dec e 1); tauto).
    destruct Dec as [T6|T6]; [eapply Done; eauto; lra|].
    assert (Hd : del < h). { apply Rnot_le_lt. intros Hd. apply T6. now apply (Acc h e). }
    destruct (reject_factor o order e Hord Hshr T6) as ((F0 & F1) & F2). fold mf in F0, F1. change (factor o order e <= q) in F2. set (fa := factor o order e) in *.
    assert (Ph : 0 < h * fa) by (apply Rmult_lt_0_compat; lra).
    assert (Hle : h * fa <= h * q) by (apply Rmult_le_compat_l; lra). assert (Hlq : h * q <= h * 1) by (apply Rmult_le_compat_l; lra).
    assert (Hg' : @gt_ext Rops (t + h * fa) tb = false) by (apply allowed_time; auto; lra).
    destruct (IH (h * fa)) as (l & y' & f' & h' & A1 & A2 & A3 & A4 & A5).
    + lra.
    + exact Hg'.
    + cbn [pow] in Hk. pose proof (pow_lt q k ltac:(lra)). apply Rle_trans with (h * q * q ^ k); [apply Rmult_le_compat_r; lra|lra].
    + assert (Low : Rmin h (mf * del) <= Rmin (h * fa) (mf * del)).
      { apply Rmin_glb; [|apply Rmin_r]. eapply Rle_trans; [apply Rmin_r|]. rewrite (Rmult_comm mf). apply Rmult_le_compat; lra. }
      assert (Ell : last_h ((h, e) :: l) = last_h l) by (unfold last_h; destruct l as [|p l]; [inversion A1|reflexivity]).
      exists ((h, e) :: l), y', f', h'. rewrite Ell. split; [eapply att_reject; eauto|]. split; [cbn [length]; lia|]. split; [lra|]. split; [lra|exact A5].
Qed.
End T.
