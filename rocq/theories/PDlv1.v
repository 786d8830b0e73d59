(** The trials of a step of DOP853 end (C95). *)
From Coq Require Import List ZArith Bool Arith Lia Reals Lra.
From Verif Require Import Base Scalar Vec MBuffer MZeros MSteps MApi MClasses Laws Spec SpecInst PStep PCore PHist PBound PVecR SpecRK PDim PRK SpecDense PDense SpecCtl PCtl
  SpecConv PConv1 PLmm1 SpecLive SpecVL PVL1 PVL2.
Import ListNotations.
Open Scope R_scope.

Lemma stages_exist rhs n (Hk : keeps_dim (OT := Rops) n rhs) (Hdef : defined_on n rhs) t y h rows : length y = n -> forall cs K, length cs = length rows ->
  Forall (fun k => length k = n) K -> exists K', stages_of (OT := Rops) rhs t y h rows cs K K'.
Proof.
  intros Hy. induction rows as [|r rows IH]; intros [|c cs] K Hl HK; try discriminate; [exists K; constructor|]. injection Hl as Hl.
  assert (Lz : length (@vadd Rops y (@vscale Rops h (@lincomb Rops (@length (@T Rops) y) (firstn (length K) r) K))) = n).
  { apply vadd_len; [exact Hy|]. apply vscale_len. refine (eq_trans (f_equal (fun q => length (@lincomb Rops q _ K)) Hy) _). apply lincomb_len; auto. }
  destruct (Hdef (t + h * c) _ Lz) as (k & Hkk). pose proof (Hk _ _ _ Lz Hkk) as Lk.
  destruct (IH cs (K ++ [k]) Hl) as (K' & HK'); [apply Forall_app; split; [exact HK|constructor; [exact Lk|constructor]]|].
  exists K'. econstructor; [exact Hkk|exact HK'].
Qed.

Section N.
Context {E : @Env Rops}.
Hypothesis Hnm : @numba_mode Rops E = true.
(** the error norm of DOP853: an error, or a number at most the scaled error of the fifth order *)
Lemma norm_dop_cases E5 E3 (o : @options Rops) n (y : @vec Rops) (s : @st Rops) : length y = n -> length (state s) = n -> Forall (fun k => length k = n) (stages s) ->
  let e5 := scaled_rms o (state s) y (weighted E5 (hstep s) (stages s)) in
  norm_dop853 (E := E) E5 E3 o y s = Raise ZeroDivisionError \/ exists e, norm_dop853 (E := E) E5 E3 o y s = Ret e /\ 0 <= e <= e5.
Proof.
  intros Hy Hs HK e5. destruct (Req_EM_T e5 0) as [e0|e0].
  - left. assert (Q : @scaled_error_norm Rops y (buf_y (cache s)) (step_error n (hstep s) (stages s) E5) o = e5).
    { change (buf_y (cache s)) with (state s). rewrite (scaled_R o y (state s) _ n) by (auto using step_error_len).
      apply scaled_ext. intros i Hi. apply step_error_cmp; auto. exact (eq_ind _ (fun x => (i < x)%nat) Hi _ Hs). }
    unfold norm_dop853. rewrite Hy, Q, e0. cbv zeta. unfold sdiv at 1. rewrite Hnm. cbn [andb]. change (@mul Rops) with Rmult. rewrite Rmult_0_r, zero_R. change (@eqb Rops) with Reqb.
    replace (Reqb 0 0) with true by (symmetry; apply Reqb_true; reflexivity). reflexivity.
  - right. set (e3 := scaled_rms o (state s) y (weighted E3 (hstep s) (stages s))). exists (e5 / sqrt (1 + (e3 / (10 * e5)) ^ 2)).
    split; [refine (proj2 (computes_dop (E := E) E5 E3 o Hnm n y s Hy Hs HK) _ _); split; [exact e0|reflexivity]|].
    assert (P5 : 0 <= e5) by apply sqrt_pos.
    assert (Hq : 1 <= sqrt (1 + (e3 / (10 * e5)) ^ 2)).
    { rewrite <- sqrt_1 at 1. apply sqrt_le_1_alt. pose proof (pow2_ge_0 (e3 / (10 * e5))). lra. }
    set (r := sqrt _) in *. split; [apply Rmult_le_pos; [exact P5|left; apply Rinv_0_lt_compat; lra]|].
    apply (Rmult_le_reg_r r); [lra|]. unfold Rdiv. rewrite Rmult_assoc, Rinv_l by lra. rewrite Rmult_1_r. rewrite <- (Rmult_1_r e5) at 1. apply Rmult_le_compat_l; lra.
Qed.

Variables (rhs : @rhs_t Rops) (n : nat) (tb : @ext Rops) (Hm : R).
Hypothesis Hk : keeps_dim (OT := Rops) n rhs.
Hypothesis Hn : (1 <= n)%nat.
Variables (A : list (list R)) (B C E5 E3 : list R) (order : Z) (o : @options Rops).
Hypothesis HC : length C = length A.
Hypothesis HA : A <> [].
Hypothesis Hord : (0 <= order)%Z.
Hypothesis Htol : tolerances o.
Hypothesis Hshr : shrinking o.
Let q := Rmax (min_factor o) (safety_factor o).

Lemma dop_trials Ct D del a : 0 < del -> 0 <= a -> 0 <= Ct -> Ct * (a + 1) / atol o <= D -> del * D <= good_error o order ->
  forall k fuelc (s : @st Rops), (S k <= fuelc)%nat -> length (stages s) = S (length A) -> length (state s) = n -> length (deriv s) = n ->
  (forall h, 0 <= h -> @gt_ext Rops (now s + h) tb = false -> h <= Hm -> trial rhs n A B C E5 o Ct (now s) (state s) (deriv s) h a) ->
  0 < hstep s <= Hm -> @gt_ext Rops (now s + hstep s) tb = false -> hstep s * q ^ k <= del ->
  exists r s', @core_fsal Rops E fuelc A B C (norm_dop853 (E := E) E5 E3) o (error_exponent order) rhs s = (r, s') /\
    ((r = Ret tt /\ exists lh y' f', cache s' = push (cache s) (now s + lh) y' f' /\ Rmin (hstep s) (min_factor o * del) <= lh <= hstep s /\
        Rmin (hstep s) (min_factor o * del) <= hstep s' <= lh * max_factor o /\ vb n (a + lh * (Ct * (a + 1))) y') \/
     (r = Raise ZeroDivisionError /\ cache s' = cache s /\ Rmin (hstep s) (min_factor o * del) <= hstep s' <= hstep s)).
Proof.
  intros Hdel Ha HCt HD Hg. assert (PD : 0 <= D).
  { eapply Rle_trans; [|exact HD]. apply Rmult_le_pos; [apply Rmult_le_pos; lra|left; apply Rinv_0_lt_compat; apply Htol]. }
  pose proof (q_range o Hshr) as Pq. fold q in Pq. assert (Pmf : 0 < min_factor o < 1) by apply Hshr. assert (Pxf : 1 <= max_factor o) by apply Hshr.
  change (@T Rops) with R in *. set (mf := min_factor o : R) in *. set (xf := max_factor o : R) in *.
  assert (Acc : forall h e, 0 < h -> 0 <= e <= h * D -> h <= del -> accepted e /\ 1 <= factor o order e).
  { intros h e H0 He Hd. apply good_error_spec; auto. split; [lra|]. assert (h * D <= del * D) by (apply Rmult_le_compat_r; lra). lra. }
  assert (Bnd : forall h, 0 <= h -> h * (Ct * (a + 1) / atol o) <= h * D) by (intros; apply Rmult_le_compat_l; auto).
  assert (Fb : forall e, mf <= factor o order e <= xf) by (intros e; apply factor_bounds; unfold mf, xf in *; apply Rle_trans with 1; [left; apply Hshr|apply Hshr]).
  induction k as [|k IH]; intros fuelc s Hfu Hl Hy Hf Htr Hh Hgt Hkk.
  all: destruct fuelc as [|fuelc]; [lia|]; cbn [core_fsal].
  all: destruct (Htr (hstep s) ltac:(lra) Hgt ltac:(lra)) as (K & y1 & f1 & e5 & T1 & T2 & T3 & T4 & T5).
  all: assert (E1 : @fsal_fixed_step Rops A B C rhs s = (@Ret (@T Rops * @vec Rops) (now s + hstep s, y1), set_stages (K ++ [f1]) s))
    by (refine (proj2 (fsal_fixed_iff (OT := Rops) A B C rhs s (now s + hstep s) y1 (set_stages (K ++ [f1]) s) Hl HC HA) _); exists K, f1; auto).
  all: pose proof (fsal_trial_dim n rhs Hk A B C s _ y1 _ Hl HC HA Hy Hf E1) as (D1 & D2 & D3).
  all: destruct (rk_step_dim n rhs Hk _ _ _ _ _ _ _ _ _ Hy Hf T1) as (_ & HK).
  all: set (s1 := set_stages (K ++ [f1]) s) in *; cbn [stages s1 set_stages] in D2, D3; rewrite last_last in D2.
  all: unfold bind at 1; rewrite E1; unfold bind, get, lift.
  all: assert (HKs : Forall (fun k => length k = n) (stages s1)) by (apply Forall_app; split; [exact HK|constructor; [exact D2|constructor]]).
  all: destruct (norm_dop_cases E5 E3 o n y1 s1 D1 Hy HKs) as [En|(e & En & He)]; rewrite En.
  1, 3: eexists _, s1; split; [reflexivity|]; right; split; [reflexivity|]; split; [reflexivity|]; split; [apply Rmin_l|apply Rle_refl].
  all: assert (He' : 0 <= e <= hstep s * D) by (unfold fsal_error in T3; subst e5; specialize (Bnd (hstep s) ltac:(lra)); cbn [hstep stages s1 set_stages] in He; change (state s1) with (state s) in He; lra).
  all: destruct (step_update_eq (E := E) e o order s1 Hord) as (b & Eu & Hb); rewrite Eu.
  all: assert (Hdone : b = true -> exists r s', (if b then (push_st (OT := Rops) (now s + hstep s) y1 (last (stages (@set_h Rops (hstep s1 * factor o order e) s1)) [])) (@set_h Rops (hstep s1 * factor o order e) s1) else (Raise ZeroDivisionError, s)) = (r, s') /\
     ((r = Ret tt /\ exists lh y' f', cache s' = push (cache s) (now s + lh) y' f' /\ Rmin (hstep s) (mf * del) <= lh <= hstep s /\
        Rmin (hstep s) (mf * del) <= hstep s' <= lh * xf /\ vb n (a + lh * (Ct * (a + 1))) y') \/
     (r = Raise ZeroDivisionError /\ cache s' = cache s /\ Rmin (hstep s) (mf * del) <= hstep s' <= hstep s))).
  1, 3: intros ->; eexists _, _; split; [reflexivity|]; left; split; [reflexivity|]; exists (hstep s), y1, f1;
    (split; [unfold s1; cbn [cache set_cache stages set_h set_stages]; rewrite last_last; reflexivity|]); (split; [split; [apply Rmin_l|lra]|]);
    (split; [|exact T4]); cbn [hstep s1 set_h set_stages set_cache]; split; [|apply Rmult_le_compat_l; [lra|apply Fb]];
    destruct (Rle_dec (hstep s) del) as [Hd|Hd];
    [destruct (Acc (hstep s) e ltac:(lra) He' Hd) as (_ & F1); eapply Rle_trans; [apply Rmin_l|]; rewrite <- (Rmult_1_r (hstep s)) at 1; apply Rmult_le_compat_l; lra
    |eapply Rle_trans; [apply Rmin_r|]; rewrite Rmult_comm; apply Rmult_le_compat; try lra; apply Fb].
  - destruct (Acc (hstep s) e ltac:(lra) He' ltac:(cbn in Hkk; lra)) as (T6 & _). apply Hb in T6. specialize (Hdone T6). rewrite T6 in *. exact Hdone.
  - destruct b; [exact (Hdone eq_refl)|]. assert (T6 : ~ accepted e) by (intros Q; apply Hb in Q; discriminate).
    assert (Hd : del < hstep s). { apply Rnot_le_lt. intros Hd. apply T6. now apply (Acc (hstep s) e). }
    destruct (reject_factor o order e Hord Hshr T6) as ((F0 & F1) & F2). fold mf in F0, F1. change (factor o order e <= q) in F2. set (fa := factor o order e) in *.
    set (h := hstep s) in *.
    assert (Ph : 0 < h * fa) by (apply Rmult_lt_0_compat; lra).
    assert (Hle : h * fa <= h * q) by (apply Rmult_le_compat_l; lra). assert (Hlq : h * q <= h * 1) by (apply Rmult_le_compat_l; lra).
    assert (Hg' : @gt_ext Rops (now s + h * fa) tb = false) by (apply allowed_time; auto; lra).
    destruct (IH fuelc (@set_h Rops (hstep s1 * fa) s1)) as (r & s' & X1 & X2).
    + lia.
    + cbn [stages set_h s1 set_stages]. rewrite D3. reflexivity.
    + exact Hy.
    + exact Hf.
    + exact Htr.
    + change (0 < h * fa <= Hm). lra.
    + exact Hg'.
    + change (h * fa * q ^ k <= del). cbn [pow] in Hkk. pose proof (pow_lt q k ltac:(lra)). apply Rle_trans with (h * q * q ^ k); [apply Rmult_le_compat_r; lra|lra].
    + exists r, s'. split; [exact X1|].
      change (hstep (@set_h Rops (hstep s1 * fa) s1)) with (h * fa) in X2. change (cache (@set_h Rops (hstep s1 * fa) s1)) with (cache s) in X2.
      change (now (@set_h Rops (hstep s1 * fa) s1)) with (now s) in X2.
      assert (Low : Rmin h (mf * del) <= Rmin (h * fa) (mf * del)).
      { apply Rmin_glb; [|apply Rmin_r]. eapply Rle_trans; [apply Rmin_r|]. rewrite (Rmult_comm mf). apply Rmult_le_compat; lra. }
      destruct X2 as [(-> & lh & y' & f' & Z1 & Z2 & Z3 & Z4)|(-> & Z1 & Z2)].
      * left. split; [reflexivity|]. exists lh, y', f'. split; [exact Z1|]. split; [lra|]. split; [lra|exact Z4].
      * right. split; [reflexivity|]. split; [exact Z1|]. lra.
Qed.
End N.
