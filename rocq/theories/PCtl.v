(** The controller (C36). *)
From Coq Require Import List ZArith QArith Bool Arith Lia Reals Lra.
From Verif Require Import Base Scalar Vec MBuffer MZeros MSteps MApi MDop853 MClasses Laws Spec SpecInst SpecRK SpecDense SpecMS SpecCtl
  PStep PKeeps PClean PCore PHist PBound PVecR PRun PFwd PInterp PRK PDim PDense SpecZeros PZeros PZeros2 PMS PMS2 PMS3.
Import ListNotations.
Open Scope R_scope.

Lemma npmax_R a b : @npmax Rops a b = Rmax a b.
Proof.
  unfold npmax. assert (E : @eqb Rops b b = true) by (apply Reqb_true; reflexivity). rewrite E. cbn [negb]. rewrite orb_false_r. apply (pymax_R a b).
Qed.
Lemma scaled_R o (y yold err : @vec Rops) n : length y = n -> length yold = n -> length err = n ->
  @scaled_error_norm Rops y yold err o = scaled_rms o yold y (fun i => cmp i err).
Proof.
  intros Hy Ho He. unfold scaled_error_norm, scaled_rms. change (@length R yold) with (@length (@T Rops) yold). rewrite Ho. change (@sqrtT Rops) with sqrt. apply f_equal.
  match goal with |- @vmean Rops ?l = _ => set (L := l) end.
  assert (EL : L = map (fun i => (cmp i err / (atol o + rtol o * Rmax (Rabs (cmp i y)) (Rabs (cmp i yold)))) ^ 2) (seq 0 n)).
  { apply (nth_ext _ _ 0 0).
    - unfold L. rewrite !map_length, seq_length, !map2_length, Hy, Ho, He. lia.
    - intros i Hi. assert (Hin : (i < n)%nat).
      { revert Hi. unfold L. rewrite !map_length, !map2_length, Hy, Ho, He. lia. }
      rewrite nth_map_sq by exact Hin. unfold L.
      rewrite (nth_map_lt _ _ i 0) by (rewrite !map2_length, Hy, Ho, He; lia).
      rewrite (map2_nth _ err _ i 0 0 0) by (rewrite ?map2_length; rewrite ?Hy, ?Ho, ?He; lia).
      rewrite (map2_nth _ y yold i 0 0 0) by (rewrite ?Hy, ?Ho; lia).
      rewrite npmax_R. change (@div Rops) with Rdiv. change (@mul Rops) with Rmult. change (@add Rops) with Rplus. change (@absT Rops) with Rabs.
      rewrite <- Rsqr_pow2. reflexivity. }
  rewrite EL. unfold vmean. rewrite map_length, seq_length. unfold Rsum.
  change (@div Rops) with Rdiv. f_equal.
  - unfold vsum. change (@add Rops) with Rplus. rewrite zero_R. etransitivity; [apply (fold_left_Rplus _ 0)|]. apply Rplus_0_l.
  - unfold ofnat, ofZ. rewrite lit_R. cbn [QArith_base.Qnum QArith_base.Qden inject_Z]. rewrite <- INR_IZR_INZ. unfold Rdiv. rewrite Rinv_1. apply Rmult_1_r.
Qed.
Lemma step_error_cmp n h K Ew i : Forall (fun k => length k = n) K -> (i < n)%nat ->
  cmp i (@step_error Rops n h K Ew) = weighted Ew h K i.
Proof. intros HK Hi. unfold step_error, weighted. rewrite vscale_cmp. apply f_equal. now apply lincomb_cmp. Qed.
Lemma step_error_len n h K Ew : Forall (fun k => length k = n) K -> length (@step_error Rops n h K Ew) = n.
Proof. intros HK. unfold step_error. apply vscale_len. now apply lincomb_len. Qed.
Lemma scaled_ext o yold y e1 e2 : (forall i, (i < length yold)%nat -> e1 i = e2 i) -> scaled_rms o yold y e1 = scaled_rms o yold y e2.
Proof. intros H. unfold scaled_rms. f_equal. f_equal. apply Rsum_ext. intros k Hk. now rewrite H. Qed.

Section C.
Context {E : @Env Rops}.

(** [norm] computes [err] *)
Definition computes (norm : @options Rops -> @vec Rops -> @st Rops -> outcome R) (o : @options Rops) (err : errfun) : Prop :=
  forall n y s, length y = n -> length (state s) = n -> Forall (fun k => length k = n) (stages s) ->
    (forall e, norm o y s = Ret e -> err (state s) y (hstep s) (stages s) e) /\
    (forall e, err (state s) y (hstep s) (stages s) e -> norm o y s = Ret e).

Lemma computes_fsal Ew o : computes (norm_fsal (OT := Rops) Ew) o (fsal_error o Ew).
Proof.
  intros n y s Hy Hs HK.
  assert (Eq : norm_fsal (OT := Rops) Ew o y s = Ret (scaled_rms o (state s) y (weighted Ew (hstep s) (stages s)))).
  { unfold norm_fsal. f_equal. change (buf_y (cache s)) with (state s). rewrite Hy.
    rewrite (scaled_R o y (state s) _ n) by (auto using step_error_len).
    apply scaled_ext. intros i Hi. apply step_error_cmp; auto. exact (eq_ind _ (fun x => (i < x)%nat) Hi _ Hs). }
  split; intros e H; [rewrite Eq in H; now injection H as <- | red in H; now rewrite Eq, H].
Qed.
Lemma scaled_pos o yold y e : 0 <= scaled_rms o yold y e.
Proof. apply sqrt_pos. Qed.
Lemma computes_dop E5 E3 o : @numba_mode Rops E = true -> computes (norm_dop853 (E := E) E5 E3) o (dop_error o E5 E3).
Proof.
  intros Hm n y s Hy Hs HK.
  assert (Q : forall Ew, @scaled_error_norm Rops y (buf_y (cache s)) (step_error n (hstep s) (stages s) Ew) o =
     scaled_rms o (state s) y (weighted Ew (hstep s) (stages s))).
  { intros Ew. change (buf_y (cache s)) with (state s).
    rewrite (scaled_R o y (state s) _ n) by (auto using step_error_len).
    apply scaled_ext. intros i Hi. apply step_error_cmp; auto. exact (eq_ind _ (fun x => (i < x)%nat) Hi _ Hs). }
  assert (Eq : norm_dop853 (E := E) E5 E3 o y s =
    let e5 := scaled_rms o (state s) y (weighted E5 (hstep s) (stages s)) in let e3 := scaled_rms o (state s) y (weighted E3 (hstep s) (stages s)) in
    if Req_EM_T e5 0 then Raise ZeroDivisionError else Ret (e5 / sqrt (1 + (e3 / (10 * e5)) ^ 2))).
  { unfold norm_dop853. rewrite Hy. rewrite !Q. cbv zeta.
    set (e5 := scaled_rms o (state s) y (weighted E5 (hstep s) (stages s))). set (e3 := scaled_rms o (state s) y (weighted E3 (hstep s) (stages s))).
    assert (L10 : @lit Rops 10 = 10) by (rewrite lit_R; cbn; lra).
    unfold sdiv at 1. rewrite Hm. cbn [andb]. rewrite L10. change (@mul Rops) with Rmult. change (@div Rops) with Rdiv. change (@add Rops) with Rplus.
    rewrite zero_R. change (@eqb Rops) with Reqb.
    destruct (Req_EM_T e5 0) as [e0|e0].
    - rewrite e0, Rmult_0_r. replace (Reqb 0 0) with true by (symmetry; apply Reqb_true; reflexivity). reflexivity.
    - replace (Reqb (10 * e5) 0) with false by (symmetry; apply Reqb_false; lra). cbn [obind].
      unfold sdiv. rewrite Hm. cbn [andb]. rewrite zero_R. change (@eqb Rops) with Reqb. change (@sqrtT Rops) with sqrt. rewrite one_R.
      assert (Sq : 0 < sqrt (1 + e3 / (10 * e5) * (e3 / (10 * e5)))).
      { apply sqrt_lt_R0. pose proof (Rle_0_sqr (e3 / (10 * e5))) as W. unfold Rsqr in W. lra. }
      replace (Reqb _ 0) with false by (symmetry; apply Reqb_false; lra).
      rewrite <- Rsqr_pow2. reflexivity. }
  cbv zeta in Eq. unfold dop_error. cbv zeta. rewrite Eq. destruct (Req_EM_T _ _) as [e0|e0].
  - split; [discriminate|]. intros e (X & _). contradiction.
  - split; [intros e [= <-]; auto | intros e (_ & ->); reflexivity].
Qed.

Lemma expo_R order : (0 <= order)%Z -> @error_exponent Rops order = 1 / IZR (order + 1).
Proof.
  intros H. unfold error_exponent. rewrite lit_R. cbn [Qnum Qden]. rewrite Z2Pos.id by lia. reflexivity.
Qed.
Lemma step_update_eq (en : R) o order (s : @st Rops) : (0 <= order)%Z -> exists b,
  step_update (E := E) en o (error_exponent order) s = (Ret b, @set_h Rops (hstep s * factor o order en) s) /\ (b = true <-> accepted en).
Proof.
  intros Ho. unfold step_update, factor. rewrite zero_R. change (@eqb Rops) with Reqb.
  destruct (Req_EM_T en 0) as [e0|e0].
  - replace (Reqb en 0) with true by (symmetry; now apply Reqb_true). exists true. split; [reflexivity|]. split; auto. now left.
  - replace (Reqb en 0) with false by (symmetry; now apply Reqb_false). exists (Rltb en 1).
    unfold bind, lift, sdiv. rewrite expo_R by exact Ho. change (@powT Rops) with Rpower.
    assert (Hp : 0 < Rpower en (1 / IZR (order + 1))) by apply exp_pos.
    rewrite zero_R. change (@eqb Rops) with Reqb.
    replace (Reqb (Rpower en (1 / IZR (order + 1))) 0) with false by (symmetry; apply Reqb_false; lra). rewrite andb_false_r.
    split.
    + rewrite pymin_R, pymax_R, one_R. reflexivity.
    + unfold accepted. split; [intros H; apply Rltb_true in H; auto | intros [H|H]; [contradiction | now apply Rltb_true]].
Qed.

Section Core.
Variables (A : list (list (@T Rops))) (B C : list (@T Rops)) (norm : @options Rops -> @vec Rops -> @st Rops -> outcome R) (o : @options Rops) (order : Z)
  (rhs : @rhs_t Rops) (err : errfun) (n : nat).
Hypothesis Hc : computes norm o err.
Hypothesis Hord : (0 <= order)%Z.
Hypothesis HC : length C = length A.
Hypothesis HA : A <> [].
Hypothesis Hk : keeps_dim (OT := Rops) n rhs.

Lemma core_attempts fuel : forall s s' : @st Rops, length (stages s) = S (length A) -> length (state s) = n -> length (deriv s) = n ->
  @core_fsal Rops E fuel A B C norm o (error_exponent order) rhs s = (Ret tt, s') ->
  exists l y' f', attempts rhs A B C err o order (now s) (state s) (deriv s) (hstep s) l y' f' (hstep s') /\
    (length l <= fuel)%nat /\ cache s' = push (cache s) (now s + last_h l) y' f'.
Proof.
  induction fuel as [|fuel IH]; intros s s' Hl Hy Hf H; cbn [core_fsal] in H; [discriminate|].
  unfold bind in H. destruct (fsal_fixed_step A B C rhs s) as [[[t y]| |] s1] eqn:e1; try discriminate.
  pose proof (fsal_trial_dim n rhs Hk A B C s t y s1 Hl HC HA Hy Hf e1) as (D1 & D2 & D3).
  apply fsal_fixed_iff in e1 as (K & f & H1 & -> & H2 & ->); auto.
  destruct (rk_step_dim n rhs Hk _ _ _ _ _ _ _ _ _ Hy Hf H1) as (_ & HK).
  set (s1 := set_stages (K ++ [f]) s) in *. cbn [stages s1 set_stages] in D2, D3. rewrite last_last in D2.
  unfold get, lift in H. destruct (norm o y s1) as [en| |] eqn:en1; try discriminate.
  assert (Er : err (state s) y (hstep s) (K ++ [f]) en).
  { refine (proj1 (Hc n y s1 D1 Hy _) en en1). apply Forall_app. split; [exact HK | constructor; [exact D2|constructor]]. }
  destruct (step_update_eq en o order s1 Hord) as (b & Eu & Hb). rewrite Eu in H. destruct b.
  - unfold push_st in H. injection H as <-. exists [(hstep s, en)], y, f. split; [|split; [cbn; lia|]].
    + apply att_accept with (K := K); auto. now apply Hb.
    + unfold s1. cbn [cache set_cache stages set_h set_stages]. rewrite last_last. reflexivity.
  - apply IH in H; cbn [stages set_h s1 set_stages]; auto.
    destruct H as (l & y' & f' & Q1 & Q2 & Q3). exists ((hstep s, en) :: l), y', f'. split; [|split; [cbn; lia|]].
    + apply att_reject with (K := K) (y1 := y) (f1 := f); auto. intros X. apply Hb in X. discriminate.
    + rewrite Q3. cbn [cache set_h s1 set_stages]. unfold last_h. destruct l as [|q l]; [inversion Q1|]. reflexivity.
Qed.
Lemma attempts_core l : forall (s : @st Rops) y' f' h' fuel, length (stages s) = S (length A) -> length (state s) = n -> length (deriv s) = n ->
  attempts rhs A B C err o order (now s) (state s) (deriv s) (hstep s) l y' f' h' -> (length l <= fuel)%nat ->
  exists s', @core_fsal Rops E fuel A B C norm o (error_exponent order) rhs s = (Ret tt, s') /\ hstep s' = h' /\
    cache s' = push (cache s) (now s + last_h l) y' f'.
Proof.
  induction l as [|[h e] l IH]; intros s y' f' h' fuel Hl Hy Hf H Hfu; [inversion H|].
  destruct fuel as [|fuel]; [cbn in Hfu; lia|]. cbn [core_fsal].
  assert (X : exists K y1 f1, @rk_step Rops rhs A B C (now s) (state s) (deriv s) (hstep s) K y1 /\ rhs (now s + hstep s) y1 = Ret f1 /\
     err (state s) y1 (hstep s) (K ++ [f1]) e /\
     ((accepted e /\ l = [] /\ y' = y1 /\ f' = f1 /\ h' = hstep s * factor o order e) \/
      (~ accepted e /\ attempts rhs A B C err o order (now s) (state s) (deriv s) (hstep s * factor o order e) l y' f' h')) /\ h = hstep s).
  { inversion H; subst; exists K.
    - exists y', f'. repeat (split; [assumption|]). split; [|reflexivity]. left. auto.
    - exists y1, f1. repeat (split; [assumption|]). split; [|reflexivity]. right. auto. }
  destruct X as (K & y1 & f1 & H1 & H2 & H3 & H4 & ->).
  assert (E1 : @fsal_fixed_step Rops A B C rhs s = (@Ret (@T Rops * @vec Rops) (now s + hstep s, y1), set_stages (K ++ [f1]) s)).
  { refine (proj2 (fsal_fixed_iff (OT := Rops) A B C rhs s (now s + hstep s) y1 (set_stages (K ++ [f1]) s) Hl HC HA) _). exists K, f1. auto. }
  pose proof (fsal_trial_dim n rhs Hk A B C s _ y1 _ Hl HC HA Hy Hf E1) as (D1 & D2 & D3).
  destruct (rk_step_dim n rhs Hk _ _ _ _ _ _ _ _ _ Hy Hf H1) as (_ & HK).
  set (s1 := set_stages (K ++ [f1]) s) in *. cbn [stages s1 set_stages] in D2, D3. rewrite last_last in D2.
  unfold bind at 1. rewrite E1. unfold bind, get, lift.
  assert (En : norm o y1 s1 = Ret e).
  { refine (proj2 (Hc n y1 s1 D1 Hy _) e H3). apply Forall_app. split; [exact HK | constructor; [exact D2|constructor]]. }
  rewrite En. destruct (step_update_eq e o order s1 Hord) as (b & Eu & Hb). rewrite Eu.
  destruct H4 as [(Ha & -> & -> & -> & ->)|(Ha & H4)].
  - replace b with true by (symmetry; now apply Hb). eexists. split; [reflexivity|]. split; [reflexivity|].
    unfold s1. cbn [cache set_cache stages set_h set_stages]. rewrite last_last. reflexivity.
  - destruct b; [exfalso; apply Ha; now apply Hb|].
    destruct (IH (@set_h Rops (hstep s1 * factor o order e) s1) y' f' h' fuel) as (s' & P1 & P2 & P3); auto; [cbn in Hfu; lia|].
    exists s'. split; [exact P1|]. split; [exact P2|]. rewrite P3. unfold last_h. destruct l as [|q l]; [inversion H4|]. reflexivity.
Qed.
End Core.
End C.

Lemma factor_bounds (o : @options Rops) order e : min_factor o <= max_factor o -> min_factor o <= factor o order e <= max_factor o.
Proof.
  intros H. unfold factor. destruct (Req_EM_T e 0); [lra|]. split.
  - apply Rmin_glb; [exact H | apply Rmax_l].
  - apply Rmin_l.
Qed.
Lemma factor_reject (o : @options Rops) order e : (0 <= order)%Z -> min_factor o <= 1 -> safety_factor o <= 1 -> ~ accepted e -> factor o order e <= 1.
Proof.
  intros Ho Hm Hs He. unfold factor, accepted in *. destruct (Req_EM_T e 0) as [|e0]; [tauto|].
  assert (H1 : 1 <= e) by lra.
  assert (Hp : 1 <= Rpower e (1 / IZR (order + 1))).
  { apply Rpower_ge1; auto. apply Rlt_le, Rdiv_lt_0_compat; [lra|]. apply IZR_lt. lia. }
  eapply Rle_trans; [apply Rmin_r|]. apply Rmax_lub; [exact Hm|].
  apply Rmult_le_reg_r with (Rpower e (1 / IZR (order + 1))); [lra|]. unfold Rdiv. rewrite Rmult_assoc, Rinv_l by lra. lra.
Qed.
