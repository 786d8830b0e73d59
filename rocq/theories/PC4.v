(** DOP853 when the error estimates vanish (C38). *)
From Coq Require Import List ZArith QArith Bool Arith Lia Reals Lra FunctionalExtensionality.
From Coq Require Import SpecFloat.
From Verif Require Import Base Scalar Vec MBuffer MZeros MSteps MApi MDop853 MClasses Laws Spec SpecInst SpecRK SpecDense SpecMS SpecCtl
  PStep PKeeps PClean PCore PHist PBound PVecR PRun PFwd PInterp PRK PDim PTop1 PTop2 PMS PCtl PC1 PC2 PC3.
Import ListNotations.

(** ** exact arithmetic, numba *)
Section C38.
Context {E : @Env Rops}.
Open Scope R_scope.
Lemma C38_raises A B C E5 E3 order D Af Cf fuelc (o : @options Rops) rhs tb n (s : @st Rops) K y' f' :
  @numba_mode Rops E = true ->
  let m := @Dop Rops A B C E5 E3 order D Af Cf in
  shaped m -> keeps_dim (OT := Rops) n rhs -> reachable (E := E) rhs m (S fuelc) o tb s -> dims n s -> ~ would_pass tb s ->
  rk_step rhs A B C (now s) (state s) (deriv s) (hstep s) K y' -> rhs (now s + hstep s) y' = Ret f' ->
  scaled_rms o (state s) y' (weighted E5 (hstep s) (K ++ [f'])) = 0 ->
  forall fuel, exists s', step (solver_of (E := E) m (S fuelc) o rhs tb) fuel None None s = (Raise ZeroDivisionError, s') /\ cache s' = cache s.
Proof.
  intros Hm m Hs Hk Hr Hd Hp H1 H2 H3 fuel. pose proof (reachable_wf _ _ _ _ _ _ Hr) as W.
  destruct (dims_prev _ _ _ W Hd) as (_ & _ & Df & Dy). destruct W as (_ & W). cbn [n_stages_of m] in W. destruct Hs as (HC & HA).
  destruct (rk_step_dim n rhs Hk _ _ _ _ _ _ _ _ _ Dy Df H1) as (Dy' & HK). pose proof (Hk _ _ _ Dy' H2) as Df'.
  assert (Ef : fsal_fixed_step A B C rhs s = (Ret (now s + hstep s, y'), set_stages (K ++ [f']) s)).
  { assert (W' : length (stages s) = S (length A)) by (rewrite W; lia).
    refine (proj2 (fsal_fixed_iff (OT := Rops) A B C rhs s (now s + hstep s) y' _ W' HC HA) _). exists K, f'. auto. }
  assert (Q : forall Ew, @scaled_error_norm Rops y' (state s) (step_error n (hstep s) (K ++ [f']) Ew) o = scaled_rms o (state s) y' (weighted Ew (hstep s) (K ++ [f']))).
  { intros Ew. pose proof (computes_fsal Ew o n y' (set_stages (K ++ [f']) s) Dy' Dy) as Q. cbn [stages set_stages] in Q.
    destruct Q as (Q & _); [apply Forall_app; auto|]. specialize (Q _ eq_refl). unfold fsal_error in Q. rewrite Dy' in Q. exact Q. }
  unfold step, bind. destruct (step_cases (solver_of (E := E) m (S fuelc) o rhs tb) tb s) as [(X & _)|(_ & X)]; [contradiction|].
  change (s_bound (solver_of (E := E) m (S fuelc) o rhs tb)) with tb. rewrite X.
  change (s_core (solver_of (E := E) m (S fuelc) o rhs tb) s) with (core_of (E := E) m (S fuelc) o rhs s).
  cbn [core_of m core_fsal]. unfold bind, get, lift. rewrite Ef.
  unfold norm_dop853. cbn [hstep stages cache set_stages]. change (buf_y (cache s)) with (state s). rewrite Dy', !Q, H3.
  unfold sdiv. rewrite Hm. replace (@eqb Rops (@mul Rops (lit 10) 0) zero) with true.
  - cbn. eexists. split; reflexivity.
  - symmetry. apply Reqb_true. rewrite zero_R. apply Rmult_0_r.
Qed.
(** y' = 0 *)
Lemma weighted_zero w h K i : Forall (fun k => forall j, cmp j k = 0) K -> weighted w h K i = 0.
Proof.
  intros H. unfold weighted. assert (Q : dot w (map (fun k => cmp i k) K) = 0); [|rewrite Q; ring].
  revert w. induction H as [|k K Hk _ IH]; intros [|a w]; cbn [map dot]; auto. rewrite Hk, IH. ring.
Qed.
Lemma rms_zero (o : @options Rops) yold y err : (forall i, err i = 0) -> scaled_rms o yold y err = 0.
Proof.
  intros H. unfold scaled_rms. rewrite (Rsum_zero _ (length yold)).
  - unfold Rdiv. rewrite Rmult_0_l. apply sqrt_0.
  - intros i _. rewrite H. unfold Rdiv. ring.
Qed.
Lemma cmp_zeros j (y : list R) : cmp j (map (fun _ => @zero Rops) y) = 0.
Proof.
  unfold cmp. revert j. induction y as [|a y IH]; intros [|j]; cbn [map nth]; auto. apply zero_R.
Qed.
Lemma stages_zero t (y : @vec Rops) h rows : forall cs K, length cs = length rows -> Forall (fun k => forall j, cmp j k = 0) K ->
  exists K', stages_of rhs_zero t y h rows cs K K' /\ Forall (fun k => forall j, cmp j k = 0) K'.
Proof.
  induction rows as [|a rows IH]; intros [|c cs] K Hl HK; try discriminate.
  - exists K. split; [constructor|exact HK].
  - destruct (IH cs (K ++ [map (fun _ => @zero Rops) (vadd y (vscale h (lincomb (length y) (firstn (length K) a) K)))])) as (K' & H1 & H2).
    + now injection Hl.
    + apply Forall_app. split; [exact HK|]. constructor; [|constructor]. intros j. apply cmp_zeros.
    + exists K'. split; [|exact H2]. econstructor; [reflexivity|exact H1].
Qed.
Lemma C38_zero A B C E5 E3 order D Af Cf fuelc (o : @options Rops) tb n (s : @st Rops) :
  @numba_mode Rops E = true ->
  let m := @Dop Rops A B C E5 E3 order D Af Cf in
  shaped m -> reachable (E := E) rhs_zero m (S fuelc) o tb s -> dims n s -> ~ would_pass tb s ->
  forall fuel, exists s', step (solver_of (E := E) m (S fuelc) o rhs_zero tb) fuel None None s = (Raise ZeroDivisionError, s') /\ cache s' = cache s.
Proof.
  intros Hm m Hs Hr Hd Hp.
  assert (Hk : keeps_dim (OT := Rops) n rhs_zero). { intros t y f Hy H. injection H as <-. now rewrite map_length. }
  assert (Z0 : Forall (fun k => forall j, cmp j k = 0) [deriv s]).
  { constructor; [|constructor]. apply (reachable_good Rops E) in Hr. destruct Hr as ((Wl & _) & He).
    destruct (len_history_pos m) as (k & Hlk). rewrite Hlk in Wl. pose proof (entries_last _ _ _ Wl He) as Q. unfold rhs_zero in Q.
    injection Q as Q. intros j. unfold deriv. rewrite <- Q. apply cmp_zeros. }
  destruct Hs as (HC & HA).
  destruct (stages_zero (now s) (state s) (hstep s) (skipn 1 A) (skipn 1 C) [deriv s]) as (K & HK & ZK); [rewrite !skipn_length, HC; reflexivity|exact Z0|].
  eapply (C38_raises A B C E5 E3 order D Af Cf fuelc o rhs_zero tb n s K _ _ Hm); eauto.
  - split; auto.
  - split; [exact HK|reflexivity].
  - reflexivity.
  - apply rms_zero. intros i. apply weighted_zero. apply Forall_app. split; [exact ZK|]. constructor; [|constructor]. intros j. apply cmp_zeros.
Qed.
End C38.

(** ** binary64, numpy *)
Section F.
Variable pw : spec_float -> spec_float -> spec_float.
Let F := SFops pw.
Context {E : @Env F}.
Definition ZN (x : spec_float) : Prop := x = S754_nan \/ exists b, x = S754_zero b.
Lemma ZN_add x y : ZN x -> ZN y -> ZN (@add F x y).
Proof.
  intros [->|(a & ->)] [->|(b & ->)]; cbn; unfold ZN; auto. destruct (Bool.eqb a b); eauto.
Qed.
Lemma ZN_mul x y : ZN y -> ZN (@mul F x y).
Proof. intros [->|(b & ->)]; destruct x; cbn; unfold ZN; eauto. Qed.
Lemma ZN_sq x : ZN x -> ZN (@mul F x x). Proof. apply ZN_mul. Qed.
Lemma ZN_div x y : ZN x -> ZN (@div F x y).
Proof. intros [->|(b & ->)]; destruct y; cbn; unfold ZN; eauto. Qed.
Lemma ZN_div_nan x y : ZN x -> ZN y -> @div F x y = S754_nan.
Proof. intros [->|(b & ->)] [->|(c & ->)]; reflexivity. Qed.
Lemma ZN_sqrt x : ZN x -> ZN (@sqrtT F x).
Proof. intros [->|(b & ->)]; cbn; unfold ZN; eauto. Qed.
Lemma ZN_zero : ZN (@zero F). Proof. right. exists false. reflexivity. Qed.
Lemma ZN_map2 (f : spec_float -> spec_float -> spec_float) : (forall x y, ZN x -> ZN (f x y)) -> forall a b, Forall ZN a -> Forall ZN (map2 f a b).
Proof. intros Hf. induction a as [|x a IH]; intros [|y b] H; cbn; auto. inversion H; subst. constructor; auto. Qed.
Lemma ZN_vadd : forall a b, Forall ZN a -> Forall ZN b -> Forall ZN (@vadd F a b).
Proof. unfold vadd. induction a as [|x a IH]; intros [|y b] H H2; cbn; auto. inversion H; inversion H2; subst. constructor; auto. apply ZN_add; auto. Qed.
Lemma ZN_lincomb n c : forall K, Forall (Forall ZN) K -> Forall ZN (@lincomb F n c K).
Proof.
  unfold lincomb. assert (Z0 : Forall ZN (@vzero F n)). { apply Forall_forall. intros x Hx. apply repeat_spec in Hx. subst. apply ZN_zero. }
  revert Z0. generalize (@vzero F n). induction c as [|x c IH]; intros acc Ha K HK; [destruct K; exact Ha|]. destruct K as [|k K]; [exact Ha|]. inversion HK; subst. cbn [lincomb_acc].
  apply IH; auto. apply ZN_vadd; auto. apply Forall_forall. intros z Hz. apply in_map_iff in Hz as (v & <- & Hv). apply ZN_mul. rewrite Forall_forall in H1. auto.
Qed.
Lemma ZN_sum v : Forall ZN v -> ZN (@vsum F v).
Proof. unfold vsum. generalize ZN_zero. generalize (@zero F). induction v as [|x v IH]; intros a Ha H; [exact Ha|]. inversion H; subst. cbn [fold_left]. apply IH; auto. apply ZN_add; auto. Qed.
Lemma ZN_norm y yp er o : Forall ZN er -> ZN (@scaled_error_norm F y yp er o).
Proof.
  intros H. unfold scaled_error_norm. apply ZN_sqrt. unfold vmean. apply ZN_div, ZN_sum.
  apply Forall_forall. intros z Hz. apply in_map_iff in Hz as (v & <- & Hv). apply ZN_sq.
  pose proof (ZN_map2 (@div F) (fun x y => ZN_div x y) er (map2 (fun a b => @add F (atol o) (@mul F (rtol o) (npmax (absT a) (absT b)))) y yp) H) as Q.
  rewrite Forall_forall in Q. auto.
Qed.
Lemma ZN_err n h K Ew : Forall (Forall ZN) K -> Forall ZN (@step_error F n h K Ew).
Proof.
  intros H. unfold step_error, vscale. apply Forall_forall. intros z Hz. apply in_map_iff in Hz as (v & <- & Hv). apply ZN_mul.
  pose proof (ZN_lincomb n Ew K H) as Q. rewrite Forall_forall in Q. auto.
Qed.
Lemma norm_nan E5 E3 (o : @options F) (y : @vec F) (s : @st F) : @numba_mode F E = false -> Forall (Forall ZN) (stages s) -> @norm_dop853 F E E5 E3 o y s = Ret S754_nan.
Proof.
  intros Hm HK. unfold norm_dop853, sdiv. rewrite Hm. cbn [andb obind]. f_equal.
  match goal with |- @div F ?a (@sqrtT F (@add F one (@mul F ?q ?q))) = _ => assert (Hq : q = S754_nan) end.
  { apply ZN_div_nan; [|apply ZN_mul]; apply ZN_norm, ZN_err; exact HK. }
  rewrite Hq. change (@add F one (@mul F S754_nan S754_nan)) with S754_nan. change (@sqrtT F S754_nan) with S754_nan.
  destruct (ZN_norm y (buf_y (cache s)) (step_error (length y) (hstep s) (stages s) E5) o (ZN_err _ _ _ _ HK)) as [->|(b & ->)]; reflexivity.
Qed.
Lemma zeros_ZN f : Forall (fun x => exists b, x = S754_zero b) f -> Forall ZN f.
Proof. apply Forall_impl. intros x H. right. exact H. Qed.
Lemma stages_vanish (rhs : @rhs_t F) t (y : @vec F) h rows : vanishing pw rhs -> forall cs K, length cs = length rows -> Forall (Forall ZN) K ->
  exists K', @stages_of F rhs t y h rows cs K K' /\ Forall (Forall ZN) K'.
Proof.
  intros Hv. induction rows as [|a rows IH]; intros [|c cs] K Hl HK; try discriminate.
  - exists K. split; [constructor|exact HK].
  - destruct (Hv (@add F t (@mul F h c)) (vadd y (vscale h (lincomb (length y) (firstn (length K) a) K)))) as (f & Hf & Zf).
    destruct (IH cs (K ++ [f])) as (K' & H1 & H2).
    + now injection Hl.
    + apply Forall_app. split; [exact HK|]. constructor; [|constructor]. now apply zeros_ZN.
    + exists K'. split; [|exact H2]. econstructor; [exact Hf|exact H1].
Qed.
Lemma core_never A B C E5 E3 (o : @options F) expo (rhs : @rhs_t F) : @numba_mode F E = false -> length C = length A -> A <> [] -> vanishing pw rhs ->
  forall fuel (s : @st F), length (stages s) = S (length A) -> Forall ZN (deriv s) ->
  exists s', @core_fsal F E fuel A B C (norm_dop853 E5 E3) o expo rhs s = (Loop, s') /\ cache s' = cache s.
Proof.
  intros Hm HC HA Hv. induction fuel as [|fuel IH]; intros s Hl Hd; [eexists; split; reflexivity|].
  cbn [core_fsal]. unfold bind, get, lift.
  destruct (stages_vanish rhs (now s) (state s) (hstep s) (skipn 1 A) Hv (skipn 1 C) [deriv s]) as (K & HK & ZK); [rewrite !skipn_length, HC; reflexivity|now constructor|].
  destruct (Hv (@add F (now s) (hstep s)) (rk_combine (state s) (hstep s) B K)) as (f & Hf & Zf).
  assert (Ef : @fsal_fixed_step F A B C rhs s = (Ret (@add F (now s) (hstep s), rk_combine (state s) (hstep s) B K), set_stages (K ++ [f]) s)).
  { refine (proj2 (fsal_fixed_iff (OT := F) A B C rhs s _ _ _ Hl HC HA) _). exists K, f. split; [split; [exact HK|reflexivity]|]. auto. }
  rewrite Ef. rewrite norm_nan; [|exact Hm|cbn [stages set_stages]; apply Forall_app; split; [exact ZK|constructor; [now apply zeros_ZN|constructor]]].
  unfold step_update. change (@eqb F S754_nan zero) with false. cbn [bind]. unfold bind, lift, sdiv. rewrite Hm. cbn [andb].
  change (@ltb F S754_nan one) with false. cbv beta iota.
  destruct (stages_len _ _ _ _ _ _ _ _ HK) as (LK & _).
  match goal with |- context [core_fsal fuel A B C _ o expo rhs ?s1] => destruct (IH s1) as (s' & Q1 & Q2) end.
  - cbn [stages set_h set_stages]. rewrite app_length, LK. cbn [length]. rewrite skipn_length. destruct A; [congruence|]. cbn. lia.
  - exact Hd.
  - exists s'. split; [exact Q1|exact Q2].
Qed.
Lemma C38_never A B C E5 E3 order D Af Cf (o : @options F) rhs tb fuelc (s : @st F) :
  @numba_mode F E = false ->
  let m := @Dop F A B C E5 E3 order D Af Cf in
  shaped m -> vanishing pw rhs -> reachable (E := E) rhs m fuelc o tb s -> ~ would_pass tb s ->
  forall fuelc' fuel, exists s', step (solver_of (E := E) m fuelc' o rhs tb) fuel None None s = (Loop, s') /\ cache s' = cache s.
Proof.
  intros Hm m (HC & HA) Hv Hr Hp fuelc' fuel. apply (reachable_good F E) in Hr. destruct Hr as ((Wl & Ws) & He).
  destruct (len_history_pos m) as (k & Hlk). rewrite Hlk in Wl. pose proof (entries_last _ _ _ Wl He) as Q.
  destruct (Hv (buf_t (cache s)) (buf_y (cache s))) as (f & Hf & Zf). rewrite Hf in Q. injection Q as Q.
  unfold step, bind. destruct (step_cases (solver_of (E := E) m fuelc' o rhs tb) tb s) as [(X & _)|(_ & X)]; [contradiction|].
  change (s_bound (solver_of (E := E) m fuelc' o rhs tb)) with tb. rewrite X.
  change (s_core (solver_of (E := E) m fuelc' o rhs tb) s) with (core_of (E := E) m fuelc' o rhs s). cbn [core_of m].
  destruct (core_never A B C E5 E3 o (error_exponent order) rhs Hm HC HA Hv fuelc' s) as (s' & H1 & H2).
  - etransitivity; [exact Ws|]. apply Nat.add_1_r.
  - unfold deriv. rewrite <- Q. now apply zeros_ZN.
  - rewrite H1. exists s'. auto.
Qed.
End F.
