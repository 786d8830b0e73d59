(** C33 fails for a multistep class with the default first stepper at a negative initial time. *)
From Coq Require Import List ZArith QArith Bool Arith Lia Reals Lra Classical.
From Verif Require Import Base Scalar Vec MBuffer MZeros MSteps MApi MDop853 MClasses Laws Spec SpecInst
  PStep PKeeps PCore PHist PRun PInterp PBound PVecR SpecRK SpecDense SpecCtl PDim PRK PDense PCtl PC1 PFwd PTerm SpecMS PMS PMS2 PRK2 PRK3 PMS3
  PMS6 SpecOrder SpecConv SpecConv2 PConv1 PConv2 PConv3 PConv4 PConv5 PConv6 PConv7 PTop1 Ex PConv9.
Import ListNotations.
Open Scope R_scope.

Section Fresh.
Context {E : @Env Rops}.
Variables (A : list (list R)) (B C Ew : list R) (order : Z) (P : list (list R)).
Variables (fuelc : nat) (o : @options Rops) (rhs : @rhs_t Rops) (n : nat).
Let m : @meth Rops := @Fsal Rops A B C Ew order P.
Notation sv := (solver_of (E := E) m fuelc o rhs PInf).
Hypothesis Hsh : length C = length A /\ A <> [].
Hypothesis Hk : keeps_dim n rhs.
Hypothesis Ho : sane o.
Hypothesis Hor : (0 <= order)%Z.
Notation att := (attempts rhs A B C (fsal_error o Ew) o order).

(** a run from a fresh stepper whose requests lie within its first step *)
Lemma eval_first t0 H y0 f0 y1 f1 K x fuel (ts : list (@T Rops)) : 0 < H -> @rk_step Rops rhs A B C t0 y0 f0 H K y1 ->
  first_done A B C Ew order P rhs n t0 H y0 f0 y1 f1 x -> Forall (fun t => t0 < t < t0 + H) ts ->
  exists x', run_eval_ sv fuel ts x = (Ret (map (rk_dense P t0 y0 H (K ++ [f1])) ts), x').
Proof.
  intros HH HK. revert x. induction ts as [|t ts IH]; intros x Fx F; [exists x; reflexivity|].
  assert (Ti : t0 < t < t0 + H) by now inversion F. assert (F' : Forall (fun t => t0 < t < t0 + H) ts) by now inversion F.
  pose proof Fx as (Tx & X1 & _ & _ & X4 & _).
  cbn [run_eval_]. unfold bind at 1.
  rewrite (run_until_complete m fuelc o rhs PInf t [] x x); [|split; [apply chain_nil|apply Forall_nil]| |apply Nat.le_0_l].
  2:{ apply Rltb_false. rewrite X4. lra. }
  assert (Q : exists a x2, s_interp sv t x = (Ret a, x2)).
  { destruct (tidy_dense A B C Ew order P fuelc o rhs PInf n Hsh Hk x t Tx) as (h & K' & x2 & _ & L3); [rewrite X1, X4; exact Ti|].
    unfold interpolate in L3. destruct (negb _); [discriminate|]. eauto. }
  destruct Q as (a & x2 & Q).
  destruct (first_interp A B C Ew order P fuelc o rhs n Hsh Hk t0 H y0 f0 y1 f1 K HK x t a x2 Fx Ti Q) as (F2 & D2).
  destruct (IH x2 F2 F') as (x3 & I3). exists x3.
  unfold bind, interp_copy. unfold bind. rewrite Q. cbn. rewrite I3. cbn. now rewrite D2.
Qed.
Lemma fresh_run s1 l y1 f1 h1 K fuel (ti : @T Rops) (ts : list (@T Rops)) : tidy A B C Ew order P rhs n s1 -> prev_t s1 = now s1 ->
  att (now s1) (state s1) (deriv s1) (hstep s1) l y1 f1 h1 -> (length l <= fuelc)%nat -> (0 < fuel)%nat ->
  @rk_step Rops rhs A B C (now s1) (state s1) (deriv s1) (last_h l) K y1 -> 0 < last_h l ->
  Forall (fun t => now s1 < t < now s1 + last_h l) (ti :: ts) -> @is_sorted Rops (ti :: ts) = true ->
  exists s', @run Rops E sv fuel (ti :: ts) s1 =
    (Ret (map (fun t => (t, rk_dense P (now s1) (state s1) (last_h l) (K ++ [f1]) t)) (ti :: ts)), s').
Proof.
  intros Ts Hp Ha Hl Hfu HK HH F Hso.
  pose proof Ts as (((Wb & Wn) & D & _) & _). cbn [n_stages_of] in Wn. cbn [len_history] in Wb.
  destruct (prev_dims A B C Ew order P n Hsh s1 (conj Wb Wn) D) as (_ & _ & D1 & D2).
  destruct (attempts_core A B C (@norm_fsal Rops Ew) o order rhs (fsal_error o Ew) n (computes_fsal Ew o) Hor (proj1 Hsh) (proj2 Hsh) Hk l s1 y1 f1 h1 fuelc
     ltac:(rewrite Wn; apply Nat.add_1_r) D1 D2 Ha Hl) as (s2 & Cm & _ & Hc).
  assert (Cm' : core_of (E := E) m fuelc o rhs s1 = (Ret tt, s2)) by exact Cm.
  pose proof (tidy_core A B C Ew order P fuelc o rhs n Hsh Hk Ho s1 s2 (proj1 Ts) Cm') as T2.
  assert (Ti : now s1 < ti < now s1 + last_h l) by now inversion F.
  assert (F2 : first_done A B C Ew order P rhs n (now s1) (last_h l) (state s1) (deriv s1) y1 f1 s2).
  { split; [exact T2|]. unfold prev_t, prev_y, prev_f, now, state, deriv. rewrite Hc.
    rewrite (push_tp 0 _ _ _ _ Wb), (push_yp 0 _ _ _ _ Wb), (push_fp 0 _ _ _ _ Wb), (push_t 1 _ _ _ _ Wb), (push_y 1 _ _ _ _ Wb), (push_f 1 _ _ _ _ Wb). auto 10. }
  destruct (eval_first _ _ _ _ _ _ K s2 fuel (ti :: ts) HH HK F2 F) as (s' & He). exists s'.
  rewrite (run_as_eval m fuelc o rhs PInf fuel ti ts s1 Hso).
  - assert (Eq : run_eval_ sv fuel (ti :: ts) s1 = run_eval_ sv fuel (ti :: ts) s2).
    { cbn [run_eval_]. unfold bind at 1. unfold bind at 3.
      assert (Nt : ltb (now s2) ti = false) by (apply Rltb_false; destruct F2 as (_ & _ & _ & _ & N2 & _); rewrite N2; lra).
      rewrite (run_until_complete m fuelc o rhs PInf ti [s2] s1 s2); [| |exact Nt|exact Hfu].
      - rewrite (run_until_complete m fuelc o rhs PInf ti [] s2 s2); [reflexivity|split; [apply chain_nil|apply Forall_nil]|exact Nt|apply Nat.le_0_l].
      - split; [|repeat constructor; apply Rltb_true; apply Ti]. econstructor; [|constructor]. split; [discriminate|exact Cm']. }
    rewrite Eq, He. f_equal. f_equal. clear. induction (ti :: ts) as [|a q IH]; [reflexivity|]. cbn [map combine]. now rewrite IH.
  - apply Rleb_true. lra.
  - rewrite <- (prev_is_first A B C Ew order P s1) by apply Ts. rewrite Hp. apply Rltb_false. lra.
  - reflexivity.
Qed.
End Fresh.

Section Zeros.
(** a right-hand side that vanishes at every node *)
Variables (rhs : @rhs_t Rops) (t h y0 : R).
Lemma zero_comb (c : list R) (K : list (list R)) : Forall (fun k => k = [0]) K -> @lincomb Rops 1 c K = [0].
Proof.
  intros F. assert (F1 : Forall (fun k : list R => length k = 1%nat) K) by (eapply Forall_impl; [|exact F]; intros k ->; reflexivity).
  apply (vec_ext 1); [now apply lincomb_len|reflexivity|]. intros i Hi. rewrite (lincomb_cmp 1) by auto.
  destruct i; [|lia]. cbn [nth]. clear F1 Hi. revert K F. induction c as [|x c IH]; intros [|k K] F; cbn [map dot]; auto.
  inversion F; subst. rewrite IH by auto. cbn. lra.
Qed.
Lemma zero_stages rows : forall cs K, length cs = length rows -> Forall (fun k => k = [0]) K ->
  (forall c u, In c cs -> rhs (t + h * c) u = Ret [0]) ->
  exists K', @stages_of Rops rhs t [y0] h rows cs K K' /\ Forall (fun k => k = [0]) K'.
Proof.
  induction rows as [|a rows IH]; intros [|c cs] K Hl F H; try discriminate.
  - exists K. split; [constructor|exact F].
  - destruct (IH cs (K ++ [[0]])) as (K' & S & F').
    + now injection Hl.
    + apply Forall_app. auto.
    + intros c' u Hc. apply H. now right.
    + exists K'. split; [|exact F']. apply (stg_cons (OT := Rops)) with (k := [0]); [|exact S]. apply H. now left.
Qed.
Lemma zero_step A B C : length C = length A -> (forall c u, In c C -> rhs (t + h * c) u = Ret [0]) ->
  exists K, @rk_step Rops rhs A B C t [y0] [0] h K [y0] /\ Forall (fun k => k = [0]) K.
Proof.
  intros HA H. destruct (zero_stages (skipn 1 A) (skipn 1 C) [[0]]) as (K & S & F).
  - rewrite !skipn_length. lia.
  - auto.
  - intros c u Hc. apply H. destruct C; [destruct Hc|]. right. exact Hc.
  - exists K. split; [|exact F]. split; [exact S|]. unfold rk_combine. cbn [length]. rewrite (zero_comb _ K F). cbn. f_equal. exact (eq_sym (Rplus_0_r y0)).
Qed.
Lemma zero_weighted w K i : Forall (fun k => k = [0]) K -> weighted w h K i = 0.
Proof.
  intros F. unfold weighted. replace (dot w (map (fun k => cmp i k) K)) with 0; [lra|]. revert K F. induction w as [|x w IH]; intros [|k K] F; cbn [map dot]; auto.
  inversion F; subst. rewrite <- IH by auto. destruct i as [|[|]]; cbn; lra.
Qed.
Lemma zero_dense P K x : Forall (fun k => k = [0]) K -> rk_dense P t [y0] h K x = [y0].
Proof.
  intros F. unfold rk_dense. cbn [length seq map nth]. f_equal.
  match goal with |- _ + h * ?s = _ => replace s with 0; [ring|] end.
  unfold Rsum. induction (seq 0 (length (hd [] P))) as [|j l IH]; [reflexivity|]. cbn [map fold_right]. rewrite <- IH.
  match goal with |- 0 = _ * ?s + 0 => replace s with 0; [ring|] end.
  clear IH. induction (seq 0 (length K)) as [|k q IHq]; [reflexivity|]. cbn [map fold_right]. rewrite <- IHq.
  replace (nth 0 (nth k K []) 0) with 0; [ring|]. destruct (nth_in_or_default k K []) as [Hk| ->]; [|reflexivity].
  rewrite Forall_forall in F. now rewrite (F _ Hk).
Qed.
Lemma zero_attempts A B C Ew o order : length C = length A -> (forall c u, In c C -> rhs (t + h * c) u = Ret [0]) -> rhs (t + h) [y0] = Ret [0] ->
  attempts rhs A B C (fsal_error o Ew) o order t [y0] [0] h [(h, 0)] [y0] [0] (h * factor o order 0).
Proof.
  intros HA H H1. destruct (zero_step A B C HA H) as (K & S & F). apply att_accept with (K := K); auto.
  - unfold fsal_error, scaled_rms. replace (Rsum _ (length [y0])) with 0; [unfold Rdiv; now rewrite Rmult_0_l, sqrt_0|].
    unfold Rsum. cbn [length seq map fold_right]. rewrite zero_weighted by (apply Forall_app; auto). unfold Rdiv. rewrite Rmult_0_l. cbn. ring.
  - now left.
Qed.
End Zeros.

(** 1 - cos(2 pi 90 (t - t0) / H0): zero at every node of RungeKutta45 *)
Definition osc (t0 H0 : R) : @rhs_t Rops := fun t _ => Ret [1 - cos (180 * PI * ((t - t0) / H0))].
Definition osc_sol (t0 H0 t : R) : list R := [(t - t0) - H0 / (180 * PI) * sin (180 * PI * ((t - t0) / H0))].

Section Osc.
Variables (t0 H0 : R).
Hypothesis HH : 0 < H0.
Lemma osc_lip : lipschitz 1 0 (osc t0 H0).
Proof.
  split; [lra|]. split.
  - intros t u f _ Hf. injection Hf as <-. reflexivity.
  - intros t u v a b e _ _ (_ & _) Ha Hb. injection Ha as <-. injection Hb as <-. split; [reflexivity|]. intros i Hi.
    rewrite Rmult_0_l. unfold Rminus. rewrite Rplus_opp_r, Rabs_R0. lra.
Qed.
Lemma osc_zero q u : osc t0 H0 (t0 + H0 * (INR q / 90)) u = Ret [0].
Proof.
  unfold osc. do 2 f_equal. replace (180 * PI * ((t0 + H0 * (INR q / 90) - t0) / H0)) with (0 + 2 * INR q * PI) by (field; lra).
  rewrite cos_period, cos_0. ring.
Qed.
Lemma osc_solution te : C2_solution (osc t0 H0) 1 t0 te (osc_sol t0 H0).
Proof.
  exists (fun t => [1 - cos (180 * PI * ((t - t0) / H0))]), (fun t => [180 * PI / H0 * sin (180 * PI * ((t - t0) / H0))]).
  pose proof PI_RGT_0 as Hpi. intros t _. split; [reflexivity|]. split; [reflexivity|].
  assert (Dl : derivable_pt_lim (fun x => 180 * PI * ((x - t0) / H0)) t (180 * PI / H0)).
  { replace (180 * PI / H0) with (180 * PI * (1 / H0)) by (field; lra).
    apply (derivable_pt_lim_scal (fun x => (x - t0) / H0)). unfold Rdiv.
    assert (Q : derivable_pt_lim (fun x => / H0 * (x - t0)) t (/ H0 * (1 - 0))).
    { apply (derivable_pt_lim_scal (fun x => x - t0)). apply (derivable_pt_lim_minus id (fun _ => t0)); [apply derivable_pt_lim_id|apply derivable_pt_lim_const]. }
    replace (1 * / H0) with (/ H0 * (1 - 0)) by ring. intros e He. destruct (Q e He) as (d & Hd). exists d. intros z Hz Hz'.
    specialize (Hd z Hz Hz'). rewrite !(Rmult_comm _ (/ H0)). exact Hd. }
  intros i Hi. destruct i as [|i]; [|lia]. cbn [nth osc_sol]. split; [|split].
  - replace (1 - cos (180 * PI * ((t - t0) / H0))) with ((1 - 0) - H0 / (180 * PI) * (cos (180 * PI * ((t - t0) / H0)) * (180 * PI / H0))) by (field; lra).
    apply (derivable_pt_lim_minus (fun x => x - t0) (fun x => H0 / (180 * PI) * sin (180 * PI * ((x - t0) / H0)))).
    + apply (derivable_pt_lim_minus id (fun _ => t0)); [apply derivable_pt_lim_id|apply derivable_pt_lim_const].
    + apply (derivable_pt_lim_scal (fun x => sin (180 * PI * ((x - t0) / H0)))).
      apply (derivable_pt_lim_comp (fun x => 180 * PI * ((x - t0) / H0)) sin); [exact Dl|apply derivable_pt_lim_sin].
  - replace (180 * PI / H0 * sin (180 * PI * ((t - t0) / H0))) with (0 - (- sin (180 * PI * ((t - t0) / H0)) * (180 * PI / H0))) by ring.
    apply (derivable_pt_lim_minus (fun _ => 1) (fun x => cos (180 * PI * ((x - t0) / H0)))); [apply derivable_pt_lim_const|].
    apply (derivable_pt_lim_comp (fun x => 180 * PI * ((x - t0) / H0)) cos); [exact Dl|apply derivable_pt_lim_cos].
  - apply (continuity_pt_scal (fun x => sin (180 * PI * ((x - t0) / H0)))).
    apply (continuity_pt_comp (fun x => 180 * PI * ((x - t0) / H0)) sin); [|apply continuity_sin].
    apply derivable_continuous_pt. exists (180 * PI / H0). exact Dl.
Qed.
Lemma osc_start : osc_sol t0 H0 t0 = [0].
Proof.
  unfold osc_sol. f_equal. replace ((t0 - t0) / H0) with 0 by (field; lra). rewrite Rmult_0_r, sin_0. ring.
Qed.
(** from half of the first step on, the solution is well away from its initial value *)
Lemma osc_far t : t0 + H0 / 2 <= t -> H0 / 4 < cmp 0 (osc_sol t0 H0 t).
Proof.
  intros Ht. unfold osc_sol. cbn [nth]. pose proof PI2_1 as Hpi. pose proof (SIN_bound (180 * PI * ((t - t0) / H0))) as (_ & Hs).
  assert (Q : H0 / (180 * PI) * sin (180 * PI * ((t - t0) / H0)) <= H0 / (180 * PI)).
  { rewrite <- (Rmult_1_r (H0 / (180 * PI))) at 2. apply Rmult_le_compat_l; [|exact Hs]. apply Rlt_le, Rdiv_lt_0_compat; lra. }
  assert (Q2 : H0 / (180 * PI) <= H0 / 180).
  { unfold Rdiv. apply Rmult_le_compat_l; [lra|]. apply Rinv_le_contravar; lra. }
  lra.
Qed.
End Osc.

Section Init.
Context {E : @Env Rops}.
Lemma init_fsal A B C Ew order P g rhs t0 y0 f0 H0 : rhs t0 y0 = Ret f0 ->
  let m := @Fsal Rops A B C Ew order P in garbage_ok m g ->
  exists s1, init_var m g rhs t0 y0 default_options (fun _ _ _ => Ret H0) None = Ret s1 /\ hstep s1 = H0 /\ prev_t s1 = now s1.
Proof.
  intros Hf m Hg. unfold init_var.
  destruct (init_base m g rhs t0 y0 None) as [s0| |] eqn:e.
  2,3: (unfold init_base in e; rewrite Hf in e; discriminate).
  cbn [obind max_step default_options].
  replace (@ltb Rops (atol default_options) zero) with false.
  2:{ symmetry. apply Rltb_false. rewrite zero_R. cbn [atol default_options]. rewrite lit_R. cbn [QArith_base.Qnum QArith_base.Qden]. lra. }
  cbn [obind m]. eexists. split; [reflexivity|]. split; [reflexivity|].
  apply init_base_spec in e as (_ & f & _ & Hc & _); auto.
  unfold prev_t, now, buf_tp, buf_t. rewrite rk_update_R. cbn [cache set_interp set_h]. rewrite Hc. reflexivity.
Qed.
Lemma push_const (rhs : @rhs_t Rops) v : total rhs -> forall (ts : list R) c N, buf_len (S N) c -> buf_y c = v -> exists c',
  @fs_push_all Rops rhs (map (fun t => (t, v)) ts) c = Ret c' /\ buf_y c' = v /\ buf_t c' = last ts (buf_t c).
Proof.
  intros Ht. induction ts as [|t ts IH]; intros c N Bl Hy; [exists c; auto|]. cbn [map fs_push_all].
  destruct (Ht t v) as (f & Hf). rewrite Hf. cbn [obind].
  destruct (IH (push c t v f) N) as (c' & I1 & I2 & I3); [now apply push_len|exact (push_y N _ _ _ _ Bl)|].
  exists c'. split; [exact I1|]. split; [exact I2|]. rewrite I3, (push_t N _ _ _ _ Bl). 
  change (last ts t = last (t :: ts) (buf_t c)). destruct ts as [|b ts]; [reflexivity|]. clear. change (last (t :: b :: ts) (buf_t c)) with (last (b :: ts) (@buf_t Rops c)).
  revert b. induction ts as [|z ts IH]; intros b; [reflexivity|]. exact (IH z).
Qed.

Lemma default_startup t0 H0 k m bs h : 0 < H0 -> - H0 / 2 <= t0 <= 0 -> In (k, m, bs) ab_table -> (2 <= k)%nat -> 0 < h < H0 / 8 ->
  exists fs s0, starts_default (E := E) (osc t0 H0) t0 (osc_sol t0 H0 t0) H0 fs /\
    init_ms (E := E) m (garb m) (osc t0 H0) t0 (osc_sol t0 H0 t0) (Some h) fs 1 = Ret s0 /\
    now s0 = INR (k - 1) * h /\ state s0 = osc_sol t0 H0 t0.
Proof.
  intros HH Ht0 Hm Hk2 Hh. rewrite !(osc_start t0 H0 HH). set (rhs := osc t0 H0) in *.
  assert (Z0 : rhs t0 [0] = Ret [0]).
  { pose proof (osc_zero t0 H0 HH 0 [0]) as Z. cbn [INR] in Z. unfold Rdiv in Z. rewrite Rmult_0_l, Rmult_0_r, Rplus_0_r in Z. exact Z. }
  assert (Z1 : rhs (t0 + H0) [0] = Ret [0]).
  { pose proof (osc_zero t0 H0 HH 90 [0]) as Z. replace (INR 90 / 90) with 1 in Z by (rewrite INR_IZR_INZ; cbn; field). rewrite Rmult_1_r in Z. exact Z. }
  assert (ZC : match @RungeKutta45 Rops with Fsal _ _ C _ _ _ => forall c u, In c C -> rhs (t0 + H0 * c) u = Ret [0] | _ => False end).
  { cbn [RungeKutta45]. intros c u Hc. unfold lits in Hc. cbn [map] in Hc. rewrite !lit_R in Hc. cbn [QArith_base.Qnum QArith_base.Qden] in Hc.
    assert (exists q, c = INR q / 90) as (q & ->); [|apply osc_zero; exact HH].
    repeat (destruct Hc as [<-|Hc]); try (destruct Hc).
    - exists 0%nat. cbn. field.
    - exists 18%nat. rewrite INR_IZR_INZ. cbn. field.
    - exists 27%nat. rewrite INR_IZR_INZ. cbn. field.
    - exists 72%nat. rewrite INR_IZR_INZ. cbn. field.
    - exists 80%nat. rewrite INR_IZR_INZ. cbn. field.
    - exists 90%nat. rewrite INR_IZR_INZ. cbn. field. }
  assert (G45 := @garb_ok Rops RungeKutta45).
  destruct default_sane as (Hs & H1 & H2).
  assert (Fs : forall h', starts_default (E := E) rhs t0 [0] H0 h' -> starts_default (E := E) rhs t0 [0] H0 h') by auto. clear Fs.
  destruct (@RungeKutta45 Rops) as [| | |A B C Ew order P|] eqn:em; try discriminate.
  assert (Hsh : length C = length A /\ A <> []) by (injection em as <- <- <- <- <- <-; split; [reflexivity|discriminate]).
  assert (Hor : (0 <= order)%Z) by (injection em as <- <- <- <- <- <-; lia).
  assert (Hd : keeps_dim 1 rhs) by apply osc_lip.
  destruct (init_fsal A B C Ew order P (garb (@Fsal Rops A B C Ew order P)) rhs t0 [0] [0] H0 Z0 G45) as (s1 & I1 & I2 & I3).
  destruct (init_var_fresh _ _ _ _ _ _ _ _ _ G45 eq_refl I1) as (N1 & N2 & N3 & _).
  assert (N4 : deriv s1 = [0]) by (assert (Q := eq_trans (eq_sym N3) Z0); now injection Q).
  assert (Tid : tidy A B C Ew order P rhs 1 s1).
  { apply (built_tidy (E := E)); auto.
    - exact (built_var (E := E) rhs (@Fsal Rops A B C Ew order P) _ t0 [0] _ _ None s1 eq_refl G45 I1).
    - now rewrite N2.
    - lra. }
  pose proof (zero_attempts rhs t0 H0 0 A B C Ew default_options order (proj1 Hsh) ZC Z1) as Ha.
  destruct (zero_step rhs t0 H0 0 A B C (proj1 Hsh) ZC) as (K & HK & HK0).
  exists (FSVar (fun _ _ => Ret (solver_of (E := E) (@Fsal Rops A B C Ew order P) 1 default_options rhs PInf, s1))).
  pose proof (@starts_rk45 E rhs t0 [0] H0 (garb (@Fsal Rops A B C Ew order P)) (fun _ _ _ => Ret H0) s1 1%nat) as St. rewrite em in St.
  specialize (St G45 I1 I2).
  assert (Hord : ms_order m = k /\ (k <= 5)%nat /\ is_multistep m).
  { clear - Hm. repeat (destruct Hm as [Hm|Hm]; [injection Hm as <- <- _; split; [reflexivity|split; [lia|exact I]]|]). destruct Hm. }
  destruct Hord as (Hord & Hk5 & _).
  unfold init_ms. destruct (init_base m (garb m) rhs t0 [0] (Some h)) as [s0| |] eqn:eb.
  2,3: (unfold init_base in eb; rewrite Z0 in eb; discriminate).
  apply init_base_spec in eb as (G & f & _ & Hc & Hh0); [|apply garb_ok].
  cbn [obind]. rewrite Hord. destruct (Nat.eqb_spec k 1) as [|_]; [lia|]. cbn [fst snd]. cbn in Hh0. rewrite Hh0.
  destruct k as [|[|k']]; try lia. replace (S (S k') - 1)%nat with (S k') by lia.
  set (times := map (fun i => @mul Rops (@ofnat Rops i) h) (seq 1 (S k'))).
  assert (Ft : Forall (fun t : R => now s1 < t < now s1 + last_h [(H0, 0)]) times).
  { unfold times. apply Forall_forall. intros t Hin. apply in_map_iff in Hin as (i & <- & Hin). apply in_seq in Hin. rewrite ofnat_R.
    unfold last_h. cbn [last fst]. rewrite N1. change (t0 < INR i * h < t0 + H0). assert (1 <= INR i) by (change 1 with (INR 1); apply le_INR; lia).
    assert (INR i <= 4) by (replace 4 with (INR 4) by (cbn; lra); apply le_INR; lia). assert (0 <= INR i) by apply pos_INR. nra. }
  assert (So : is_sorted times = true) by (apply times_sorted; lra).
  assert (Tcons : exists ti ts, times = ti :: ts) by (unfold times; cbn [seq map]; eauto). destruct Tcons as (ti & ts & Et).
  destruct (fresh_run (E := E) A B C Ew order P 1 default_options rhs 1 Hsh Hd Hs Hor s1 [(H0, 0)] [0] [0] (H0 * factor default_options order 0) K 1 ti ts Tid I3) as (s' & Hr).
  - rewrite N1, N2, N4, I2. exact Ha.
  - cbn. lia.
  - lia.
  - rewrite N1, N2, N4. exact HK.
  - exact HH.
  - rewrite <- Et. exact Ft.
  - rewrite <- Et. exact So.
  - rewrite <- Et in Hr.
    assert (Em : map (fun t => (t, rk_dense P (now s1) (state s1) (last_h [(H0, 0)]) (K ++ [[0]]) t)) times = map (fun t => (t, [0])) times).
    { apply map_ext. intros t. rewrite N2. apply (f_equal (pair t)). apply zero_dense. apply Forall_app. auto. }
    assert (Hr' := eq_trans Hr (f_equal (fun z => (Ret z, s')) Em)). clear Hr.
    destruct (len_history_pos m) as (N & HN). pose proof G as ((Bl & _) & _). rewrite HN in Bl.
    destruct (push_const rhs [0] ltac:(intros t u; eexists; reflexivity) times (cache s0) (S N) Bl) as (c' & P1 & P2 & P3).
    { unfold buf_y. rewrite Hc. cbn [MBuffer.ys]. apply last_repeat. rewrite HN. lia. }
    exists (set_cache c' s0). split; [exact St|]. 
    replace (run _ _ _ _) with (@Ret (list (@T Rops * @vec Rops)) (map (fun t => (t, [0])) times), s') by (symmetry; exact Hr').
    replace (fs_push_all _ _ _) with (@Ret (@buffer Rops) c') by (symmetry; exact P1). split; [reflexivity|]. unfold now, state. cbn [cache set_cache]. split; [|exact P2].
    rewrite P3. unfold times. rewrite seq_S, map_app. cbn [map]. rewrite last_last, ofnat_R. reflexivity.
Qed.
End Init.

Lemma C33_default_refuted {E : @Env Rops} H0 : 0 < H0 ->
  exists rhs t0 te y, lipschitz 1 0 rhs /\ t0 <= te /\ C2_solution rhs 1 t0 te y /\ exists d, 0 < d /\
  forall k m bs h, In (k, m, bs) ab_table -> (2 <= k)%nat -> 0 < h < H0 / 8 ->
  exists g fs s0 fuel0, garbage_ok m g /\ starts_default (E := E) rhs t0 (y t0) H0 fs /\ init_ms (E := E) m g rhs t0 (y t0) (Some h) fs fuel0 = Ret s0 /\
    now s0 <= te /\ ~ near d (state s0) (y (now s0)).
Proof.
  intros HH. exists (osc (- H0 / 2) H0), (- H0 / 2), H0, (osc_sol (- H0 / 2) H0).
  split; [apply osc_lip|]. split; [lra|]. split; [now apply osc_solution|]. exists (H0 / 4). split; [lra|].
  intros k m bs h Hm Hk Hh. destruct (default_startup (E := E) (- H0 / 2) H0 k m bs h HH ltac:(lra) Hm Hk Hh) as (fs & s0 & S1 & S2 & S3 & S4).
  exists (garb m), fs, s0, 1%nat. split; [apply garb_ok|]. split; [exact S1|]. split; [exact S2|].
  assert (Hk5 : (k - 1 <= 4)%nat) by (clear - Hm; repeat (destruct Hm as [Hm|Hm]; [injection Hm as <- <- _; lia|]); destruct Hm).
  assert (I4 : INR (k - 1) <= 4) by (replace 4 with (INR 4) by (cbn; lra); apply le_INR; exact Hk5). pose proof (pos_INR (k - 1)).
  split; [rewrite S3; change (INR (k - 1) * h <= H0); nra|].
  intros (_ & Hn). rewrite S4 in Hn. specialize (Hn 0%nat). rewrite (osc_start _ _ HH) in Hn. specialize (Hn ltac:(cbn; lia)).
  assert (Q := osc_far (- H0 / 2) H0 HH (now s0)). rewrite S3 in *.
  specialize (Q ltac:(change (- H0 / 2 + H0 / 2 <= INR (k - 1) * h); nra)).
  cbn [nth] in Hn. revert Hn Q. generalize (nth 0 (osc_sol (- H0 / 2) H0 (INR (k - 1) * h)) 0). intros z Hn Q.
  rewrite Rminus_0_l, Rabs_Ropp, Rabs_pos_eq in Hn; lra.
Qed.

(** at a positive initial time the start-up asks for a time before the history *)
Lemma C33_default_raises {E : @Env Rops} k m bs rhs t0 y0 f0 H0 h g fs fuel : In (k, m, bs) ab_table -> (2 <= k)%nat -> 0 < h < t0 -> rhs t0 y0 = Ret f0 ->
  starts_default (E := E) rhs t0 y0 H0 fs -> init_ms (E := E) m g rhs t0 y0 (Some h) fs fuel = Raise ValueError.
Proof.
  intros Hm Hk Hh Hf Hs. inversion Hs as [g1 sel s1 fuel1 G1 G2 G3]; subst fs. clear Hs.
  assert (Hord : ms_order m = k) by (clear - Hm; repeat (destruct Hm as [Hm|Hm]; [injection Hm as <- <- _; reflexivity|]); destruct Hm).
  unfold init_ms. destruct (init_base m g rhs t0 y0 (Some h)) as [s0| |] eqn:eb.
  2,3: (unfold init_base in eb; rewrite Hf in eb; discriminate).
  assert (Hh0 : hstep s0 = h) by (unfold init_base in eb; rewrite Hf in eb; injection eb as <-; reflexivity).
  cbn [obind]. rewrite Hord, Hh0. destruct (Nat.eqb_spec k 1) as [|_]; [lia|]. cbn [fst snd].
  destruct k as [|[|k']]; try lia. replace (S (S k') - 1)%nat with (S k') by lia.
  pose proof (times_sorted h ltac:(lra) (S k') 1) as So. cbn [seq map] in *.
  rewrite (run_sorted_eq _ _ _ _ _ _ _ _ _ So).
  replace (ltb _ (buf_t0 (cache s1))) with true; [reflexivity|]. symmetry. apply Rltb_true.
  destruct (init_var_fresh RungeKutta45 _ _ _ _ _ _ _ _ G1 eq_refl G2) as (_ & _ & _ & Hb).
  rewrite Hb, ofnat_R. change (INR 1 * h < t0). cbn [INR]. lra.
Qed.
Lemma init_fsal_45 rhs t0 y0 f0 H0 : rhs t0 y0 = Ret f0 ->
  exists s1, init_var (@RungeKutta45 Rops) (garb RungeKutta45) rhs t0 y0 default_options (fun _ _ _ => Ret H0) None = Ret s1 /\ hstep s1 = H0.
Proof.
  intros Hf. pose proof (@garb_ok Rops RungeKutta45) as G. destruct (@RungeKutta45 Rops) as [| | |A B C Ew order P|] eqn:em; try discriminate.
  destruct (init_fsal A B C Ew order P _ rhs t0 y0 f0 H0 Hf G) as (s1 & I1 & I2 & _). eauto.
Qed.
