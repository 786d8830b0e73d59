(** Instances for the examples of C93: y' = y, y(0) = 1, event y = 2. *)
From Coq Require Import List ZArith QArith Bool Arith Lia Reals Lra.
From Verif Require Import Base Scalar Vec MBuffer MZeros MSteps MApi MDop853 MClasses Laws Spec SpecInst SpecRK SpecEv SpecOrder
  PVecR PTop1 Ex SpecMS SpecConv SpecConv3 SpecLive PConv8 PExVar SpecEvC PExEvC SpecEvD PEvD2.
Import ListNotations.
Open Scope R_scope.

Definition ev_two_stop : eventR := mkuev (OT := Rops) (fun _ a => Ret (nth 0 a 0 - 2)) (Some true) None.
Lemma two_stop_fun : event_fun 1 1 ev_two_stop G_two.
Proof. exact two_fun. Qed.
Lemma exp3 : exp 3 <= 27.
Proof. replace 3 with (1 + 1 + 1) by ring. rewrite !exp_plus. pose proof exp_le_3. pose proof (exp_pos 1). assert (exp 1 * exp 1 <= 3 * 3) by (apply Rmult_le_compat; lra).
  assert (exp 1 * exp 1 * exp 1 <= 3 * 3 * 3) by (apply Rmult_le_compat; [apply Rmult_le_pos; lra|lra|lra|lra]). lra. Qed.
Lemma exp_lip t1 t2 : 0 <= t1 <= 3 -> 0 <= t2 <= 3 -> Rabs (exp t1 - exp t2) <= 27 * Rabs (t1 - t2).
Proof.
  assert (W : forall a b, 0 <= a -> a < b -> b <= 3 -> Rabs (exp a - exp b) <= 27 * Rabs (a - b)).
  { intros a b H1 H2 H3. destruct (MVT_cor2 exp exp a b H2) as (c & Hc & Hi); [intros; apply derivable_pt_lim_exp|].
    rewrite !(Rabs_minus_sym a), (Rabs_minus_sym (exp a)), Hc, Rabs_mult. apply Rmult_le_compat_r; [apply Rabs_pos|]. rewrite Rabs_pos_eq by (left; apply exp_pos).
    eapply Rle_trans; [|apply exp3]. left. apply exp_increasing. lra. }
  intros H1 H2. destruct (Rtotal_order t1 t2) as [H|[->|H]]; [apply W; lra| |rewrite Rabs_minus_sym, (Rabs_minus_sym t1); apply W; lra].
  unfold Rminus. rewrite !Rplus_opp_r, Rabs_R0. lra.
Qed.
Lemma two_early x : 0 <= x <= ln 2 - 1 / 2 -> 2 / 3 <= Rabs (G_two x (sol_exp x)).
Proof.
  intros Hx. unfold G_two, sol_exp. cbn [nth]. assert (exp x <= exp (ln 2 - 1 / 2)) by (destruct (Rle_lt_or_eq_dec _ _ (proj2 Hx)) as [H|H]; [left; now apply exp_increasing|rewrite <- H; lra]).
  assert (exp (ln 2 - 1 / 2) * exp (1 / 2) = 2) by (rewrite <- exp_plus; replace (ln 2 - 1 / 2 + 1 / 2) with (ln 2) by ring; apply exp_ln; lra).
  pose proof (exp_low (1 / 2)). pose proof (exp_pos (ln 2 - 1 / 2)). assert (exp (ln 2 - 1 / 2) * (1 + 1 / 2) <= 2) by (apply Rle_trans with (exp (ln 2 - 1 / 2) * exp (1 / 2)); [apply Rmult_le_compat_l; lra|lra]).
  rewrite Rabs_left by lra. lra.
Qed.
Lemma C93_example : exists K h0, 0 <= K /\ 0 < h0 /\ forall h, 0 < h <= h0 -> exists s0, init_rk (@RungeKutta4 Rops) (garb RungeKutta4) rhs_exp 0 (sol_exp 0) (Some h) = Ret s0 /\
  finds (E := ER) (solver_of (E := ER) RungeKutta4 0 default_options rhs_exp PInf) s0 [1; 2] [ev_two] 0 sol_exp (ln 2) (K * h ^ 4) (K * h ^ 4 + ev_tol + h / 2 ^ 50) /\
  stops_at (E := ER) (solver_of (E := ER) RungeKutta4 0 default_options rhs_exp PInf) s0 [1; 2] ev_two_stop (ln 2) (K * h ^ 4 + ev_tol + 27 * (h / 2 ^ 50)).
Proof.
  destruct (C93_fixed (E := ER) rhs_exp 1 1 0 3 sol_exp exp_lipschitz (fun t v _ => ex_intro _ v eq_refl) ltac:(lra) RungeKutta4 4 (exp_Ck 0 3 5) (exp_smooth 0 3) ltac:(cbn; auto 10)) as (K & HK & H).
  exists K, (Rmin (1 / 8) (/ (8 * (K + 1)))). split; [exact HK|]. assert (P8 : 0 < / (8 * (K + 1))) by (apply Rinv_0_lt_compat; lra).
  split; [apply Rmin_pos; lra|]. intros h Hh.
  assert (H1 : h <= 1 / 8) by (eapply Rle_trans; [apply Hh|apply Rmin_l]). assert (H2 : h <= / (8 * (K + 1))) by (eapply Rle_trans; [apply Hh|apply Rmin_r]).
  destruct (H h (garb RungeKutta4) ltac:(lra) (garb_ok _)) as (s0 & Hi & Hn & HF). exists s0. split; [exact Hi|].
  assert (Hk : 0 <= K * h ^ 4 <= 1 / 8).
  { split; [apply Rmult_le_pos; [exact HK|apply pow_le; lra]|]. assert (h ^ 4 <= h) by (assert (h ^ 3 <= 1) by (rewrite <- (pow1 3); apply pow_incr; lra); change (h ^ 4) with (h * h ^ 3); assert (h * h ^ 3 <= h * 1) by (apply Rmult_le_compat_l; lra); lra).
    assert (K * h ^ 4 <= (K + 1) * / (8 * (K + 1))) by (apply Rmult_le_compat; try lra; apply pow_le; lra).
    replace ((K + 1) * / (8 * (K + 1))) with (1 / 8) in H3 by (field; lra). lra. }
  pose proof ln2_bounds as Hln.
  assert (Hc : forall u, ue_fun u = ue_fun ev_two -> event_call s0 (3 - h) [1; 2] [u]).
  { intros u Hu. split; [discriminate|]. split; [cbn; rewrite (proj2 (Rleb_true 1 2)); [reflexivity|lra]|]. split; [intros x [<-|[<-|[]]]; rewrite Hn; lra|].
    split; [discriminate|]. intros v [<-|[]] t a. rewrite Hu. eexists. reflexivity. }
  assert (Hv : forall u, event_fun 1 1 u G_two -> ue_dir u = 0 -> visible_zero 1 sol_exp u G_two 1 1 1 (1 / 2) (ln 2) (now s0) (last [1; 2] 0) (K * h ^ 4) h).
  { intros u Hu Hd. split; [exact Hu|]. split; [exact two_zero|]. rewrite Hn, Hd. cbn [last]. repeat split; lra. }
  split.
  - destruct (HF 0%nat default_options PInf 0%nat [] s0 [1; 2] [ev_two] eq_refl eq_refl (Hc ev_two eq_refl)) as (F & _).
    replace (K * h ^ 4 + ev_tol + h / 2 ^ 50) with ((1 * (K * h ^ 4) + ev_tol) / 1 + h / 2 ^ 50) by field.
    apply (F 0%nat ev_two G_two 1 1 1 (1 / 2) (ln 2)); [intros u [<-|[]]; discriminate|reflexivity|apply Hv; [exact two_fun|reflexivity]].
  - destruct (HF 0%nat default_options PInf 0%nat [] s0 [1; 2] [ev_two_stop] eq_refl eq_refl (Hc ev_two_stop eq_refl)) as (_ & F).
    replace (K * h ^ 4 + ev_tol + 27 * (h / 2 ^ 50)) with ((1 * (K * h ^ 4) + ev_tol + 27 * (h / 2 ^ 50)) / 1) by field.
    apply (F ev_two_stop G_two 1 27 1 1 (1 / 2) (ln 2)); [reflexivity|reflexivity|apply Hv; [exact two_stop_fun|reflexivity]|].
    split; [lra|]. rewrite Hn. split; [intros t1 t2 X1 X2; unfold G_two, sol_exp; cbn [nth]; replace (exp t1 - 2 - (exp t2 - 2)) with (exp t1 - exp t2) by ring; now apply exp_lip|].
    intros x Hx. pose proof (two_early x Hx). unfold ev_tol in *. assert (h / 2 ^ 50 <= 1 / 1000) by (apply Rmult_le_reg_r with (2 ^ 50); [apply pow_lt; lra|]; unfold Rdiv; rewrite Rmult_assoc, Rinv_l by (apply pow_nonzero; lra); lra). lra.
Qed.
