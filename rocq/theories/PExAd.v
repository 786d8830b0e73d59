(** Instances for the examples of C82. *)
From Coq Require Import List ZArith QArith Bool Arith Lia Reals Lra.
From Verif Require Import Base Scalar Vec MBuffer MZeros MSteps MApi MClasses MAdaptive MImplicit Laws Spec SpecInst SpecRK SpecDense SpecMS SpecCtl SpecAd PBound PVecR.
Import ListNotations.
Open Scope R_scope.

(** y' = 2 t with the explicit trapezium rule and Euler's method inside: the trial
    h = 1 has error 1 and is rejected, h = 9/10 is accepted *)
Definition ad_A : list (list R) := [[0; 0]; [1; 0]].
Definition ad_B : list R := [1 / 2; 1 / 2].
Definition ad_C : list R := [0; 1].
Definition ad_B2 : list R := [1; 0].
Definition ad_opts : @options Rops := @mkopts Rops 1 0 1 PInf (1 / 5) 10 (9 / 10).
Definition ad_rhs : @rhs_t Rops := fun t _ => Ret [2 * t].
Definition ad_s : @st Rops := @mkst Rops (@mkbuf Rops [0; 0] [[0]; [0]] [[0]; [0]]) 1 [[0]; [0]] (@mkitp Rops [] [] 0).

Lemma ad_rk (h : R) : @rk_step Rops ad_rhs ad_A ad_B ad_C 0 [0] [0] h [[0]; [2 * h]] [h * h].
Proof.
  split.
  - cbn [skipn ad_A ad_C]. econstructor; [|constructor]. unfold ad_rhs. change (@add Rops) with Rplus. change (@mul Rops) with Rmult. replace (0 + h * 1) with h; [reflexivity|]. change (h = 0 + h * 1 :> R). lra.
  - unfold rk_combine, ad_B, lincomb. cbn. match goal with |- [?a] = [?b] => replace b with a; [reflexivity|]; change (a = b :> R) end. field.
Qed.
Lemma ad_err h : 0 < h -> scaled_rms ad_opts [0] [h * h] (fun i => cmp i (@rk_combine Rops [0] h ad_B [[0]; [2 * h]]) - cmp i (@rk_combine Rops [0] h ad_B2 [[0]; [2 * h]])) = h * h.
Proof.
  intros Hh. unfold scaled_rms, Rsum, rk_combine, ad_B, ad_B2, lincomb, ad_opts, cmp. cbn.
  match goal with |- sqrt ?x = _ => replace x with (Rsqr (h * h)) by (unfold Rsqr; field) end.
  apply sqrt_Rsqr. apply Rlt_le, Rmult_lt_0_compat; auto.
Qed.
Lemma ad_trials : trials ad_rhs ad_A ad_B ad_C ad_B2 ad_opts 1 0 [0] [0] 1 [(1, 1 * 1); (9 / 10, 9 / 10 * (9 / 10))] [9 / 10 * (9 / 10)] [2 * (0 + 9 / 10)] (9 / 10).
Proof.
  assert (F1 : 1 * factor ad_opts 1 (1 * 1) = 9 / 10).
  { unfold factor. destruct (Req_EM_T _ _); [lra|]. cbn [max_factor min_factor safety_factor ad_opts].
    replace (Rpower (1 * 1) (1 / IZR (1 + 1))) with 1 by (rewrite Rmult_1_r; unfold Rpower; rewrite ln_1, Rmult_0_r, exp_0; reflexivity).
    rewrite Rmax_right by lra. rewrite Rmin_right by lra. lra. }
  assert (F2 : 9 / 10 * factor ad_opts 1 (9 / 10 * (9 / 10)) = 9 / 10).
  { unfold factor. destruct (Req_EM_T _ _); [lra|]. cbn [max_factor min_factor safety_factor ad_opts].
    replace (Rpower (9 / 10 * (9 / 10)) (1 / IZR (1 + 1))) with (9 / 10).
    - rewrite Rmax_right by lra. rewrite Rmin_right by lra. lra.
    - change (1 + 1)%Z with 2%Z. replace (1 / 2) with (/ 2) by lra. rewrite Rpower_sqrt by lra. change (9 / 10 * (9 / 10)) with (Rsqr (9 / 10)). symmetry. apply sqrt_Rsqr. lra. }
  eapply try_reject with (K := [[0]; [2 * 1]]) (y1 := [1 * 1]); [apply ad_rk|symmetry; apply ad_err; lra|unfold accepted; lra|]. rewrite F1.
  assert (Q : trials ad_rhs ad_A ad_B ad_C ad_B2 ad_opts 1 0 [0] [0] (9 / 10) [(9 / 10, 9 / 10 * (9 / 10))] [9 / 10 * (9 / 10)] [2 * (0 + 9 / 10)] (9 / 10 * factor ad_opts 1 (9 / 10 * (9 / 10)))).
  { eapply try_accept with (K := [[0]; [2 * (9 / 10)]]); [apply ad_rk|symmetry; apply ad_err; lra|unfold accepted; right; lra|reflexivity]. }
  rewrite F2 in Q. exact Q.
Qed.
