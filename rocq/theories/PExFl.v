(** Instances for the examples of C81: y' = y, y(0) = 1. *)
From Coq Require Import List ZArith QArith Bool Arith Lia Reals Lra SpecFloat.
From Verif Require Import Base Scalar Vec MBuffer MZeros MSteps MApi MClasses Laws Spec SpecInst PVecR SpecRK SpecConv PConv1 PConv8 SpecConv3 PExVar Ex PStep PKeeps PCore PHist PTerm PTop1 SpecFl PFl1 PFl2.
Import ListNotations.
Open Scope R_scope.

Lemma exp_in t : 0 <= t <= 1 + 1 -> within 9 (sol_exp t).
Proof.
  intros Ht. apply Forall_cons; [|apply Forall_nil]. rewrite Rabs_pos_eq by (left; apply exp_pos). apply Rle_trans with (exp (1 + 1)).
  - destruct (proj2 Ht) as [H| ->]; [left; now apply exp_increasing|lra].
  - rewrite exp_plus. pose proof exp_le_3. pose proof (exp_pos 1). apply Rle_trans with (3 * 3); [apply Rmult_le_compat; lra|lra].
Qed.
Lemma exp_tame : tame (@rhs_exp Rops) 1 1 9 10.
Proof.
  split; [apply exp_lipschitz|]. split.
  - intros s t y u v _ E1 E2. injection E1 as <-. injection E2 as <-. apply near_refl. rewrite Rmult_1_l. apply Rabs_pos.
  - split; [lra|]. intros t y _ _ H. exists y. split; [reflexivity|]. eapply within_mono; [|exact H]. lra.
Qed.
Lemma exp_computed prec emax pw eps : 0 <= eps -> computed prec emax pw (@rhs_exp (SFops_at prec emax pw)) (@rhs_exp Rops) 1 9 eps.
Proof.
  intros He t y _ Fy _ _ _. exists y, (map val y). split; [reflexivity|]. split; [exact Fy|]. split; [reflexivity|]. now apply near_refl.
Qed.
(** the format with [prec] bits and exponents below 1024 *)
Lemma roomy_at prec : (1 < prec < 1024)%Z -> roomy prec 1024 9 10 (uro prec).
Proof.
  intros H. split; [lia|]. split; [|lra]. apply Rle_trans with (powerRZ 2 7); [change 7%Z with (Z.of_nat 7); rewrite <- pow_powerRZ; lra|].
  replace (1024 - 1)%Z with (7 + 1016)%Z by lia. rewrite powerRZ_add by lra.
  assert (1 <= powerRZ 2 1016). { change 1016%Z with (Z.of_nat 1016). rewrite <- pow_powerRZ. apply pow_R1_Rle. lra. }
  assert (0 < powerRZ 2 7) by (apply powerRZ_lt; lra). rewrite <- (Rmult_1_r (powerRZ 2 7)) at 1. apply Rmult_le_compat_l; lra.
Qed.
(** 2^-k and its neighbours in the format with 2k bits *)
Definition two_to (prec : Z) (k : nat) : spec_float := S754_finite false (Pos.shiftl_nat 1 (Z.to_nat (prec - 1))) (1 - prec - Z.of_nat k).
Lemma shiftl_IZR j : IZR (Zpos (Pos.shiftl_nat 1 j)) = powerRZ 2 (Z.of_nat j).
Proof.
  rewrite <- pow_powerRZ. induction j as [|j IH]; [reflexivity|]. change (Pos.shiftl_nat 1 (S j)) with (xO (Pos.shiftl_nat 1 j)).
  rewrite Pos2Z.inj_xO, mult_IZR, IH. reflexivity.
Qed.
Lemma digits_shiftl j : digits2_pos (Pos.shiftl_nat 1 j) = Pos.of_succ_nat j.
Proof. induction j as [|j IH]; [reflexivity|]. change (Pos.shiftl_nat 1 (S j)) with (xO (Pos.shiftl_nat 1 j)). cbn [digits2_pos]. rewrite IH. reflexivity. Qed.
Lemma two_to_fin prec emax k : (1 < prec)%Z -> (prec < emax)%Z -> (Z.of_nat k <= emax - 3)%Z -> fin prec emax (two_to prec k) /\ val (two_to prec k) = powerRZ 2 (- Z.of_nat k).
Proof.
  intros H1 H2 H3. split.
  - split; [|exact I]. unfold two_to, valid_binary, bounded, canonical_mantissa. rewrite digits_shiftl. apply andb_true_intro. split.
    + apply Zeq_is_eq_bool. unfold fexp, emin. lia.
    + apply Z.leb_le. lia.
  - unfold two_to, val. rewrite shiftl_IZR, <- powerRZ_add by lra. f_equal. lia.
Qed.
(** whatever K is: enough bits and a step allowed by K *)
Lemma exp_room K : 0 < K -> exists prec emax h, roomy prec emax 9 10 (uro prec) /\ fin prec emax h /\ 0 < val h /\ K * (val h + uro prec / val h) <= 1.
Proof.
  intros HK. destruct (archimed (2 * K)) as (Hj & _). set (j := Z.to_nat (up (2 * K))). set (k := S j).
  assert (Hj2 : 2 * K < INR j). { unfold j. rewrite INR_IZR_INZ, Z2Nat.id; [lra|]. apply le_IZR. cbn. lra. }
  assert (Hk : 2 * K <= 2 ^ k).
  { apply Rle_trans with (INR k); [unfold k; rewrite S_INR; lra|]. clear. induction k as [|k IH]; [cbn; lra|].
    rewrite S_INR. cbn [pow]. assert (1 <= 2 ^ k) by (apply pow_R1_Rle; lra). lra. }
  exists (2 * Z.of_nat k)%Z, (2 * Z.of_nat k + 1024)%Z, (two_to (2 * Z.of_nat k) k).
  destruct (two_to_fin (2 * Z.of_nat k) (2 * Z.of_nat k + 1024) k ltac:(lia) ltac:(lia) ltac:(lia)) as (F1 & F2).
  assert (P : powerRZ 2 (- Z.of_nat k) = / 2 ^ k). { rewrite powerRZ_neg', <- pow_powerRZ. reflexivity. }
  assert (P0 : 0 < 2 ^ k) by (apply pow_lt; lra).
  split; [|split; [exact F1|]].
  - split; [lia|]. split; [|lra]. apply Rle_trans with (powerRZ 2 7); [change 7%Z with (Z.of_nat 7); rewrite <- pow_powerRZ; lra|].
    replace (2 * Z.of_nat k + 1024 - 1)%Z with (7 + Z.of_nat (2 * k + 1016))%Z by lia. rewrite powerRZ_add by lra. rewrite <- pow_powerRZ.
    assert (1 <= 2 ^ (2 * k + 1016)) by (apply pow_R1_Rle; lra).
    assert (0 < powerRZ 2 7) by (apply powerRZ_lt; lra). rewrite <- (Rmult_1_r (powerRZ 2 7)) at 1. apply Rmult_le_compat_l; lra.
  - rewrite F2. split; [apply powerRZ_lt; lra|].
    assert (U : uro (2 * Z.of_nat k) = / 2 ^ k * / 2 ^ k).
    { unfold uro. replace (- (2 * Z.of_nat k))%Z with (- Z.of_nat k + - Z.of_nat k)%Z by lia. rewrite powerRZ_add, P by lra. reflexivity. }
    rewrite U, P. assert (0 < / 2 ^ k) by (now apply Rinv_0_lt_compat). replace (/ 2 ^ k + / 2 ^ k * / 2 ^ k / / 2 ^ k) with (2 * / 2 ^ k) by (field; lra).
    apply Rmult_le_reg_r with (2 ^ k); auto. replace (K * (2 * / 2 ^ k) * 2 ^ k) with (2 * K) by (field; lra). lra.
Qed.
Definition sf_one : spec_float := two_to 53 0.
Lemma sf_one_ok : fin 53 1024 sf_one /\ val sf_one = 1.
Proof. unfold sf_one. destruct (two_to_fin 53 1024 0) as (H & G); try lia. split; auto. Qed.
(** y' = y from y(0) = 1 with RungeKutta4 and h = 1 in binary64 *)
Section B64.
Variable pw : spec_float -> spec_float -> spec_float.
Notation FT := (SFops_at 53 1024 pw).
Context {E : @Env FT}.
Definition f_rk4 : @st FT := of_outcome (init_rk (@RungeKutta4 FT) (garb (@RungeKutta4 FT)) rhs_exp (S754_zero false) [sf_one] (Some sf_one)).
Lemma f_rk4_built : built (E := E) (@rhs_exp FT) (@RungeKutta4 FT) f_rk4.
Proof. eapply (built_rk rhs_exp RungeKutta4 (garb (@RungeKutta4 FT)) (S754_zero false) [sf_one] (Some sf_one)); [exact I|apply garb_ok|reflexivity]. Qed.
Lemma f_rk4_data : hstep f_rk4 = sf_one /\ now f_rk4 = S754_zero false.
Proof. split; reflexivity. Qed.
Lemma f_rk4_returns fuelc o tb b : steps_return (solver_of (E := E) (@RungeKutta4 FT) fuelc o rhs_exp tb) b f_rk4.
Proof. intros l x _. apply core_total; [intros t y; exists y; reflexivity|exact I]. Qed.
Lemma f_rk4_chain : exists s', chain (solver_of (E := E) (@RungeKutta4 FT) 0 default_options rhs_exp PInf) PInf f_rk4 [s'] s' /\ now s' = sf_one.
Proof.
  destruct (f_rk4_returns 0 default_options PInf PInf [] f_rk4 (chain_nil _ _ _)) as (s' & Hc). exists s'. split.
  - econstructor; [split; [intros Q; discriminate Q|exact Hc]|constructor].
  - assert (W : wf (@RungeKutta4 FT) f_rk4) by (eapply (reachable_wf RungeKutta4 0 default_options rhs_exp PInf); exists f_rk4, 0%nat, []; split; [apply f_rk4_built|reflexivity]).
    rewrite (proj1 (core_fixed_now (@RungeKutta4 FT) 0 default_options rhs_exp f_rk4 s' W eq_refl Hc)). destruct f_rk4_data as (-> & ->). reflexivity.
Qed.
End B64.
Definition sf_mone : spec_float := SFopp sf_one.
Lemma val_opp x : val (SFopp x) = - val x.
Proof. destruct x as [?|?| |[|] m e]; cbn [SFopp val negb]; ring. Qed.
Lemma sf_mone_ok : fin 53 1024 sf_mone /\ val sf_mone = -1.
Proof.
  destruct sf_one_ok as ((V & W) & H). unfold sf_mone. split; [|rewrite val_opp, H; reflexivity].
  split; [exact V|exact I].
Qed.
Lemma uro_53 : 2 * uro 53 <= 1.
Proof. pose proof (uro_pos 53 ltac:(lia)). lra. Qed.
Lemma tiny_le : tiny 53 1024 <= 1.
Proof.
  unfold tiny. change (3 - 1024 - 53)%Z with (- Z.of_nat 1074)%Z. rewrite powerRZ_neg', <- pow_powerRZ. rewrite <- Rinv_1. apply Rinv_le_contravar; [lra|]. apply pow_R1_Rle. lra.
Qed.
Lemma one_le_big : 1 <= powerRZ 2 (1024 - 2).
Proof. change (1024 - 2)%Z with (Z.of_nat 1022). rewrite <- pow_powerRZ. apply pow_R1_Rle. lra. Qed.
