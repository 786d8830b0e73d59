(** bisect in floating point. *)
From Coq Require Import List ZArith QArith Bool Arith Lia Reals Lra SpecFloat.
From Flocq Require Import Core Relative Plus_error Mult_error BinarySingleNaN.
From Verif Require Import Base Scalar Vec MBuffer MZeros MSteps SpecFl PFl1 PFl5.
Import ListNotations.
Open Scope R_scope.

Section Fl.
Variables prec emax : Z.
Hypothesis Hp : (1 < prec)%Z.
Hypothesis He : (prec < emax)%Z.
Variable pw : spec_float -> spec_float -> spec_float.
Notation FT := (SFops_at prec emax pw).
Local Instance Hprec6 : Prec_gt_0 prec. Proof. unfold Prec_gt_0. lia. Qed.
Local Instance Hmax6 : Prec_lt_emax prec emax. Proof. exact He. Qed.
Notation fexp := (SpecFloat.fexp prec emax).
Notation rnd := (round radix2 fexp ZnearestE).
Notation fmt := (generic_format radix2 fexp).
Local Instance Hfexp : Valid_exp fexp. Proof. apply (fexp_correct prec emax Hprec6). Qed.

Lemma fin_fmt x : fin prec emax x -> fmt (val x).
Proof. intros F. destruct (fin_B prec emax x F) as (b & _ & _ & <-). apply generic_format_B2R. Qed.

Lemma div_equiv (x y : binary_float prec emax) : SFdiv prec emax (B2SF x) (B2SF y) = B2SF (Bdiv mode_NE x y).
Proof.
  destruct x as [sx|sx| |sx mx ex Bx]; destruct y as [sy|sy| |sy my ey By]; [now trivial..|].
  cbn. rewrite B2SF_SF2B. destruct (SFdiv_core_binary _ _ _ _ _ _) as [[? ?] ?]. apply bra_equiv.
Qed.

Lemma fl_add_rnd x y : fin prec emax x -> fin prec emax y -> Rabs (val x + val y) <= big emax ->
  fin prec emax (SFadd prec emax x y) /\ val (SFadd prec emax x y) = rnd (val x + val y).
Proof.
  intros Fx Fy Hb. destruct (fin_B prec emax x Fx) as (bx & <- & F1 & V1). destruct (fin_B prec emax y Fy) as (b2 & <- & F2 & V2).
  rewrite (add_equiv prec emax Hp He), <- V1, <- V2 in *.
  pose proof (Bplus_correct prec emax (Hprec prec Hp) (Hmax prec emax He) mode_NE bx b2 F1 F2) as H. cbn [round_mode] in H.
  rewrite Rlt_bool_true in H by now apply rnd_small. destruct H as (H1 & H2 & _). destruct (B_fin prec emax _ H2) as (G1 & G2). split; [exact G1|congruence].
Qed.
Lemma fl_div_rnd x y : fin prec emax x -> fin prec emax y -> val y <> 0 -> Rabs (val x / val y) <= big emax ->
  fin prec emax (SFdiv prec emax x y) /\ val (SFdiv prec emax x y) = rnd (val x / val y).
Proof.
  intros Fx Fy Hy Hb. destruct (fin_B prec emax x Fx) as (bx & <- & F1 & V1). destruct (fin_B prec emax y Fy) as (b2 & <- & F2 & V2).
  rewrite div_equiv, <- V1, <- V2 in *.
  pose proof (Bdiv_correct prec emax Hprec6 Hmax6 mode_NE bx b2 Hy) as H. cbn [round_mode] in H.
  rewrite Rlt_bool_true in H by now apply rnd_small. destruct H as (H1 & H2 & _). rewrite F1 in H2. destruct (B_fin prec emax _ H2) as (G1 & G2). split; [exact G1|congruence].
Qed.

(** the product of two finite floats has the right sign unless it underflows *)
Lemma tiny_bpow : tiny prec emax = bpow radix2 (emin prec emax).
Proof. unfold tiny, emin. now rewrite bpow_powerRZ. Qed.
Lemma zero_fin : fin prec emax (S754_zero false) /\ val (S754_zero false) = 0.
Proof. split; [split; [reflexivity|exact I]|reflexivity]. Qed.
Lemma sign_val x : fin prec emax x -> (match x with S754_finite s _ _ => s | _ => false end = true <-> val x < 0).
Proof.
  intros (_ & F). destruct x as [s|s| |s mm ee]; try contradiction; cbn; [split; [discriminate|lra]|].
  assert (0 < powerRZ 2 ee) by (apply powerRZ_lt; lra). assert (0 < IZR (Z.pos mm)) by (apply IZR_lt; lia).
  assert (0 < IZR (Z.pos mm) * powerRZ 2 ee) by (now apply Rmult_lt_0_compat).
  destruct s; split; auto; try discriminate; intros; lra.
Qed.
Lemma bsign_val (b : binary_float prec emax) : is_finite b = true -> B2R b <> 0 -> (Bsign b = true <-> B2R b < 0).
Proof.
  intros F N. destruct b as [s|s| |s mm ee Hb]; cbn in *; try discriminate; try lra.
  unfold F2R. cbn. assert (0 < bpow radix2 ee) by apply bpow_gt_0. assert (0 < IZR (Z.pos mm)) by (apply IZR_lt; lia).
  assert (0 < IZR (Z.pos mm) * bpow radix2 ee) by (now apply Rmult_lt_0_compat).
  destruct s; cbn; split; auto; try discriminate; intros; try lra. change (Z.neg mm) with (- Z.pos mm)%Z. rewrite opp_IZR. lra.
Qed.
Lemma mul_neg x y : fin prec emax x -> fin prec emax y ->
  (val x * val y <= - tiny prec emax -> SFltb (SFmul prec emax x y) (S754_zero false) = true) /\
  (0 < val x * val y -> SFltb (SFmul prec emax x y) (S754_zero false) = false).
Proof.
  intros Fx Fy. destruct (fin_B prec emax x Fx) as (bx & <- & F1 & V1). destruct (fin_B prec emax y Fy) as (b2 & <- & F2 & V2).
  rewrite (mul_equiv prec emax Hp He), <- V1, <- V2 in *. destruct zero_fin as (Z1 & Z2).
  pose proof (Bmult_correct prec emax (Hprec prec Hp) (Hmax prec emax He) mode_NE bx b2) as H. cbn [round_mode] in H.
  destruct (Rlt_bool _ _).
  - destruct H as (H1 & H2 & _). rewrite F1, F2 in H2. destruct (B_fin prec emax _ H2) as (G1 & G2). split; intros Q.
    + apply (fl_ltb prec emax); auto. rewrite Z2, G2, H1. rewrite tiny_bpow in Q. apply Rle_lt_trans with (- bpow radix2 (emin prec emax)); [|pose proof (bpow_gt_0 radix2 (emin prec emax)); lra].
      apply round_le_generic; [exact _|apply valid_rnd_N| |exact Q]. apply generic_format_opp, generic_format_bpow. unfold SpecFloat.fexp, emin. lia.
    + apply (fl_ltb_false prec emax); auto. rewrite Z2, G2, H1. apply round_ge_generic; [exact _|apply valid_rnd_N|apply generic_format_0|lra].
  - assert (N : forall u v, u * v <> 0 -> u <> 0 /\ v <> 0) by (intros u v Huv; split; intros ->; apply Huv; ring).
    rewrite H. split; intros Q.
    + assert (Q0 : B2R bx * B2R b2 < 0) by (rewrite tiny_bpow in Q; pose proof (bpow_gt_0 radix2 (emin prec emax)); lra).
      destruct (N (B2R bx) (B2R b2) ltac:(lra)) as (N1 & N2). pose proof (bsign_val bx F1 N1) as S1. pose proof (bsign_val b2 F2 N2) as S2.
      destruct (Bsign bx) eqn:e1, (Bsign b2) eqn:e2; cbn; auto; exfalso.
      * pose proof (proj1 S1 eq_refl). pose proof (proj1 S2 eq_refl). assert (0 < - B2R bx * - B2R b2) by (apply Rmult_lt_0_compat; lra). lra.
      * assert (~ B2R bx < 0) by (intros W; apply S1 in W; discriminate). assert (~ B2R b2 < 0) by (intros W; apply S2 in W; discriminate).
        assert (0 <= B2R bx * B2R b2) by (apply Rmult_le_pos; lra). lra.
    + destruct (N (B2R bx) (B2R b2) ltac:(lra)) as (N1 & N2). pose proof (bsign_val bx F1 N1) as S1. pose proof (bsign_val b2 F2 N2) as S2.
      destruct (Bsign bx) eqn:e1, (Bsign b2) eqn:e2; cbn; auto; exfalso.
      * pose proof (proj1 S1 eq_refl). assert (~ B2R b2 < 0) by (intros W; apply S2 in W; discriminate).
        assert (0 <= - B2R bx * B2R b2) by (apply Rmult_le_pos; lra). lra.
      * pose proof (proj1 S2 eq_refl). assert (~ B2R bx < 0) by (intros W; apply S1 in W; discriminate).
        assert (0 <= B2R bx * - B2R b2) by (apply Rmult_le_pos; lra). lra.
Qed.

Lemma rnd_mono a b : a <= b -> rnd a <= rnd b.
Proof. apply round_le; [exact _|apply valid_rnd_N]. Qed.
Lemma rnd_err2 x : Rabs (rnd x - x) <= uro prec * Rabs x + tiny prec emax / 2.
Proof.
  destruct (error_N_FLT radix2 (emin prec emax) prec Hprec6 (fun z => negb (Z.even z)) x) as (eps & eta & H1 & H2 & _ & H3).
  change (round radix2 (FLT_exp (emin prec emax) prec) (Znearest (fun z => negb (Z.even z))) x) with (rnd x) in H3.
  rewrite H3. replace (x * (1 + eps) + eta - x) with (x * eps + eta) by ring.
  eapply Rle_trans; [apply Rabs_triang|]. rewrite Rabs_mult, Rmult_comm. rewrite tiny_bpow.
  assert (U : / 2 * bpow radix2 (- prec + 1) = uro prec).
  { rewrite (uro_bpow prec). change (/ 2) with (bpow radix2 (-1)). rewrite <- bpow_plus. f_equal. lia. }
  rewrite U in H1. apply Rplus_le_compat; [apply Rmult_le_compat_r; [apply Rabs_pos|exact H1]|lra].
Qed.
Lemma two_val : fin prec emax (@two FT) /\ val (@two FT) = 2.
Proof.
  assert (B : 4 <= bpow radix2 (emax - 1)). { change 4 with (bpow radix2 2). apply bpow_le. lia. }
  unfold two. change (@lit FT 2%Q) with (sf_of_Q_at prec emax 2). unfold sf_of_Q_at. cbn [Qnum Qden].
  pose proof (Bdiv_correct_aux prec emax Hprec6 Hmax6 mode_NE false 2 0 false 1 0) as H. cbv zeta in H.
  destruct (SFdiv_core_binary prec emax 2 0 1 0) as [[m e] l]. cbn [xorb] in H. rewrite <- (bra_equiv prec emax) in H.
  assert (Eq : F2R (Float radix2 (cond_Zopp false 2) 0) / F2R (Float radix2 (cond_Zopp false 1) 0) = 2).
  { unfold F2R. cbn. lra. }
  assert (R2 : rnd 2 = 2). { apply round_generic; [apply valid_rnd_N|]. change 2 with (bpow radix2 1). apply generic_format_bpow. unfold SpecFloat.fexp, emin. lia. }
  rewrite Eq in H. destruct H as (V & H). cbn [round_mode] in H. rewrite R2 in H.
  assert (B2 : Rabs 2 < bpow radix2 emax). { rewrite Rabs_pos_eq by lra. change 2 with (bpow radix2 1). apply bpow_lt. lia. }
  rewrite Rlt_bool_true in H by exact B2. destruct H as (H1 & H2 & _).
  split; [|rewrite val_SF2R; exact H1]. split; [exact V|]. clear - H2. destruct (SpecFloat.binary_round_aux _ _ _ _ _ _); cbn in *; try discriminate; auto.
Qed.

(** the midpoint *)
Lemma midpoint l r : fin prec emax l -> fin prec emax r -> val l <= val r -> Rabs (val l) <= powerRZ 2 (emax - 2) -> Rabs (val r) <= powerRZ 2 (emax - 2) ->
  let m := @div FT (@add FT l r) (@two FT) in
  fin prec emax m /\ val l <= val m <= val r /\
  Rabs (val m - (val l + val r) / 2) <= 2 * (uro prec * Rmax (Rabs (val l)) (Rabs (val r))) + tiny prec emax / 2.
Proof.
  intros Fl Fr Hlr Bl Br m. set (M := Rmax (Rabs (val l)) (Rabs (val r))).
  assert (M1 : Rabs (val l) <= M) by apply Rmax_l. assert (M2 : Rabs (val r) <= M) by apply Rmax_r.
  assert (BB : 2 * powerRZ 2 (emax - 2) = big emax). { unfold big. replace (emax - 1)%Z with (1 + (emax - 2))%Z by lia. rewrite powerRZ_add by lra. rewrite powerRZ_1. reflexivity. }
  assert (D2 : forall x, fmt x -> fmt (2 * x)). { intros x Fx. rewrite Rmult_comm. change 2 with (bpow radix2 1). apply (mult_bpow_pos_exact_FLT radix2 (emin prec emax) prec); [exact Fx|lia]. }
  destruct (fl_add_rnd l r Fl Fr) as (F1 & V1). { eapply Rle_trans; [apply Rabs_triang|]. lra. }
  destruct two_val as (F2 & V2).
  assert (L1 : 2 * val l <= val (SFadd prec emax l r)). { rewrite V1. apply round_ge_generic; [exact _|apply valid_rnd_N|apply D2; now apply fin_fmt|lra]. }
  assert (L2 : val (SFadd prec emax l r) <= 2 * val r). { rewrite V1. apply round_le_generic; [exact _|apply valid_rnd_N|apply D2; now apply fin_fmt|lra]. }
  set (z := SFadd prec emax l r) in *.
  assert (Bz : Rabs (val z / 2) <= M). { apply Rabs_le. apply Rabs_le_inv in M1. apply Rabs_le_inv in M2. lra. }
  destruct (fl_div_rnd z (@two FT) F1 F2) as (F3 & V3); [rewrite V2; lra| |].
  { rewrite V2. eapply Rle_trans; [exact Bz|]. pose proof (Rabs_pos (val l)). apply Rmax_lub; lra. }
  rewrite V2 in V3. change m with (SFdiv prec emax z (@two FT)). split; [exact F3|]. rewrite V3. split; [split|].
  - apply round_ge_generic; [exact _|apply valid_rnd_N|now apply fin_fmt|lra].
  - apply round_le_generic; [exact _|apply valid_rnd_N|now apply fin_fmt|lra].
  - pose proof (rnd_err2 (val z / 2)) as E1.
    assert (E2 : Rabs (val z - (val l + val r)) <= uro prec * Rabs (val l + val r)).
    { rewrite V1. destruct (FLT_plus_error_N_ex radix2 (emin prec emax) prec (fun z => negb (Z.even z)) (val l) (val r)) as (eps & Q1 & Q2); try (now apply fin_fmt).
      change (round radix2 (FLT_exp (emin prec emax) prec) (Znearest (fun z => negb (Z.even z))) (val l + val r)) with (rnd (val l + val r)) in Q2. rewrite Q2.
      replace ((val l + val r) * (1 + eps) - (val l + val r)) with (eps * (val l + val r)) by ring. rewrite Rabs_mult. apply Rmult_le_compat_r; [apply Rabs_pos|].
      assert (U : u_ro radix2 prec = uro prec). { unfold u_ro. rewrite (uro_bpow prec). change (/ 2) with (bpow radix2 (-1)). rewrite <- bpow_plus. f_equal. lia. }
      rewrite U in Q1. pose proof (uro_pos prec Hp) as (U0 & _). eapply Rle_trans; [exact Q1|]. unfold Rdiv. rewrite <- (Rmult_1_r (uro prec)) at 3.
      apply Rmult_le_compat_l; [lra|]. rewrite <- Rinv_1. apply Rinv_le_contravar; lra. }
    pose proof (uro_pos prec Hp) as (U0 & _).
    assert (E3 : uro prec * Rabs (val z / 2) <= uro prec * M) by (apply Rmult_le_compat_l; lra).
    assert (E4 : uro prec * Rabs (val l + val r) <= uro prec * (2 * M)). { apply Rmult_le_compat_l; [lra|]. eapply Rle_trans; [apply Rabs_triang|]. lra. }
    replace (rnd (val z / 2) - (val l + val r) / 2) with ((rnd (val z / 2) - val z / 2) + / 2 * (val z - (val l + val r))) by field.
    eapply Rle_trans; [apply Rabs_triang|]. rewrite Rabs_mult, (Rabs_pos_eq (/ 2)) by lra. lra.
Qed.

(** the program's tests *)
Lemma isclose_val y tol rtol : fin prec emax y -> fin prec emax tol -> fin prec emax rtol ->
  (@isclose FT y (@zero FT) tol rtol = true <-> Rabs (val y) <= val tol).
Proof.
  intros Fy Ft Fr. unfold isclose.
  assert (A : fin prec emax (@absT FT (@sub FT y (@zero FT))) /\ val (@absT FT (@sub FT y (@zero FT))) = Rabs (val y)).
  { destruct y as [s|s| |s mm ee]; pose proof Fy as (V & F); try contradiction.
    - destruct s; cbn; rewrite Rabs_R0; split; auto; split; auto.
    - cbn. split; [split; [exact V|exact I]|]. assert (0 < powerRZ 2 ee) by (apply powerRZ_lt; lra). assert (0 < IZR (Z.pos mm)) by (apply IZR_lt; lia).
      assert (0 < IZR (Z.pos mm) * powerRZ 2 ee) by (now apply Rmult_lt_0_compat). destruct s; [rewrite Rabs_left; lra|rewrite Rabs_right; lra]. }
  assert (B : fin prec emax (@add FT tol (@mul FT rtol (@absT FT (@zero FT)))) /\ val (@add FT tol (@mul FT rtol (@absT FT (@zero FT)))) = val tol).
  { change (@absT FT (@zero FT)) with (S754_zero false).
    assert (exists s, @mul FT rtol (S754_zero false) = S754_zero s) as (sz & ->).
    { destruct rtol as [s|s| |s mm ee]; pose proof Fr as (V & F); try contradiction; cbn; eexists; reflexivity. }
    destruct tol as [s|s| |s mm ee]; pose proof Ft as (V & F); try contradiction.
    - destruct s, sz; cbn; split; auto; split; auto.
    - cbn. split; auto; split; auto. }
  destruct A as (A1 & A2), B as (B1 & B2).
  set (u := @absT FT (@sub FT y (@zero FT))) in *. set (v := @add FT tol (@mul FT rtol (@absT FT (@zero FT)))) in *.
  change (@leb FT u v) with (SFleb u v).
  destruct (fin_B prec emax u A1) as (bu & Eu & U1 & U2). destruct (fin_B prec emax v B1) as (bv & Ev & W1 & W2).
  rewrite <- Eu, <- Ev. change (SFleb (B2SF bu) (B2SF bv)) with (Bleb bu bv). rewrite Bleb_correct by auto. rewrite U2, W2, A2, B2.
  destruct (Rle_bool_spec (Rabs (val y)) (val tol)); split; auto; try discriminate. lra.
Qed.
Lemma ltb_zero x : fin prec emax x -> (@ltb FT (@zero FT) x = true <-> 0 < val x) /\ (@ltb FT x (@zero FT) = true <-> val x < 0).
Proof.
  intros F. destruct zero_fin as (Z1 & Z2). change (@zero FT) with (S754_zero false).
  pose proof (fl_ltb prec emax _ _ Z1 F) as H1. pose proof (fl_ltb prec emax _ _ F Z1) as H2. rewrite Z2 in H1, H2. split; assumption.
Qed.
Lemma eqb_zero x : fin prec emax x -> (@eqb FT x (@zero FT) = true <-> val x = 0).
Proof.
  intros (_ & F). destruct x as [s|s| |s mm ee]; try contradiction; cbn; [now split|].
  assert (0 < powerRZ 2 ee) by (apply powerRZ_lt; lra). assert (0 < IZR (Z.pos mm)) by (apply IZR_lt; lia).
  assert (0 < IZR (Z.pos mm) * powerRZ 2 ee) by (now apply Rmult_lt_0_compat).
  destruct s; split; try discriminate; intros; exfalso; lra.
Qed.

Lemma same_sign_val x y : fin prec emax x -> fin prec emax y -> val y <> 0 -> (@same_sign FT x y = true <-> 0 < val x * val y).
Proof.
  intros Fx Fy Ny. unfold same_sign. destruct (ltb_zero x Fx) as (A1 & A2). destruct (ltb_zero y Fy) as (B1 & B2).
  pose proof (eqb_zero y Fy) as C2. assert (C3 : @eqb FT y (@zero FT) = false) by (destruct (@eqb FT y (@zero FT)); auto; exfalso; apply Ny, C2; reflexivity).
  rewrite C3, andb_false_r, orb_false_r.
  destruct (Rtotal_order (val x) 0) as [X|[X|X]], (Rtotal_order (val y) 0) as [Y|[Y|Y]]; try contradiction.
  - rewrite (proj2 A2 X), (proj2 B2 Y), orb_true_r. split; auto. intros _. replace (val x * val y) with (- val x * - val y) by ring. apply Rmult_lt_0_compat; lra.
  - assert (E1 : @ltb FT (@zero FT) x = false) by (destruct (@ltb FT (@zero FT) x); auto; pose proof (proj1 A1 eq_refl); lra).
    assert (E2 : @ltb FT y (@zero FT) = false) by (destruct (@ltb FT y (@zero FT)); auto; pose proof (proj1 B2 eq_refl); lra).
    rewrite E1, E2, andb_false_r. cbn. split; [discriminate|]. intros H. assert (0 <= - val x * val y) by (apply Rmult_le_pos; lra). lra.
  - assert (E1 : @ltb FT (@zero FT) x = false) by (destruct (@ltb FT (@zero FT) x); auto; pose proof (proj1 A1 eq_refl); lra).
    assert (E2 : @ltb FT x (@zero FT) = false) by (destruct (@ltb FT x (@zero FT)); auto; pose proof (proj1 A2 eq_refl); lra).
    rewrite E1, E2. cbn. split; [discriminate|]. rewrite X, Rmult_0_l. lra.
  - assert (E1 : @ltb FT (@zero FT) x = false) by (destruct (@ltb FT (@zero FT) x); auto; pose proof (proj1 A1 eq_refl); lra).
    assert (E2 : @ltb FT x (@zero FT) = false) by (destruct (@ltb FT x (@zero FT)); auto; pose proof (proj1 A2 eq_refl); lra).
    rewrite E1, E2. cbn. split; [discriminate|]. rewrite X, Rmult_0_l. lra.
  - assert (E1 : @ltb FT (@zero FT) y = false) by (destruct (@ltb FT (@zero FT) y); auto; pose proof (proj1 B1 eq_refl); lra).
    assert (E2 : @ltb FT x (@zero FT) = false) by (destruct (@ltb FT x (@zero FT)); auto; pose proof (proj1 A2 eq_refl); lra).
    rewrite E1, E2, andb_false_r. cbn. split; [discriminate|]. intros H. assert (0 <= val x * - val y) by (apply Rmult_le_pos; lra). lra.
  - rewrite (proj2 A1 X), (proj2 B1 Y). split; auto. intros _. apply Rmult_lt_0_compat; lra.
Qed.

Section Loop.
Context {St : Type}.
Variables (Inv : St -> Prop) (fn : @T FT -> M St (@T FT)) (g : spec_float -> spec_float) (l r tol rtol : spec_float).
Hypothesis Fl : fin prec emax l.
Hypothesis Fr : fin prec emax r.
Hypothesis Bl : Rabs (val l) <= powerRZ 2 (emax - 2).
Hypothesis Br : Rabs (val r) <= powerRZ 2 (emax - 2).
Hypothesis Ft : fin prec emax tol.
Hypothesis Ht0 : 0 <= val tol.
Hypothesis Fr' : fin prec emax rtol.
Hypothesis Hev : evaluatesF prec emax pw Inv fn g l r.
Let M := Rmax (Rabs (val l)) (Rabs (val r)).
Let d := 2 * (uro prec * M) + tiny prec emax / 2.

Lemma loop_F n : forall a b mid s, fin prec emax a -> fin prec emax b -> val l <= val a -> val a <= val b -> val b <= val r ->
  val (g a) * val (g b) < 0 -> fin prec emax (g a) -> (n <> 0%nat \/ exists c, mid = Some c /\ (c = a \/ c = b)) -> Inv s ->
  exists m s', @bisect_loop FT St fn tol rtol n a b (g a) mid s = (Ret m, s') /\ Inv s' /\ fin prec emax m /\ val l <= val m <= val r /\
    (Rabs (val (g m)) <= val tol \/
     exists a' b', fin prec emax a' /\ fin prec emax b' /\ val l <= val a' /\ val a' <= val m <= val b' /\ val b' <= val r /\
       val b' - val a' - 2 * d <= (val b - val a - 2 * d) / 2 ^ n /\ val (g a') * val (g b') < 0).
Proof.
  induction n as [|n IH]; intros a b mid s Fa Fb La Lab Lb Hs Fga Hm Is.
  - destruct Hm as [Hm|(c & -> & Hc)]; [congruence|]. exists c, s. cbn [bisect_loop]. split; [reflexivity|]. split; auto.
    assert (Fc : fin prec emax c) by (destruct Hc; subst; auto). split; auto.
    assert (Vc : val a <= val c <= val b) by (destruct Hc; subst; lra). split; [lra|]. right. exists a, b.
    repeat (split; [first [assumption|lra]|]). exact Hs.
  - cbn [bisect_loop]. assert (U := uro_pos prec Hp). assert (T0 : 0 < tiny prec emax) by (apply powerRZ_lt; lra).
    assert (ML : Rabs (val l) <= M) by apply Rmax_l. assert (MR : Rabs (val r) <= M) by apply Rmax_r.
    assert (Ma : Rabs (val a) <= M). { apply Rabs_le. apply Rabs_le_inv in ML. apply Rabs_le_inv in MR. lra. }
    assert (Mb : Rabs (val b) <= M). { apply Rabs_le. apply Rabs_le_inv in ML. apply Rabs_le_inv in MR. lra. }
    assert (MB : M <= powerRZ 2 (emax - 2)) by (apply Rmax_lub; assumption).
    destruct (midpoint a b Fa Fb Lab ltac:(lra) ltac:(lra)) as (Fm & Vm & Em). set (mm := @div FT (@add FT a b) (@two FT)) in *.
    assert (Em' : Rabs (val mm - (val a + val b) / 2) <= d).
    { eapply Rle_trans; [exact Em|]. unfold d. apply Rplus_le_compat_r. apply Rmult_le_compat_l; [lra|]. apply Rmult_le_compat_l; [lra|]. now apply Rmax_lub. }
    apply Rabs_le_inv in Em'. destruct (Hev mm s Fm ltac:(lra) Is) as (s1 & E1 & I1 & Fgm).
    unfold bind. rewrite E1. pose proof (isclose_val (g mm) tol rtol Fgm Ft Fr') as Hc.
    destruct (@isclose FT (g mm) (@zero FT) tol rtol) eqn:ec.
    + exists mm, s1. split; [reflexivity|]. split; auto. split; auto. split; [lra|]. left. now apply Hc.
    + assert (Nga : val (g a) <> 0) by (intros Q; rewrite Q in Hs; lra).
      pose proof (same_sign_val (g mm) (g a) Fgm Fga Nga) as Hsg.
      assert (P2 : 0 < 2 ^ n) by (apply pow_lt; lra).
      assert (Half : forall w, w <= (val b - val a - 2 * d) / 2 -> w / 2 ^ n <= (val b - val a - 2 * d) / 2 ^ S n).
      { intros w Hw. cbn [pow]. unfold Rdiv. rewrite Rinv_mult, <- Rmult_assoc. apply Rmult_le_compat_r; [left; now apply Rinv_0_lt_compat|exact Hw]. }
      destruct (@same_sign FT (g mm) (g a)) eqn:es.
      * assert (Hs' : val (g mm) * val (g b) < 0).
        { pose proof (proj1 Hsg eq_refl) as Q. destruct (Rtotal_order (val (g a)) 0) as [X|[X|X]]; try contradiction.
          - assert (val (g mm) < 0). { destruct (Rlt_or_le (val (g mm)) 0) as [|Y]; auto. exfalso. assert (0 <= val (g mm) * - val (g a)) by (apply Rmult_le_pos; lra). lra. }
            assert (0 < val (g b)). { destruct (Rlt_or_le 0 (val (g b))) as [|Y]; auto. exfalso. assert (0 <= - val (g a) * - val (g b)) by (apply Rmult_le_pos; lra). lra. }
            assert (0 < - val (g mm) * val (g b)) by (apply Rmult_lt_0_compat; lra). lra.
          - assert (0 < val (g mm)). { destruct (Rlt_or_le 0 (val (g mm))) as [|Y]; auto. exfalso. assert (0 <= - val (g mm) * val (g a)) by (apply Rmult_le_pos; lra). lra. }
            assert (val (g b) < 0). { destruct (Rlt_or_le (val (g b)) 0) as [|Y]; auto. exfalso. assert (0 <= val (g a) * val (g b)) by (apply Rmult_le_pos; lra). lra. }
            assert (0 < val (g mm) * - val (g b)) by (apply Rmult_lt_0_compat; lra). lra. }
        destruct (IH mm b (Some mm) s1 Fm Fb ltac:(lra) ltac:(lra) Lb Hs' Fgm (or_intror (ex_intro _ mm (conj eq_refl (or_introl eq_refl)))) I1) as (m & s2 & R1 & R2 & R3 & R4 & R5).
        exists m, s2. split; [exact R1|]. split; auto. split; auto. split; auto. destruct R5 as [R5|(a' & b' & Q1 & Q2 & Q3 & Q4 & Q5 & Q6 & Q7)]; [now left|right].
        exists a', b'. repeat (split; [assumption|]). split; [|exact Q7]. eapply Rle_trans; [exact Q6|]. apply Half. lra.
      * assert (Ng : Rabs (val (g mm)) > val tol). { destruct (Rle_or_lt (Rabs (val (g mm))) (val tol)) as [Q|Q]; auto. apply Hc in Q. discriminate. }
        destruct (Req_dec (val (g mm)) 0) as [Z|Z].
        { exfalso. rewrite Z, Rabs_R0 in Ng. lra. }
        assert (Hs' : val (g a) * val (g mm) < 0).
        { assert (N : ~ 0 < val (g mm) * val (g a)) by (intros Q; apply Hsg in Q; discriminate).
          assert (val (g mm) * val (g a) <> 0) by (apply Rmult_integral_contrapositive_currified; assumption). lra. }
        destruct (IH a mm (Some mm) s1 Fa Fm ltac:(lra) ltac:(lra) ltac:(lra) Hs' Fga (or_intror (ex_intro _ mm (conj eq_refl (or_intror eq_refl)))) I1) as (m & s2 & R1 & R2 & R3 & R4 & R5).
        exists m, s2. split; [exact R1|]. split; auto. split; auto. split; auto. destruct R5 as [R5|(a' & b' & Q1 & Q2 & Q3 & Q4 & Q5 & Q6 & Q7)]; [now left|right].
        exists a', b'. repeat (split; [assumption|]). split; [|exact Q7]. eapply Rle_trans; [exact Q6|]. apply Half. lra.
Qed.

Lemma C63_float_lemma n s : n <> 0%nat -> Inv s -> val l < val r ->
  (val (g l) * val (g r) <= - tiny prec emax \/ val (g l) = 0 \/ val (g r) = 0 ->
    exists m s', @bisect FT St fn l r tol rtol n s = (Ret m, s') /\ Inv s' /\ bis_resultF prec emax g (val tol) n l r m) /\
  (0 < val (g l) * val (g r) -> exists s', @bisect FT St fn l r tol rtol n s = (Raise ValueError, s') /\ Inv s').
Proof.
  intros Hn Is Hlr. unfold bisect. assert (E0 : @ltb FT l r = true) by (apply (fl_ltb prec emax); auto). rewrite E0. cbn [negb].
  destruct (Hev l s Fl ltac:(lra) Is) as (s1 & E1 & I1 & F1). destruct (Hev r s1 Fr ltac:(lra) I1) as (s2 & E2 & I2 & F2).
  unfold bind. rewrite E1. pose proof (eqb_zero (g l) F1) as Z1. pose proof (eqb_zero (g r) F2) as Z2.
  destruct (mul_neg (g l) (g r) F1 F2) as (M1 & M2).
  assert (T0 : 0 < tiny prec emax) by (apply powerRZ_lt; lra).
  destruct (@eqb FT (g l) (@zero FT)) eqn:e1.
  { pose proof (proj1 Z1 eq_refl) as Q. split; [|rewrite Q; lra]. intros _. exists l, s1. split; [reflexivity|]. split; auto. split; auto. split; [lra|]. left. rewrite Q, Rabs_R0. lra. }
  assert (N1 : val (g l) <> 0) by (intros Q; apply Z1 in Q; discriminate).
  rewrite E2. destruct (@eqb FT (g r) (@zero FT)) eqn:e2.
  { pose proof (proj1 Z2 eq_refl) as Q. split; [|rewrite Q; lra]. intros _. exists r, s2. split; [reflexivity|]. split; auto. split; auto. split; [lra|]. left. rewrite Q, Rabs_R0. lra. }
  assert (N2 : val (g r) <> 0) by (intros Q; apply Z2 in Q; discriminate).
  change (@ltb FT (@mul FT (g l) (g r)) (@zero FT)) with (SFltb (SFmul prec emax (g l) (g r)) (S754_zero false)).
  split.
  - intros [H|[H|H]]; try contradiction. rewrite (M1 H). cbn [negb].
    destruct (loop_F n l r None s2 Fl Fr ltac:(lra) ltac:(lra) ltac:(lra) ltac:(lra) F1 (or_introl Hn) I2) as (m & s3 & R1 & R2 & R3 & R4 & R5).
    exists m, s3. split; [exact R1|]. split; auto. split; auto. split; auto. destruct R5 as [R5|(a' & b' & Q1 & Q2 & Q3 & Q4 & Q5 & Q6 & Q7)]; [now left|right].
    exists a', b'. repeat (split; [assumption|]). split; [|exact Q7]. fold M.
    assert (D0 : 0 <= d). { unfold d. pose proof (uro_pos prec Hp). assert (0 <= M) by (eapply Rle_trans; [apply Rabs_pos|apply (Rmax_l (Rabs (val l)) (Rabs (val r)))]).
      assert (0 <= uro prec * M) by (apply Rmult_le_pos; lra). lra. }
    assert (P2 : 0 < / 2 ^ n) by (apply Rinv_0_lt_compat, pow_lt; lra).
    assert (Q8 : (val r - val l - 2 * d) / 2 ^ n <= (val r - val l) / 2 ^ n) by (apply Rmult_le_compat_r; lra). unfold d in *. lra.
  - intros H. rewrite (M2 H). cbn [negb]. exists s2. split; auto.
Qed.
End Loop.
End Fl.
