(** Rounding errors of the operations, from Flocq. *)
From Coq Require Import List ZArith QArith Bool Arith Lia Reals Lra SpecFloat.
From Flocq Require Import Core Relative BinarySingleNaN.
From Verif Require Import Base Scalar SpecFl.
Import ListNotations.
Open Scope R_scope.

Section Fl.
Variables prec emax : Z.
Hypothesis Hp : (1 < prec)%Z.
Hypothesis He : (prec < emax)%Z.
Local Instance Hprec : Prec_gt_0 prec. Proof. unfold Prec_gt_0. lia. Qed.
Local Instance Hmax : Prec_lt_emax prec emax. Proof. exact He. Qed.
Notation fexp := (SpecFloat.fexp prec emax).
Notation rnd := (round radix2 fexp ZnearestE).

Lemma val_SF2R x : val x = SF2R radix2 x.
Proof.
  destruct x as [| | |s m e]; try reflexivity. unfold val, SF2R, F2R. cbn [Fnum Fexp]. rewrite bpow_powerRZ. f_equal. destruct s; reflexivity.
Qed.
Lemma fin_B x : fin prec emax x -> exists b : binary_float prec emax, B2SF b = x /\ is_finite b = true /\ B2R b = val x.
Proof.
  intros (V & F). exists (SF2B x V). split; [apply B2SF_SF2B|]. split.
  - rewrite is_finite_SF2B. destruct x; cbn; try contradiction; reflexivity.
  - rewrite B2R_SF2B. symmetry. apply val_SF2R.
Qed.
Lemma B_fin (b : binary_float prec emax) : is_finite b = true -> fin prec emax (B2SF b) /\ val (B2SF b) = B2R b.
Proof.
  intros F. split; [|rewrite val_SF2R; apply SF2R_B2SF]. split; [apply valid_binary_B2SF|]. destruct b; cbn; try discriminate; auto.
Qed.

Lemma rne_equiv s m l : round_nearest_even m l = choice_mode mode_NE s m l.
Proof. destruct l as [|[]]; try reflexivity. cbn. unfold Round.cond_incr. now destruct (Z.even m). Qed.
Lemma bra_equiv sx mx ex lx : SpecFloat.binary_round_aux prec emax sx mx ex lx = BinarySingleNaN.binary_round_aux prec emax mode_NE sx mx ex lx.
Proof.
  unfold SpecFloat.binary_round_aux, BinarySingleNaN.binary_round_aux. set (q := shr_fexp _ _ _ _ _). destruct q as [a b]. cbn.
  now rewrite (rne_equiv sx).
Qed.
Lemma br_equiv s m e : SpecFloat.binary_round prec emax s m e = BinarySingleNaN.binary_round prec emax mode_NE s m e.
Proof. unfold SpecFloat.binary_round, BinarySingleNaN.binary_round, shl_align_fexp. destruct (shl_align _ _ _). apply bra_equiv. Qed.
Lemma bn_equiv m e s : SpecFloat.binary_normalize prec emax m e s = B2SF (BinarySingleNaN.binary_normalize prec emax Hprec Hmax mode_NE m e s).
Proof. destruct m; cbn; [reflexivity| |]; rewrite B2SF_SF2B; apply br_equiv. Qed.
Lemma add_equiv (x y : binary_float prec emax) : SFadd prec emax (B2SF x) (B2SF y) = B2SF (Bplus mode_NE x y).
Proof.
  destruct x as [sx|sx| |sx mx ex Bx]; destruct y as [sy|sy| |sy my ey By]; [now (trivial || (cbn; destruct (Bool.eqb _ _)))..|].
  apply bn_equiv.
Qed.
Lemma mul_equiv (x y : binary_float prec emax) : SFmul prec emax (B2SF x) (B2SF y) = B2SF (Bmult mode_NE x y).
Proof.
  destruct x as [sx|sx| |sx mx ex Bx]; destruct y as [sy|sy| |sy my ey By]; [now trivial..|].
  cbn. rewrite B2SF_SF2B. apply bra_equiv.
Qed.

Lemma uro_bpow : uro prec = bpow radix2 (- prec).
Proof. unfold uro. now rewrite bpow_powerRZ. Qed.
Lemma uro_pos : 0 < uro prec <= / 4.
Proof.
  rewrite uro_bpow. split; [apply bpow_gt_0|]. change (/ 4) with (bpow radix2 (-2)). apply bpow_le. lia.
Qed.
Lemma rnd_err x : Rabs (rnd x - x) <= uro prec * (1 + Rabs x).
Proof.
  destruct (error_N_FLT radix2 (emin prec emax) prec Hprec (fun z => negb (Z.even z)) x) as (eps & eta & H1 & H2 & _ & H3).
  change (round radix2 (FLT_exp (emin prec emax) prec) (Znearest (fun z => negb (Z.even z))) x) with (rnd x) in H3.
  rewrite H3. replace (x * (1 + eps) + eta - x) with (x * eps + eta) by ring.
  eapply Rle_trans; [apply Rabs_triang|]. rewrite Rabs_mult.
  assert (U : / 2 * bpow radix2 (- prec + 1) = uro prec).
  { rewrite uro_bpow, bpow_plus. change (bpow radix2 1) with 2. field. }
  assert (V : / 2 * bpow radix2 (emin prec emax) <= uro prec).
  { rewrite uro_bpow. change (/ 2) with (bpow radix2 (-1)). rewrite <- bpow_plus. apply bpow_le. unfold emin. lia. }
  assert (Rabs x * Rabs eps <= Rabs x * uro prec) by (apply Rmult_le_compat_l; [apply Rabs_pos|lra]). lra.
Qed.
(** half the largest power of two *)
Definition big : R := powerRZ 2 (emax - 1).
Lemma big_bpow : big = bpow radix2 (emax - 1).
Proof. unfold big. now rewrite bpow_powerRZ. Qed.
Lemma rnd_small x : Rabs x <= big -> Rabs (rnd x) < bpow radix2 emax.
Proof.
  intros H. apply Rle_lt_trans with (bpow radix2 (emax - 1)); [|apply bpow_lt; lia].
  apply abs_round_le_generic; [apply (fexp_correct prec emax Hprec)|apply valid_rnd_N| |now rewrite <- big_bpow].
  apply generic_format_bpow. unfold SpecFloat.fexp, emin. lia.
Qed.

Lemma fl_add x y : fin prec emax x -> fin prec emax y -> Rabs (val x + val y) <= big ->
  fin prec emax (SFadd prec emax x y) /\ Rabs (val (SFadd prec emax x y) - (val x + val y)) <= uro prec * (1 + Rabs (val x + val y)).
Proof.
  intros Fx Fy Hb. destruct (fin_B x Fx) as (bx & <- & F1 & V1). destruct (fin_B y Fy) as (b2 & <- & F2 & V2). rewrite add_equiv.
  rewrite <- V1, <- V2 in *. pose proof (Bplus_correct prec emax Hprec Hmax mode_NE bx b2 F1 F2) as H. cbn [round_mode] in H.
  rewrite Rlt_bool_true in H by now apply rnd_small. destruct H as (H1 & H2 & _).
  destruct (B_fin _ H2) as (G1 & G2). split; [exact G1|]. rewrite G2, H1. apply rnd_err.
Qed.
Lemma fl_mul x y : fin prec emax x -> fin prec emax y -> Rabs (val x * val y) <= big ->
  fin prec emax (SFmul prec emax x y) /\ Rabs (val (SFmul prec emax x y) - (val x * val y)) <= uro prec * (1 + Rabs (val x * val y)).
Proof.
  intros Fx Fy Hb. destruct (fin_B x Fx) as (bx & <- & F1 & V1). destruct (fin_B y Fy) as (b2 & <- & F2 & V2). rewrite mul_equiv.
  rewrite <- V1, <- V2 in *. pose proof (Bmult_correct prec emax Hprec Hmax mode_NE bx b2) as H. cbn [round_mode] in H.
  rewrite Rlt_bool_true in H by now apply rnd_small. destruct H as (H1 & H2 & _). rewrite F1, F2 in H2.
  destruct (B_fin _ H2) as (G1 & G2). split; [exact G1|]. rewrite G2, H1. apply rnd_err.
Qed.
(** adding a positive number never goes back; past the range it gives an infinity *)
Lemma fl_add_mono x y : fin prec emax x -> fin prec emax y -> 0 <= val y ->
  fin prec emax (SFadd prec emax x y) -> val x <= val (SFadd prec emax x y).
Proof.
  intros Fx Fy Hy Fz. destruct (fin_B x Fx) as (bx & <- & F1 & V1). destruct (fin_B y Fy) as (b2 & <- & F2 & V2). rewrite add_equiv in *.
  rewrite <- V1, <- V2 in *. pose proof (Bplus_correct prec emax Hprec Hmax mode_NE bx b2 F1 F2) as H. cbn [round_mode] in H.
  destruct (Rlt_bool _ _).
  - destruct H as (H1 & H2 & _). destruct (B_fin _ H2) as (_ & G2). rewrite G2, H1.
    apply round_ge_generic; [apply (fexp_correct prec emax Hprec)|apply valid_rnd_N|apply generic_format_B2R|lra].
  - destruct H as (H & _). rewrite H in Fz. destruct Fz as (_ & Fz). now destruct (Bsign bx).
Qed.
Lemma add_nonfin x y : fin prec emax y -> ~ fin prec emax x -> valid_binary prec emax x = true -> ~ fin prec emax (SFadd prec emax x y).
Proof.
  intros (_ & Fy) Fx V (_ & F). apply Fx. split; auto. destruct x as [| []| |], y as [| []| |]; cbn in *; auto.
Qed.
Lemma add_valid x y : valid_binary prec emax x = true -> valid_binary prec emax y = true -> valid_binary prec emax (SFadd prec emax x y) = true.
Proof.
  intros V W. rewrite <- (B2SF_SF2B prec emax x V), <- (B2SF_SF2B prec emax y W), add_equiv. apply valid_binary_B2SF.
Qed.
Lemma fl_lit q : Rabs (@lit Rops q) <= big ->
  fin prec emax (sf_of_Q_at prec emax q) /\ Rabs (val (sf_of_Q_at prec emax q) - @lit Rops q) <= uro prec * (1 + Rabs (@lit Rops q)).
Proof.
  intros Hb. unfold sf_of_Q_at. destruct q as [nu de]. cbn [Qnum Qden] in *. destruct nu as [|p|p].
  - split; [split; [reflexivity|exact I]|]. cbn. unfold Rdiv. rewrite Rmult_0_l, Rminus_0_r, Rabs_R0. pose proof uro_pos. lra.
  - pose proof (Bdiv_correct_aux prec emax Hprec Hmax mode_NE false p 0 false de 0) as H. cbv zeta in H.
    destruct (SFdiv_core_binary prec emax (Zpos p) 0 (Zpos de) 0) as [[m e] l]. cbn [xorb] in H. rewrite <- bra_equiv in H.
    assert (Eq : F2R (Float radix2 (cond_Zopp false (Zpos p)) 0) / F2R (Float radix2 (cond_Zopp false (Zpos de)) 0) = @lit Rops (Zpos p # de)).
    { unfold F2R. cbn. unfold Rdiv. now rewrite !Rmult_1_r. }
    rewrite Eq in H. destruct H as (V & H). cbn [round_mode] in H. rewrite Rlt_bool_true in H by now apply rnd_small. destruct H as (H1 & H2 & _).
    split; [|rewrite val_SF2R, H1; apply rnd_err]. split; [exact V|]. clear - H2. destruct (SpecFloat.binary_round_aux _ _ _ _ _ _); cbn in *; try discriminate; auto.
  - pose proof (Bdiv_correct_aux prec emax Hprec Hmax mode_NE true p 0 false de 0) as H. cbv zeta in H.
    destruct (SFdiv_core_binary prec emax (Zpos p) 0 (Zpos de) 0) as [[m e] l]. cbn [xorb] in H. rewrite <- bra_equiv in H.
    assert (Eq : F2R (Float radix2 (cond_Zopp true (Zpos p)) 0) / F2R (Float radix2 (cond_Zopp false (Zpos de)) 0) = @lit Rops (Zneg p # de)).
    { unfold F2R. cbn. unfold Rdiv. now rewrite !Rmult_1_r. }
    rewrite Eq in H. destruct H as (V & H). cbn [round_mode] in H. rewrite Rlt_bool_true in H by now apply rnd_small. destruct H as (H1 & H2 & _).
    split; [|rewrite val_SF2R, H1; apply rnd_err]. split; [exact V|]. clear - H2. destruct (SpecFloat.binary_round_aux _ _ _ _ _ _); cbn in *; try discriminate; auto.
Qed.
End Fl.
