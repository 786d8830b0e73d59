(** Progress of the time in floating point. *)
From Coq Require Import List ZArith QArith Bool Arith Lia Reals Lra SpecFloat.
From Flocq Require Import Core Relative Plus_error BinarySingleNaN.
From Verif Require Import Base Scalar Vec MBuffer MZeros MSteps MApi MClasses Laws Spec SpecInst PStep PKeeps PCore PHist PBound PFwd PTerm PTop1 SpecFl PFl1.
Import ListNotations.
Open Scope R_scope.

Section Fl.
Variables prec emax : Z.
Hypothesis Hp : (1 < prec)%Z.
Hypothesis He : (prec < emax)%Z.
Local Instance Hprec' : Prec_gt_0 prec. Proof. unfold Prec_gt_0. lia. Qed.
Local Instance Hmax' : Prec_lt_emax prec emax. Proof. exact He. Qed.
Notation fexp := (SpecFloat.fexp prec emax).
Notation rnd := (round radix2 fexp ZnearestE).

Lemma fl_ltb x y : fin prec emax x -> fin prec emax y -> (SFltb x y = true <-> val x < val y).
Proof.
  intros Fx Fy. destruct (fin_B prec emax x Fx) as (bx & <- & F1 & V1). destruct (fin_B prec emax y Fy) as (b2 & <- & F2 & V2).
  change (SFltb (B2SF bx) (B2SF b2)) with (Bltb bx b2). rewrite (Bltb_correct _ _ bx b2 F1 F2), <- V1, <- V2.
  destruct (Rlt_bool_spec (B2R bx) (B2R b2)); split; auto; try discriminate. lra.
Qed.
Lemma fl_ltb_false x y : fin prec emax x -> fin prec emax y -> (SFltb x y = false <-> val y <= val x).
Proof.
  intros Fx Fy. pose proof (fl_ltb x y Fx Fy) as (H1 & H2). destruct (SFltb x y); split; intros H; auto; try discriminate.
  - specialize (H1 eq_refl). lra.
  - destruct (Rle_or_lt (val y) (val x)) as [G|G]; auto. discriminate (H2 G).
Qed.

(** a sum: finite with a relative error, or an overflow *)
Lemma fl_sum x y : fin prec emax x -> fin prec emax y -> 0 < val y ->
  (fin prec emax (SFadd prec emax x y) /\
    Rabs (val (SFadd prec emax x y) - (val x + val y)) <= uro prec * Rabs (val x + val y) /\
    forall z, fin prec emax z -> val z <= val x + val y -> val z <= val (SFadd prec emax x y)) \/
  (forall z, fin prec emax z -> SFltb z (SFadd prec emax x y) = true).
Proof.
  intros Fx Fy Hy. destruct (fin_B prec emax x Fx) as (bx & <- & F1 & V1). destruct (fin_B prec emax y Fy) as (b2 & <- & F2 & V2).
  rewrite (add_equiv prec emax Hp He). rewrite <- V1, <- V2 in *.
  pose proof (Bplus_correct prec emax (Hprec prec Hp) (Hmax prec emax He) mode_NE bx b2 F1 F2) as H. cbn [round_mode] in H.
  destruct (Rlt_bool _ _).
  - left. destruct H as (H1 & H2 & _). destruct (B_fin prec emax _ H2) as (G1 & G2). split; [exact G1|]. rewrite G2, H1. split.
    + destruct (FLT_plus_error_N_ex radix2 (emin prec emax) prec (fun z => negb (Z.even z)) (B2R bx) (B2R b2)) as (eps & E1 & E2); try apply (generic_format_B2R prec emax).
      change (round radix2 (FLT_exp (emin prec emax) prec) (Znearest (fun z => negb (Z.even z))) (B2R bx + B2R b2)) with (rnd (B2R bx + B2R b2)) in E2. rewrite E2.
      replace ((B2R bx + B2R b2) * (1 + eps) - (B2R bx + B2R b2)) with (eps * (B2R bx + B2R b2)) by ring. rewrite Rabs_mult.
      apply Rmult_le_compat_r; [apply Rabs_pos|].
      assert (U : u_ro radix2 prec = uro prec). { unfold u_ro. rewrite (uro_bpow prec). change (/ 2) with (bpow radix2 (-1)). rewrite <- bpow_plus. f_equal. lia. }
      rewrite U in E1. pose proof (uro_pos prec Hp) as (U0 & _). eapply Rle_trans; [exact E1|]. unfold Rdiv. rewrite <- (Rmult_1_r (uro prec)) at 3.
      apply Rmult_le_compat_l; [lra|]. rewrite <- Rinv_1. apply Rinv_le_contravar; lra.
    + intros z Fz Hz. destruct (fin_B prec emax z Fz) as (bz & <- & F3 & V3). rewrite <- V3 in *.
      apply round_ge_generic; [apply (fexp_correct prec emax Hprec')|apply valid_rnd_N|apply generic_format_B2R|exact Hz].
  - right. destruct H as (H1 & H2). rewrite H1, H2. intros z Fz.
    assert (S : Bsign b2 = false).
    { destruct b2 as [s|s| |s mm ee Hb]; cbn in *; try discriminate; try lra. destruct s; auto. exfalso.
      revert Hy. unfold F2R. cbn. pose proof (bpow_gt_0 radix2 ee) as Q. pose proof (IZR_lt 0 (Zpos mm) ltac:(lia)) as Q2.
      change (Z.neg mm) with (- Z.pos mm)%Z. rewrite opp_IZR. assert (0 < IZR (Z.pos mm) * bpow radix2 ee) by (now apply Rmult_lt_0_compat). lra. }
    rewrite S. destruct z as [sz|sz| |sz mz ez]; destruct Fz as (_ & Fz); try contradiction; reflexivity.
Qed.

(** the error relative to the result *)
Lemma fl_sum_back x y : fin prec emax x -> fin prec emax y -> fin prec emax (SFadd prec emax x y) ->
  Rabs (val (SFadd prec emax x y) - (val x + val y)) <= uro prec * Rabs (val (SFadd prec emax x y)).
Proof.
  intros Fx Fy Fz. destruct (fin_B prec emax x Fx) as (bx & <- & F1 & V1). destruct (fin_B prec emax y Fy) as (b2 & <- & F2 & V2).
  rewrite (add_equiv prec emax Hp He) in *. rewrite <- V1, <- V2 in *.
  pose proof (Bplus_correct prec emax (Hprec prec Hp) (Hmax prec emax He) mode_NE bx b2 F1 F2) as H. cbn [round_mode] in H.
  destruct (Rlt_bool _ _).
  - destruct H as (H1 & H2 & _). destruct (B_fin prec emax _ H2) as (_ & G2). rewrite G2, H1.
    destruct (FLT_plus_error_N_ex radix2 (emin prec emax) prec (fun z => negb (Z.even z)) (B2R bx) (B2R b2)) as (eps & E1 & E2); try apply (generic_format_B2R prec emax).
    change (round radix2 (FLT_exp (emin prec emax) prec) (Znearest (fun z => negb (Z.even z))) (B2R bx + B2R b2)) with (rnd (B2R bx + B2R b2)) in E2. rewrite E2.
    set (w := B2R bx + B2R b2) in *. replace (w * (1 + eps) - w) with (w * eps) by ring. rewrite !Rabs_mult.
    assert (U : u_ro radix2 prec = uro prec). { unfold u_ro. rewrite (uro_bpow prec). change (/ 2) with (bpow radix2 (-1)). rewrite <- bpow_plus. f_equal. lia. }
    rewrite U in E1. pose proof (uro_pos prec Hp) as U0. set (u := uro prec) in *.
    rewrite <- Rmult_assoc, (Rmult_comm u), Rmult_assoc. apply Rmult_le_compat_l; [apply Rabs_pos|].
    assert (B : u / (1 + u) = 1 - / (1 + u)) by (field; lra). assert (B2 : 0 < / (1 + u)) by (apply Rinv_0_lt_compat; lra).
    assert (B3 : 1 - u / (1 + u) <= Rabs (1 + eps)). { pose proof (Rabs_le_inv _ _ E1). rewrite Rabs_pos_eq; lra. }
    eapply Rle_trans; [exact E1|]. apply Rle_trans with (u * (1 - u / (1 + u))); [right; field; lra|]. apply Rmult_le_compat_l; lra.
  - destruct H as (H1 & _). exfalso. destruct Fz as (_ & Fz). rewrite H1 in Fz. destruct (Bsign bx); exact Fz.
Qed.

(** one addition of the step length: refused at x, or a jump of at least h/2, or x is reached *)
Lemma progress t h x : fin prec emax t -> fin prec emax h -> fin prec emax x -> 0 < val h -> val t <= val x ->
  2 * uro prec * Rmax (Rabs (val t)) (Rabs (val x)) <= val h ->
  SFltb x (SFadd prec emax t h) = true \/
  (fin prec emax (SFadd prec emax t h) /\ val (SFadd prec emax t h) <= val x /\ val t < val x /\
   (val t + val h / 2 <= val (SFadd prec emax t h) \/ val (SFadd prec emax t h) = val x)).
Proof.
  intros Ft Fh Fx Hh Htx HM. pose proof (uro_pos prec Hp) as U. set (M := Rmax (Rabs (val t)) (Rabs (val x))) in *.
  assert (M1 : Rabs (val t) <= M) by apply Rmax_l. assert (M2 : Rabs (val x) <= M) by apply Rmax_r.
  destruct (fl_sum t h Ft Fh Hh) as [(F1 & E1 & G1)|O]; [|left; now apply O].
  set (t' := SFadd prec emax t h) in *.
  destruct (SFltb x t') eqn:e; [now left|right]. apply (fl_ltb_false x t' Fx F1) in e. split; auto. split; auto.
  assert (A : val t + val h <= val x -> val t + val h / 2 <= val t').
  { intros H. assert (B : Rabs (val t + val h) <= M).
    { apply Rabs_le. apply Rabs_le_inv in M1. apply Rabs_le_inv in M2. lra. }
    assert (uro prec * Rabs (val t + val h) <= uro prec * M) by (apply Rmult_le_compat_l; lra). apply Rabs_le_inv in E1. lra. }
  split.
  - destruct Htx as [H|H]; auto. exfalso.
    assert (B : Rabs (val t + val h) <= M + val h). { eapply Rle_trans; [apply Rabs_triang|]. rewrite (Rabs_pos_eq (val h)) by lra. lra. }
    assert (uro prec * Rabs (val t + val h) <= uro prec * M + uro prec * val h) by (rewrite <- Rmult_plus_distr_l; apply Rmult_le_compat_l; lra).
    assert (uro prec * val h <= / 4 * val h) by (apply Rmult_le_compat_r; lra). apply Rabs_le_inv in E1. lra.
  - destruct (Rle_or_lt (val t + val h) (val x)) as [H|H]; [left; now apply A|right]. apply Rle_antisym; auto. apply G1; auto. lra.
Qed.
End Fl.

Section Run.
Variables (prec emax : Z) (pw : spec_float -> spec_float -> spec_float).
Notation FT := (SFops_at prec emax pw).
Context {E : @Env FT}.
Hypothesis Hp : (1 < prec)%Z.
Hypothesis He : (prec < emax)%Z.
Variables (m : @meth FT) (fuelc : nat) (o : @options FT) (rhs : @rhs_t FT) (tb : @ext FT).
Let sv := solver_of (E := E) m fuelc o rhs tb.

Lemma fl_chain (x : spec_float) n s : wf m s -> is_fixed m = true -> fin prec emax (hstep s) -> fin prec emax (now s) -> fin prec emax x ->
  0 < val (hstep s) -> val (now s) <= val x -> 2 * uro prec * Rmax (Rabs (val (now s))) (Rabs (val x)) <= val (hstep s) ->
  steps_return sv (@Fin FT x) s -> val x - val (now s) < INR n * (val (hstep s) / 2) ->
  exists l s', chain sv (@Fin FT x) s l s' /\ (length l <= n)%nat /\ would_pass (@Fin FT x) s' /\ fin prec emax (now s') /\ val (now s) <= val (now s') <= val x.
Proof.
  revert s. induction n as [|n IH]; intros s W Hf Fh Ft Fx Hh Hx HM Hr Hn; [cbn in Hn; lra|].
  destruct (progress prec emax Hp He (now s) (hstep s) x Ft Fh Fx Hh Hx HM) as [P|(P1 & P2 & P3 & P4)].
  - exists [], s. split; [constructor|]. split; [cbn; lia|]. split; [exact P|]. split; auto. lra.
  - destruct (Hr [] s (chain_nil _ _ _)) as (s1 & Hc).
    destruct (core_fixed_now m fuelc o rhs s s1 W Hf Hc) as (N1 & N2 & N3).
    assert (Cm : completes sv (@Fin FT x) s s1).
    { split; auto. unfold would_pass. cbn. intros Q. apply (fl_ltb prec emax) in Q; auto. lra. }
    assert (Hr1 : steps_return sv (@Fin FT x) s1). { intros l z C. apply (Hr (s1 :: l)). econstructor; eauto. }
    change (@add FT (now s) (hstep s)) with (SFadd prec emax (now s) (hstep s)) in N1. rewrite <- N1 in P1, P2, P4.
    assert (T1 : val (now s) <= val (now s1)) by (destruct P4; lra).
    assert (HM1 : 2 * uro prec * Rmax (Rabs (val (now s1))) (Rabs (val x)) <= val (hstep s1)).
    { rewrite N2. eapply Rle_trans; [|exact HM]. pose proof (uro_pos prec Hp). apply Rmult_le_compat_l; [lra|]. apply Rmax_lub; [|apply Rmax_r].
      apply Rabs_le. pose proof (Rmax_l (Rabs (val (now s))) (Rabs (val x))) as Q1. pose proof (Rmax_r (Rabs (val (now s))) (Rabs (val x))) as Q2.
      apply Rabs_le_inv in Q1. apply Rabs_le_inv in Q2. lra. }
    rewrite <- N2 in Fh, Hh, Hn, P4.
    destruct (Rle_or_lt (val (now s) + val (hstep s1) / 2) (val (now s1))) as [Q|Q].
    + destruct (IH s1 N3 Hf Fh P1 Fx Hh P2 HM1 Hr1) as (l & s' & C & L & Wp & F' & V'); [rewrite S_INR in Hn; lra|].
      exists (s1 :: l), s'. split; [econstructor; eauto|]. split; [cbn; lia|]. split; auto. split; auto. lra.
    + assert (Ex : val (now s1) = val x) by (destruct P4; lra).
      exists [s1], s1. split; [econstructor; [exact Cm|constructor]|]. split; [cbn; lia|]. split; [|split; auto; lra].
      destruct (progress prec emax Hp He (now s1) (hstep s1) x P1 Fh Fx Hh P2 HM1) as [P|(_ & _ & B & _)]; [exact P|lra].
Qed.

Lemma C12_float_lemma s (x : spec_float) : reachable (E := E) rhs m fuelc o tb s -> is_fixed m = true ->
  fin prec emax (hstep s) -> fin prec emax (now s) -> fin prec emax x ->
  0 < val (hstep s) -> val (now s) <= val x -> 2 * uro prec * Rmax (Rabs (val (now s))) (Rabs (val x)) <= val (hstep s) ->
  @gt_ext FT x tb = false -> steps_return sv (@Fin FT x) s ->
  exists (rows : list (@T FT * @vec FT)) (s' : @st FT), INR (length rows) <= 2 * ((val x - val (now s)) / val (hstep s)) + 1 /\ fin prec emax (now s') /\ val (now s) <= val (now s') <= val x /\
  forall fuel, (length rows < fuel)%nat ->
     step sv fuel None (Some (@Fin FT x)) s = (Ret (RMany rows), s') /\ skip sv fuel None (Some (@Fin FT x)) s = (Ret tt, s').
Proof.
  intros W Hf Fh Ft Fx Hh Hx HM Hb Hr. apply reachable_wf in W.
  destruct (floor_exists (val x - val (now s)) (val (hstep s) / 2) ltac:(lra) ltac:(lra)) as (n & Hn1 & Hn2).
  destruct (fl_chain x (S n) s W Hf Fh Ft Fx Hh Hx HM Hr Hn2) as (l & s' & C & L & Wp & F' & V').
  exists (map row l), s'. rewrite map_length. split; [|split; [exact F'|split; [exact V'|]]].
  - apply Rle_trans with (INR (S n)); [now apply le_INR|]. rewrite S_INR. apply Rplus_le_compat_r.
    apply Rmult_le_reg_r with (val (hstep s) / 2); [lra|]. replace (2 * ((val x - val (now s)) / val (hstep s)) * (val (hstep s) / 2)) with (val x - val (now s)) by (field; lra). exact Hn1.
  - intros fuel Hfu.
    assert (K : step sv fuel None (Some (@Fin FT x)) s = (Ret (RMany (map row l)), s')).
    { rewrite not_lt_upto. 2:{ cbn. apply (fl_ltb_false prec emax); auto. }
      change (ext_gt (@Fin FT x) (s_bound sv)) with (@gt_ext FT x tb). rewrite Hb. rewrite (steps_complete sv (@Fin FT x) s l s' C); [reflexivity|exact Wp|lia]. }
    split; auto. rewrite (C02_lemma sv) by discriminate. now rewrite K.
Qed.

(** the accumulated time *)
Lemma C10_float_lemma b s l s' : reachable (E := E) rhs m fuelc o tb s -> is_fixed m = true ->
  fin prec emax (hstep s) -> 0 <= val (hstep s) -> fin prec emax (now s) -> chain sv b s l s' -> fin prec emax (now s') ->
  val (now s) <= val (now s') /\
  Rabs (val (now s') - (val (now s) + INR (length l) * val (hstep s))) <= INR (length l) * (uro prec * Rmax (Rabs (val (now s))) (Rabs (val (now s')))).
Proof.
  intros W Hf Fh Hh Ft C Ft'. apply reachable_wf in W.
  assert (Vh : valid_binary prec emax (hstep s) = true) by apply Fh.
  pose proof (uro_pos prec Hp) as U.
  revert s' C Ft'. induction l as [|z l IH] using rev_ind; intros s' C Ft'.
  - inversion C; subst. split; [lra|]. cbn [length INR]. match goal with |- Rabs ?a <= _ => replace a with 0 by ring end. rewrite Rabs_R0. lra.
  - apply chain_split in C as (s1 & C1 & C2). inversion C2 as [|? y' ? ? Hc C3]; subst. inversion C3; subst. destruct Hc as (_ & Hc). cbn in Hc.
    destruct (chain_grid m fuelc o rhs tb b s l s1 W Hf C1) as (G1 & G2 & _ & G4).
    destruct (core_fixed_now m fuelc o rhs s1 s' G2 Hf Hc) as (N1 & _).
    change (@add FT (now s1) (hstep s1)) with (SFadd prec emax (now s1) (hstep s1)) in N1. rewrite G1 in N1.
    assert (V1 : valid_binary prec emax (now s1) = true).
    { rewrite G4. clear - Ft Vh Hp He. induction (length l) as [|k IHk]; [apply Ft|]. cbn [grid]. apply (add_valid prec emax Hp He); auto. }
    assert (F1 : fin prec emax (now s1)).
    { destruct (now s1) as [q|q| |q mm ee] eqn:e2.
      - split; auto.
      - exfalso. revert Ft'. rewrite N1. apply (add_nonfin prec emax); auto. intros (_ & []).
      - exfalso. revert Ft'. rewrite N1. apply (add_nonfin prec emax); auto. intros (_ & []).
      - split; auto. }
    destruct (IH s1 C1 F1) as (I1 & I2).
    assert (Ft2 : fin prec emax (SFadd prec emax (now s1) (hstep s))) by (rewrite <- N1; exact Ft').
    pose proof (fl_add_mono prec emax Hp He (now s1) (hstep s) F1 Fh Hh Ft2) as M1.
    pose proof (fl_sum_back prec emax Hp He (now s1) (hstep s) F1 Fh Ft2) as B. rewrite <- N1 in M1, B. split; [lra|].
    rewrite app_length. cbn [length]. rewrite Nat.add_1_r, S_INR.
    set (M := Rmax (Rabs (val (now s))) (Rabs (val (now s')))).
    assert (Q0 : Rabs (val (now s)) <= M) by apply Rmax_l. assert (Q1 : Rabs (val (now s')) <= M) by apply Rmax_r.
    assert (Q2 : Rmax (Rabs (val (now s))) (Rabs (val (now s1))) <= M).
    { apply Rmax_lub; auto. apply Rabs_le. apply Rabs_le_inv in Q0. apply Rabs_le_inv in Q1. lra. }
    assert (Q3 : INR (length l) * (uro prec * Rmax (Rabs (val (now s))) (Rabs (val (now s1)))) <= INR (length l) * (uro prec * M)).
    { apply Rmult_le_compat_l; [apply pos_INR|]. apply Rmult_le_compat_l; lra. }
    assert (Q4 : uro prec * Rabs (val (now s')) <= uro prec * M) by (apply Rmult_le_compat_l; lra).
    match goal with |- Rabs ?a <= _ => replace a with ((val (now s') - (val (now s1) + val (hstep s))) + (val (now s1) - (val (now s) + INR (length l) * val (hstep s)))) by ring end.
    eapply Rle_trans; [apply Rabs_triang|]. lra.
Qed.
End Run.
