(** The cubic Hermite interpolant in floating point. *)
From Coq Require Import List ZArith QArith Bool Arith Lia Reals Lra SpecFloat.
From Flocq Require Import Core Relative BinarySingleNaN.
From Verif Require Import Base Scalar Vec MBuffer MZeros MSteps MApi MClasses Spec SpecInst PBound PVecR SpecRK PDim PInterp SpecConv SpecConv3 PConv1 PHi1 PHi5 SpecFl PFl1 PFl2 PFl5 PFl6.
Import ListNotations.
Open Scope R_scope.

(** the formula of [hermite] with the quotient already computed *)
Definition hermV {OT : Ops} (x dt : T) (y0 y1 f0 f1 : vec) : vec :=
  let dy := vsub y1 y0 in
  vadd (vadd y0 (vscale x dy))
    (vscale (mul x (sub x one)) (vadd (vscale (sub one (mul two x)) dy) (vscale dt (vadd (vscale (sub x one) f0) (vscale x f1))))).

Section Sub.
Variables prec emax : Z.
Hypothesis Hp : (1 < prec)%Z.
Hypothesis He : (prec < emax)%Z.
Local Instance Hprec7 : Prec_gt_0 prec := Hprec prec Hp.
Local Instance Hmax7 : Prec_lt_emax prec emax := Hmax prec emax He.
Lemma sub_equiv (x y : binary_float prec emax) : SFsub prec emax (B2SF x) (B2SF y) = B2SF (Bminus mode_NE x y).
Proof.
  destruct x as [sx|sx| |sx mx ex Bx]; destruct y as [sy|sy| |sy my ey By]; [now (trivial || (cbn; destruct (Bool.eqb _ _)))..|].
  cbn [B2SF SFsub Bminus]. refine (eq_trans _ (bn_equiv prec emax Hp He _ _ _)). unfold Fplus_naive, shl_align. cbn zeta. f_equal.
  all: destruct sy; cbn [negb cond_Zopp]; rewrite ?Z.sub_opp_r; lia.
Qed.
Lemma fl_sub x y : fin prec emax x -> fin prec emax y -> Rabs (val x - val y) <= big emax ->
  fin prec emax (SFsub prec emax x y) /\ Rabs (val (SFsub prec emax x y) - (val x - val y)) <= uro prec * (1 + Rabs (val x - val y)).
Proof.
  intros Fx Fy Hb. destruct (fin_B prec emax x Fx) as (bx & <- & F1 & V1). destruct (fin_B prec emax y Fy) as (b2 & <- & F2 & V2).
  rewrite sub_equiv, <- V1, <- V2 in *.
  pose proof (Bminus_correct prec emax Hprec7 Hmax7 mode_NE bx b2 F1 F2) as H. cbn [round_mode] in H.
  rewrite Rlt_bool_true in H by (apply (rnd_small prec emax Hp He); exact Hb). destruct H as (H1 & H2 & _).
  destruct (B_fin prec emax _ H2) as (G1 & G2). split; [exact G1|]. rewrite G2, H1. apply (rnd_err prec emax Hp He).
Qed.
Lemma fl_eqb x y : fin prec emax x -> fin prec emax y -> (SFeqb x y = true <-> val x = val y).
Proof.
  intros Fx Fy. destruct (fin_B prec emax x Fx) as (bx & <- & F1 & V1). destruct (fin_B prec emax y Fy) as (b2 & <- & F2 & V2).
  change (SFeqb (B2SF bx) (B2SF b2)) with (Beqb bx b2). rewrite (Beqb_correct _ _ bx b2 F1 F2), <- V1, <- V2.
  destruct (Req_bool_spec (B2R bx) (B2R b2)); split; auto; try discriminate; try contradiction.
Qed.
Lemma fl_leb x y : fin prec emax x -> fin prec emax y -> (SFleb x y = true <-> val x <= val y).
Proof.
  intros Fx Fy. destruct (fin_B prec emax x Fx) as (bx & <- & F1 & V1). destruct (fin_B prec emax y Fy) as (b2 & <- & F2 & V2).
  change (SFleb (B2SF bx) (B2SF b2)) with (Bleb bx b2). rewrite (Bleb_correct _ _ bx b2 F1 F2), <- V1, <- V2.
  destruct (Rle_bool_spec (B2R bx) (B2R b2)); split; auto; try discriminate. lra.
Qed.
End Sub.

Section Herm.
Variables (prec emax : Z) (X F eps : R) (pw : spec_float -> spec_float -> spec_float).
Hypothesis HX : 0 <= X.
Hypothesis HF : 0 <= F.
Hypothesis Hr : roomy prec emax X F eps.
Notation fin := (fin prec emax).
Notation ap := (ap prec emax eps).
Notation vap := (vap prec emax eps).
Notation FT := (SFops_at prec emax pw).
Let Hp : (1 < prec)%Z := proj1 (proj1 Hr).
Let He : (prec < emax)%Z := proj2 (proj1 Hr).
Lemma ap_sub C D M N x y v w : ap C x v -> ap D y w -> Rabs v <= M -> Rabs w <= N -> C * eps <= 1 -> D * eps <= 1 -> M + N <= X + 8 * F + 6 ->
  ap (C + D + M + N + 3) (@sub FT x y) (v - w).
Proof.
  intros Hx Hy Hv Hw HC HD Hb. pose proof (ap_size prec emax eps _ _ _ _ Hx HC Hv) as Sx. pose proof (ap_size prec emax eps _ _ _ _ Hy HD Hw) as Sy.
  destruct Hx as (Fx & Ex), Hy as (Fy & Ey). pose proof (eps_pos prec emax X F eps Hr) as Pe. pose proof Hr as (_ & Hbig & Hu). pose proof (uro_pos prec Hp) as Pu.
  assert (S : Rabs (val x - val y) <= M + N + 2) by (unfold Rminus; eapply Rle_trans; [apply Rabs_triang|]; rewrite Rabs_Ropp; lra).
  destruct (fl_sub prec emax Hp He x y Fx Fy) as (Fz & Ez); [unfold big; lra|]. split; [exact Fz|].
  change (@sub FT x y) with (SFsub prec emax x y).
  replace (val (SFsub prec emax x y) - (v - w)) with ((val (SFsub prec emax x y) - (val x - val y)) + ((val x - v) + - (val y - w))) by ring.
  eapply Rle_trans; [apply Rabs_triang|]. pose proof (Rabs_triang (val x - v) (- (val y - w))) as Q. rewrite Rabs_Ropp in Q.
  assert (uro prec * (1 + Rabs (val x - val y)) <= eps * (M + N + 3)).
  { apply Rmult_le_compat; try lra. pose proof (Rabs_pos (val x - val y)). lra. }
  lra.
Qed.
Lemma vap_sub C D M N x y v w : vap C x v -> vap D y w -> within M v -> within N w -> C * eps <= 1 -> D * eps <= 1 -> M + N <= X + 8 * F + 6 ->
  vap (C + D + M + N + 3) (@vsub FT x y) (@vsub Rops v w).
Proof.
  intros H. revert y w. induction H as [|a b x v Hab H IH]; intros y w Hy Hv Hw HC HD Hb; [constructor|].
  destruct Hy as [|c d y w Hcd Hy]; [constructor|]. inversion Hv; inversion Hw; subst. constructor; [now apply ap_sub|]. now apply IH.
Qed.

(** the same constant for every operation: from C to G C *)
Let G : R := X + 8 * F + 20.
Section Lev.
Variable C : R.
Hypothesis HC : 1 <= C.
Hypothesis Hs : C * eps <= 1.
Lemma GC : 1 <= G * C /\ C <= G * C.
Proof. assert (1 * C <= G * C) by (apply Rmult_le_compat_r; unfold G; lra). lra. Qed.
Lemma addG M N : M + N <= X + 8 * F + 6 -> C + C + M + N + 3 <= G * C.
Proof. intros H. assert ((X + 8 * F + 10) * 1 <= (X + 8 * F + 10) * C) by (apply Rmult_le_compat_l; lra). unfold G. lra. Qed.
Lemma mulG N : 0 <= N <= 2 * F + 3 -> C * (N + 1) + 1 * C + 1 + (1 + 1) * (N + 1) <= G * C.
Proof.
  intros H. assert (N * C <= (2 * F + 3) * C) by (apply Rmult_le_compat_r; lra). assert (N * 1 <= N * C) by (apply Rmult_le_compat_l; lra).
  assert (0 <= F * C) by (apply Rmult_le_pos; lra). assert (0 <= X * C) by (apply Rmult_le_pos; lra). unfold G. lra.
Qed.
Lemma l_add M N x y v w : ap C x v -> ap C y w -> Rabs v <= M -> Rabs w <= N -> M + N <= X + 8 * F + 6 -> ap (G * C) (@add FT x y) (v + w).
Proof. intros. eapply (ap_mono prec emax X F eps Hr); [apply addG; eassumption|]. now apply (ap_add prec emax X F eps pw Hr). Qed.
Lemma l_sub M N x y v w : ap C x v -> ap C y w -> Rabs v <= M -> Rabs w <= N -> M + N <= X + 8 * F + 6 -> ap (G * C) (@sub FT x y) (v - w).
Proof. intros. eapply (ap_mono prec emax X F eps Hr); [apply addG; eassumption|]. now apply ap_sub. Qed.
Lemma l_mul N x y v w : ap C x v -> ap C y w -> Rabs v <= 1 -> Rabs w <= N -> 0 <= N <= 2 * F + 3 -> ap (G * C) (@mul FT x y) (v * w).
Proof. intros. eapply (ap_mono prec emax X F eps Hr); [apply (mulG N); assumption|]. apply (ap_mul prec emax X F eps pw Hr); auto; lra. Qed.
Lemma l_vadd M N x y v w : vap C x v -> vap C y w -> within M v -> within N w -> M + N <= X + 8 * F + 6 -> vap (G * C) (@vadd FT x y) (@vadd Rops v w).
Proof. intros. eapply (vap_mono prec emax X F eps Hr); [apply (addG M N); assumption|]. now apply (vap_add prec emax X F eps pw Hr). Qed.
Lemma l_vsub M N x y v w : vap C x v -> vap C y w -> within M v -> within N w -> M + N <= X + 8 * F + 6 -> vap (G * C) (@vsub FT x y) (@vsub Rops v w).
Proof. intros. eapply (vap_mono prec emax X F eps Hr); [apply (addG M N); assumption|]. now apply vap_sub. Qed.
Lemma l_vscale N x v ys ws : ap C x v -> vap C ys ws -> Rabs v <= 1 -> within N ws -> 0 <= N <= 2 * F + 3 -> vap (G * C) (@vscale FT x ys) (@vscale Rops v ws).
Proof. intros. eapply (vap_mono prec emax X F eps Hr); [apply (mulG N); assumption|]. apply (vap_scale prec emax X F eps pw Hr); auto; lra. Qed.
Lemma l_up x v : ap C x v -> ap (G * C) x v.
Proof. apply (ap_mono prec emax X F eps Hr). apply GC. Qed.
Lemma l_vup x v : vap C x v -> vap (G * C) x v.
Proof. apply (vap_mono prec emax X F eps Hr). apply GC. Qed.
End Lev.

Lemma vsub_exact x y : Forall fin x -> Forall fin y -> within 1 (@vsub Rops (map val x) (map val y)) -> vap 2 (@vsub FT x y) (@vsub Rops (map val x) (map val y)).
Proof.
  intros Fx. revert y. induction Fx as [|a x Fa Fx IH]; intros y Fy H; [constructor|]. destruct Fy as [|b y Fb Fy]; [constructor|]. cbn in H. inversion H as [|? ? H1 H2]; subst.
  constructor; [|now apply IH]. change (Rabs (val a - val b) <= 1) in H1. pose proof Hr as (_ & Hbig & Hu). pose proof (uro_pos prec Hp) as Pu.
  destruct (fl_sub prec emax Hp He a b Fa Fb) as (G1 & G2); [unfold big; lra|]. split; [exact G1|]. eapply Rle_trans; [exact G2|].
  rewrite Rmult_comm. apply Rmult_le_compat; try lra. pose proof (Rabs_pos (val a - val b)). lra.
Qed.

Lemma hermV_ap C x xv dt dtv y0 y1 f0 f1 : 3 <= C -> G ^ 7 * C * eps <= 1 -> ap C x xv -> 0 <= xv <= 1 -> ap C dt dtv -> 0 <= dtv <= 1 ->
  Forall fin y0 -> Forall fin y1 -> Forall fin f0 -> Forall fin f1 ->
  within (X + 1) (map val y0) -> within 1 (@vsub Rops (map val y1) (map val y0)) -> within (F + 1) (map val f0) -> within (F + 1) (map val f1) ->
  vap (G ^ 7 * C) (@hermV FT x dt y0 y1 f0 f1) (@hermV Rops xv dtv (map val y0) (map val y1) (map val f0) (map val f1)).
Proof.
  intros HC Hs Hx Bx Hd Bd Fy0 Fy1 Ff0 Ff1 Wy Wd Wf0 Wf1. pose proof (eps_pos prec emax X F eps Hr) as Pe.
  assert (HG : 1 <= G) by (unfold G; lra).
  assert (L1 : 1 <= C) by lra.
  destruct (GC C L1) as (L2 & M1). destruct (GC _ L2) as (L3 & M2). destruct (GC _ L3) as (L4 & M3). destruct (GC _ L4) as (L5 & M4). destruct (GC _ L5) as (L6 & M5). destruct (GC _ L6) as (L7 & M6). destruct (GC _ L7) as (L8 & M7).
  set (C1 := G * C) in *. set (C2 := G * C1) in *. set (C3 := G * C2) in *. set (C4 := G * C3) in *. set (C5 := G * C4) in *. set (C6 := G * C5) in *.
  replace (G ^ 7 * C) with (G * C6) in * by (unfold C6, C5, C4, C3, C2, C1; ring).
  assert (Sm : forall D, D <= G * C6 -> D * eps <= 1) by (intros D HD; eapply Rle_trans; [|exact Hs]; apply Rmult_le_compat_r; lra).
  assert (S0 : C * eps <= 1) by (apply Sm; lra). assert (S1 : C1 * eps <= 1) by (apply Sm; lra). assert (S2 : C2 * eps <= 1) by (apply Sm; lra). assert (S3 : C3 * eps <= 1) by (apply Sm; lra).
  assert (S4 : C4 * eps <= 1) by (apply Sm; lra). assert (S5 : C5 * eps <= 1) by (apply Sm; lra). assert (S6 : C6 * eps <= 1) by (apply Sm; lra).
  assert (Ax : Rabs xv <= 1) by (rewrite Rabs_pos_eq; lra). assert (Ad : Rabs dtv <= 1) by (rewrite Rabs_pos_eq; lra).
  assert (A1 : Rabs (xv - 1) <= 1) by (apply Rabs_le; lra). assert (A2 : Rabs (1 - 2 * xv) <= 1) by (apply Rabs_le; lra).
  assert (A3 : Rabs (xv * (xv - 1)) <= 1) by (rewrite Rabs_mult; rewrite <- (Rmult_1_l 1) at 2; apply Rmult_le_compat; auto using Rabs_pos).
  assert (Q1 : ap C (@one FT) 1).
  { pose proof (ap_lit prec emax X F eps pw Hr (inject_Z 1) 1) as Q. change (@one FT) with (@lit FT (inject_Z 1)). replace (@lit Rops (inject_Z 1)) with 1 in Q by (symmetry; exact one_R).
    eapply (ap_mono prec emax X F eps Hr); [|apply Q]; rewrite ?Rabs_R1; lra. }
  assert (Q2 : ap C (@two FT) 2).
  { pose proof (ap_lit prec emax X F eps pw Hr (inject_Z 2) 2) as Q. change (@two FT) with (@lit FT (inject_Z 2)). replace (@lit Rops (inject_Z 2)) with 2 in Q by (symmetry; exact two_R).
    eapply (ap_mono prec emax X F eps Hr); [|apply Q]; rewrite ?Rabs_pos_eq; lra. }
  unfold hermV. cbn zeta. change (@sub Rops) with Rminus. change (@mul Rops) with Rmult. rewrite one_R, two_R. change (IZR 1) with 1. change (IZR 2) with 2.
  set (dyF := @vsub FT y1 y0). set (dyR := @vsub Rops (map val y1) (map val y0)) in *.
  assert (V0 : vap C dyF dyR) by (eapply (vap_mono prec emax X F eps Hr); [|apply vsub_exact; assumption]; lra).
  pose proof (l_vscale C L1 S0 1 _ _ _ _ Hx V0 Ax Wd ltac:(lra)) as V1. fold C1 in V1.
  assert (W1 : within 1 (@vscale Rops xv dyR)) by (eapply within_mono; [|apply (within_scale 1 1); auto; lra]; lra).
  assert (Vy : vap C1 y0 (map val y0)) by (eapply (vap_mono prec emax X F eps Hr); [|apply vap_self; assumption]; lra).
  pose proof (l_vadd C1 L2 S1 _ _ _ _ _ _ Vy V1 Wy W1 ltac:(lra)) as V2. fold C2 in V2.
  pose proof (within_add _ _ _ _ Wy W1) as W2.
  (* x - 1, 1 - 2 x, x (x - 1) *)
  pose proof (l_sub C L1 S0 1 1 _ _ _ _ Hx Q1 Ax ltac:(rewrite Rabs_R1; lra) ltac:(lra)) as X1. fold C1 in X1.
  assert (X2 : ap C1 (@mul FT (@two FT) x) (2 * xv)).
  { eapply (ap_mono prec emax X F eps Hr); [|apply (ap_mul prec emax X F eps pw Hr C C 2 1); auto; try lra; rewrite Rabs_pos_eq; lra].
    unfold C1, G. assert (0 <= X * C) by (apply Rmult_le_pos; lra). assert (0 <= F * C) by (apply Rmult_le_pos; lra). lra. }
  pose proof (l_sub C1 L2 S1 1 2 _ _ _ _ (l_up C L1 _ _ Q1) X2 ltac:(rewrite Rabs_R1; lra) ltac:(rewrite Rabs_pos_eq; lra) ltac:(lra)) as X3. fold C2 in X3.
  pose proof (l_mul C1 L2 S1 1 _ _ _ _ (l_up C L1 _ _ Hx) X1 Ax A1 ltac:(lra)) as X4. fold C2 in X4.
  (* the inner sum *)
  assert (Vf0 : vap C1 f0 (map val f0)) by (eapply (vap_mono prec emax X F eps Hr); [|apply vap_self; assumption]; lra).
  assert (Vf1 : vap C f1 (map val f1)) by (eapply (vap_mono prec emax X F eps Hr); [|apply vap_self; assumption]; lra).
  pose proof (l_vscale C1 L2 S1 (F + 1) _ _ _ _ X1 Vf0 A1 Wf0 ltac:(lra)) as V3. fold C2 in V3.
  pose proof (l_vscale C L1 S0 (F + 1) _ _ _ _ Hx Vf1 Ax Wf1 ltac:(lra)) as V4. fold C1 in V4. apply (l_vup C1 L2) in V4. fold C2 in V4.
  assert (W3 : within (F + 1) (@vscale Rops (xv - 1) (map val f0))) by (eapply within_mono; [|apply (within_scale 1 (F + 1)); auto; lra]; lra).
  assert (W4 : within (F + 1) (@vscale Rops xv (map val f1))) by (eapply within_mono; [|apply (within_scale 1 (F + 1)); auto; lra]; lra).
  pose proof (l_vadd C2 L3 S2 _ _ _ _ _ _ V3 V4 W3 W4 ltac:(lra)) as V5. fold C3 in V5. pose proof (within_add _ _ _ _ W3 W4) as W5.
  assert (Hd3 : ap C3 dt dtv) by (eapply (ap_mono prec emax X F eps Hr); [|exact Hd]; lra).
  pose proof (l_vscale C3 L4 S3 _ _ _ _ _ Hd3 V5 Ad W5 ltac:(lra)) as V6. fold C4 in V6.
  pose proof (within_scale 1 _ _ _ ltac:(lra) Ad W5) as W6.
  assert (V0' : vap C2 dyF dyR) by (eapply (vap_mono prec emax X F eps Hr); [|exact V0]; lra).
  pose proof (l_vscale C2 L3 S2 1 _ _ _ _ X3 V0' A2 Wd ltac:(lra)) as V7. fold C3 in V7. apply (l_vup C3 L4) in V7. fold C4 in V7.
  pose proof (within_scale 1 1 _ _ ltac:(lra) A2 Wd) as W7.
  pose proof (l_vadd C4 L5 S4 _ _ _ _ _ _ V7 V6 W7 W6 ltac:(lra)) as V8. fold C5 in V8. pose proof (within_add _ _ _ _ W7 W6) as W8.
  assert (X5 : ap C5 (@mul FT x (@sub FT x (@one FT))) (xv * (xv - 1))) by (eapply (ap_mono prec emax X F eps Hr); [|exact X4]; lra).
  pose proof (l_vscale C5 L6 S5 _ _ _ _ _ X5 V8 A3 W8 ltac:(lra)) as V9. fold C6 in V9.
  pose proof (within_scale 1 _ _ _ ltac:(lra) A3 W8) as W9.
  assert (V2' : vap C6 (@vadd FT y0 (@vscale FT x dyF)) (@vadd Rops (map val y0) (@vscale Rops xv dyR))) by (eapply (vap_mono prec emax X F eps Hr); [|exact V2]; lra).
  exact (l_vadd C6 L7 S6 _ _ _ _ _ _ V2' V9 W2 W9 ltac:(lra)).
Qed.
End Herm.
