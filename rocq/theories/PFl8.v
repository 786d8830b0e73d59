(** The default interpolant in floating point is close to the solution. *)
From Coq Require Import List ZArith QArith Bool Arith Lia Reals Lra SpecFloat.
From Verif Require Import Base Scalar Vec MBuffer MZeros MSteps MApi MClasses Spec SpecInst PBound PVecR SpecRK PDim PInterp SpecConv SpecConv3 PConv1 PHi1 PHi5 SpecFl PFl1 PFl2 PFl5 PFl6 PFl7.
Import ListNotations.
Open Scope R_scope.

Lemma quot_ap prec emax X F eps h t ta tb : roomy prec emax X F eps -> 0 <= X -> 0 <= F -> fin prec emax t -> fin prec emax ta -> fin prec emax tb ->
  0 < h <= 1 -> 8 * eps <= h -> h / 2 <= val tb - val ta <= 1 -> 0 <= val t - val ta <= val tb - val ta ->
  let d := SFsub prec emax tb ta in let x := SFdiv prec emax (SFsub prec emax t ta) d in
  fin prec emax d /\ val d <> 0 /\ Rabs (val d - (val tb - val ta)) <= 2 * eps /\
  fin prec emax x /\ Rabs (val x - (val t - val ta) / (val tb - val ta)) <= 20 * (eps / h).
Proof.
  intros Hr HX HF Ft Fa Fb Hh He8 Hd Ha d x. pose proof Hr as ((Hp & He) & Hbig & Hu). pose proof (uro_pos prec Hp) as Pu.
  set (D := val tb - val ta) in *. set (A := val t - val ta) in *.
  destruct (fl_sub prec emax Hp He tb ta Fb Fa) as (D1 & D2); [unfold big; fold D; rewrite Rabs_pos_eq; lra|]. fold d in D1, D2. fold D in D2. rewrite (Rabs_pos_eq D) in D2 by lra.
  destruct (fl_sub prec emax Hp He t ta Ft Fa) as (A1 & A2); [unfold big; fold A; rewrite Rabs_pos_eq; lra|]. fold A in A2. rewrite (Rabs_pos_eq A) in A2 by lra.
  set (a := SFsub prec emax t ta) in *.
  assert (UD : uro prec * (1 + D) <= eps * 2) by (apply Rmult_le_compat; lra). assert (UA : uro prec * (1 + A) <= eps * 2) by (apply Rmult_le_compat; lra).
  assert (Dl : h / 4 <= val d) by (unfold Rabs in D2; destruct (Rcase_abs (val d - D)); lra).
  assert (Q : Rabs (val a / val d - A / D) <= 16 * (eps / h)).
  { replace (val a / val d - A / D) with (((val a - A) + (A / D) * (D - val d)) / val d) by (field; lra).
    unfold Rdiv at 1. rewrite Rabs_mult, Rabs_inv, (Rabs_pos_eq (val d)) by lra.
    assert (R1 : 0 <= A / D <= 1). { split; [apply Rmult_le_pos; [lra|left; apply Rinv_0_lt_compat; lra]|]. apply (Rmult_le_reg_r D); [lra|]. unfold Rdiv. rewrite Rmult_assoc, Rinv_l by lra. lra. }
    assert (R2 : Rabs (val a - A + A / D * (D - val d)) <= 4 * eps).
    { eapply Rle_trans; [apply Rabs_triang|]. rewrite Rabs_mult, (Rabs_pos_eq (A / D)), (Rabs_minus_sym D) by lra.
      assert (A / D * Rabs (val d - D) <= 1 * (eps * 2)) by (apply Rmult_le_compat; try lra; apply Rabs_pos). lra. }
    assert (R3 : / val d <= / (h / 4)) by (apply Rinv_le_contravar; lra).
    apply Rle_trans with (4 * eps * / (h / 4)); [apply Rmult_le_compat; try lra; [apply Rabs_pos|left; apply Rinv_0_lt_compat; lra]|]. right. field. lra. }
  assert (P1 : 0 < eps / h) by (apply Rdiv_lt_0_compat; lra).
  assert (P2 : eps / h <= / 8). { apply (Rmult_le_reg_r h); [lra|]. unfold Rdiv. rewrite Rmult_assoc, Rinv_l by lra. lra. }
  assert (P3 : eps <= eps / h). { replace eps with (eps / h * h) at 1 by (field; lra). rewrite <- (Rmult_1_r (eps / h)) at 2. apply Rmult_le_compat_l; lra. }
  assert (AD : 0 <= A / D <= 1). { split; [apply Rmult_le_pos; [lra|left; apply Rinv_0_lt_compat; lra]|]. apply (Rmult_le_reg_r D); [lra|]. unfold Rdiv. rewrite Rmult_assoc, Rinv_l by lra. lra. }
  assert (Sz : Rabs (val a / val d) <= 3). { replace (val a / val d) with ((val a / val d - A / D) + A / D) by ring. eapply Rle_trans; [apply Rabs_triang|]. rewrite (Rabs_pos_eq (A / D)) by lra. lra. }
  destruct (fl_div_rnd prec emax Hp He a d A1 D1 ltac:(lra)) as (X1 & X2); [unfold big; lra|].
  split; [exact D1|]. split; [lra|]. split; [lra|]. split; [exact X1|]. unfold x. rewrite X2.
  pose proof (rnd_err prec emax Hp He (val a / val d)) as Re.
  assert (uro prec * (1 + Rabs (val a / val d)) <= eps * 4) by (apply Rmult_le_compat; try lra; pose proof (Rabs_pos (val a / val d)); lra).
  match goal with |- Rabs (?r - _) <= _ => replace (r - A / D) with ((r - val a / val d) + (val a / val d - A / D)) by ring end.
  eapply Rle_trans; [apply Rabs_triang|]. lra.
Qed.

(** exact interpolation of perturbed data *)
Lemma hermV_cmp n (x d : R) ya yb fa fb i : length ya = n -> length yb = n -> length fa = n -> length fb = n -> (i < n)%nat ->
  length (@hermV Rops x d ya yb fa fb) = n /\
  cmp i (@hermV Rops x d ya yb fa fb) = PHi5.cubic x d (cmp i ya) (cmp i yb) (cmp i fa) (cmp i fb).
Proof.
  intros La Lb Lc Ld Hi. unfold hermV. cbn zeta. assert (L1 : length (@vsub Rops yb ya) = n) by now apply vsub_len. split; [auto 10 with vlen|].
  rewrite !(vadd_cmp n), !vscale_cmp, !(vadd_cmp n), !vscale_cmp, !(vadd_cmp n), !vscale_cmp, !(vsub_cmp n) by auto 10 with vlen.
  change (@sub Rops) with Rminus. change (@mul Rops) with Rmult. rewrite one_R, two_R. reflexivity.
Qed.
Section Near.
Variables (n : nat) (t0 te Bd : R) (y : R -> list R) (D : nat -> R -> list R).
Hypothesis HB : 0 <= Bd.
Hypothesis D0 : forall t, D 0%nat t = y t.
Hypothesis HDl : forall t j, t0 <= t <= te -> (j <= 4)%nat -> length (D j t) = n.
Hypothesis HDt : forall j m t x i, (j + m <= 4)%nat -> (i < n)%nat -> t0 <= t -> 0 <= x -> t + x <= te ->
  Rabs (cmp i (D j (t + x)) - tpoly (fun q => cmp i (D (j + q)%nat t)) m x) <= Bd * x ^ m.
Lemma hermV_near a b t ya yb fa fb e f : t0 <= a -> a < b -> b <= te -> a <= t <= b -> near e ya (y a) -> near e yb (y b) -> near f fa (D 1%nat a) -> near f fb (D 1%nat b) ->
  near (5 * e + (b - a) * f + 4 * (Bd * (b - a) ^ 4)) (@hermV Rops ((t - a) / (b - a)) (b - a) ya yb fa fb) (y t).
Proof.
  intros Ha Hab Hb Ht (Na1 & Na2) (Nb1 & Nb2) (Fa1 & Fa2) (Fb1 & Fb2).
  assert (Ly : forall t, t0 <= t <= te -> length (y t) = n) by (intros; rewrite <- D0; apply HDl; auto; lia).
  pose proof (eq_trans Na1 (Ly a ltac:(lra))) as L1. pose proof (eq_trans Nb1 (Ly b ltac:(lra))) as L2.
  pose proof (eq_trans Fa1 (HDl a 1 ltac:(lra) ltac:(lia))) as L3. pose proof (eq_trans Fb1 (HDl b 1 ltac:(lra) ltac:(lia))) as L4.
  set (X := (t - a) / (b - a)).
  assert (X0 : 0 <= X) by (unfold X, Rdiv; apply Rmult_le_pos; [lra|left; apply Rinv_0_lt_compat; lra]).
  assert (X1 : X <= 1). { unfold X. apply (Rmult_le_reg_r (b - a)); [lra|]. unfold Rdiv. rewrite Rmult_assoc, Rinv_l, Rmult_1_r by lra. lra. }
  assert (Ln : length (@hermV Rops X (b - a) ya yb fa fb) = n).
  { unfold hermV. cbn zeta. assert (length (@vsub Rops yb ya) = n) by now apply vsub_len. auto 10 with vlen. }
  split; [exact (eq_trans Ln (eq_sym (Ly t ltac:(lra))))|]. intros i Hi. assert (Hin : (i < n)%nat) by (exact (eq_ind _ (fun z => (i < z)%nat) Hi _ Ln)).
  destruct (hermV_cmp n X (b - a) ya yb fa fb i L1 L2 L3 L4 Hin) as (_ & Ec).
  refine (eq_ind_r (fun z => Rabs (z - cmp i (y t)) <= _) _ Ec).
  specialize (Na2 i ltac:(rewrite L1; exact Hin)). specialize (Nb2 i ltac:(rewrite L2; exact Hin)). specialize (Fa2 i ltac:(rewrite L3; exact Hin)). specialize (Fb2 i ltac:(rewrite L4; exact Hin)).
  pose proof (cubic_exact (fun j x => cmp i (D j x)) a b t Bd HB Hab Ht ltac:(intros; apply HDt; auto; lra)) as Ex.
  pose proof (cubic_bound X (b - a) _ _ _ _ e f (conj X0 X1) ltac:(lra) Na2 Nb2 Fa2 Fb2) as Pe.
  cbv beta in Ex. rewrite !D0 in Ex. fold X in Ex.
  eapply Rle_trans; [|apply Rplus_le_compat; [exact Pe|exact Ex]].
  eapply Rle_trans; [|apply Rabs_triang]. right. f_equal. unfold PHi5.cubic. change (@T Rops) with R. ring.
Qed.
End Near.
