(** Whole Runge-Kutta steps in floating point. *)
From Coq Require Import List ZArith QArith Bool Arith Lia Reals Lra SpecFloat.
From Verif Require Import Base Scalar Vec MBuffer MZeros MSteps MApi MClasses Spec SpecInst PBound PVecR SpecRK PDim SpecConv PConv1 SpecFl PFl1 PFl2.
Import ListNotations.
Open Scope R_scope.

Definition small (q : Q) : Prop := Rabs (@lit Rops q) <= 1.
Section Steps.
Variables (X F L : R) (n : nat) (rhs : @rhs_t Rops).
Hypothesis HX : 0 <= X.
Hypothesis HF : 0 <= F.
Hypothesis HL0 : 0 <= L.
Hypothesis HT : tame rhs n L X F.

Lemma stages_ap rows : forall Ck, 0 <= Ck -> exists C', Ck <= C' /\
  forall prec emax eps pw rhsF, roomy prec emax X F eps -> computed prec emax pw rhsF rhs n X eps -> C' * eps <= / 3 ->
  forall t y h, fin prec emax t -> Forall (fin prec emax) y -> fin prec emax h -> length y = n ->
  Rabs (val t) <= X + / 3 -> within (X + / 3) (map val y) -> 0 < val h <= / 3 -> 4 * F * val h <= / 3 ->
  forall nodes K KR K', Forall (Forall small) rows -> Forall small nodes -> (length K + length rows <= 4)%nat ->
  Forall2 (vap prec emax eps Ck) K KR -> Forall (within F) KR -> Forall (fun v => length v = n) KR ->
  stages_of (OT := SFops_at prec emax pw) rhsF t y h (@litm (SFops_at prec emax pw) rows) (@lits (SFops_at prec emax pw) nodes) K K' ->
  exists KR', stages_of (OT := Rops) rhs (val t) (map val y) (val h) (@litm Rops rows) (@lits Rops nodes) KR KR' /\
    Forall2 (vap prec emax eps C') K' KR' /\ Forall (within F) KR' /\ Forall (fun v => length v = n) KR' /\ length K' = (length K + length rows)%nat.
Proof.
  induction rows as [|a rows IH]; intros Ck HCk.
  - exists Ck. split; [lra|]. intros prec emax eps pw rhsF Hr Hcomp Hs t y h Ft Fy Fh Ly Bt By Hh HFh nodes K KR K' _ _ _ HK HKR LKR Hst.
    inversion Hst as [? E1 E2 E3 E4|]; subst. exists KR. destruct nodes; [|discriminate]. split; [constructor|]. split; [auto|]. split; [auto|]. split; [auto|]. apply plus_n_O.
  - destruct (stage_next X F L n rhs HX HF HL0 HT Ck HCk) as (C1 & H1 & H2). destruct (IH C1 ltac:(lra)) as (C' & H3 & H4).
    exists C'. split; [lra|]. intros prec emax eps pw rhsF Hr Hcomp Hs t y h Ft Fy Fh Ly Bt By Hh HFh nodes K KR K' Hrows Hn Hlen HK HKR LKR Hst.
    pose proof (eps_pos prec emax X F eps Hr) as Pe.
    destruct nodes as [|c nodes]; [inversion Hst|]. inversion Hrows as [|? ? Hr1 Hr2]; subst. inversion Hn as [|? ? Hn1 Hn2]; subst.
    cbn [litm lits map] in Hst. inversion Hst as [|a' rows' c' cs' K0 k K1 Hk Hst' E1 E2 E3 E4]; subst. cbn in Hlen.
    assert (EK : length K = length KR) by (clear - HK; induction HK; cbn; auto).
    destruct (H2 prec emax eps pw rhsF Hr Hcomp) with (t := t) (y := y) (h := h) (a := a) (c := c) (K := K) (KR := KR) (k := k) as (kR & R1 & R2 & R3 & R4); auto; try lia.
    { eapply Rle_trans; [|exact Hs]. apply Rmult_le_compat_r; lra. }
    destruct (H4 prec emax eps pw rhsF Hr Hcomp Hs t y h) with (nodes := nodes) (K := K ++ [k]) (KR := KR ++ [kR]) (K' := K') as (KR' & S1 & S2 & S3 & S4 & S5); auto.
    + rewrite app_length. cbn. lia.
    + apply Forall2_app; [|constructor; [exact R2|constructor]]. clear - HK H1 Hr. induction HK; constructor; eauto using vap_mono.
    + apply Forall_app. split; auto.
    + apply Forall_app. split; auto.
    + exists KR'. split; [|split; [auto|split; [auto|split; [auto|]]]].
      * cbn [litm lits map]. econstructor; [exact R1|exact S1].
      * rewrite S5, app_length. cbn. lia.
Qed.
Lemma hb_ap prec emax eps pw h B : roomy prec emax X F eps -> 7 * eps <= 1 -> fin prec emax h -> 0 < val h <= / 3 -> Forall small B ->
  Forall2 (ap prec emax eps 7) (map (@mul (SFops_at prec emax pw) h) (@lits (SFops_at prec emax pw) B)) (map (@mul Rops (val h)) (@lits Rops B)) /\
  within 1 (map (@mul Rops (val h)) (@lits Rops B)).
Proof.
  intros Hr Hs Fh Hh. pose proof (eps_pos prec emax X F eps Hr) as Pe. induction 1 as [|b B Hb H (IH1 & IH2)]; [split; constructor|]. cbn [map lits].
  assert (Ah : Rabs (val h) <= 1) by (rewrite Rabs_right; lra). split; constructor; auto.
  - replace 7 with (0 * (1 + 1) + 1 * 2 + 1 + (1 + 1) * (1 + 1)) by ring.
    apply (ap_mul prec emax X F eps pw Hr); try lra; [now apply ap_self| |exact Hb].
    replace 2 with (1 + 1) by ring. apply (ap_lit prec emax X F eps pw Hr); [exact Hb|lra].
  - cbn. rewrite Rabs_mult. rewrite <- (Rmult_1_r 1). apply Rmult_le_compat; auto using Rabs_pos.
Qed.
Lemma step_ap A B C : (0 < length A <= 4)%nat -> (length B <= 4)%nat -> Forall (Forall small) A -> Forall small B -> Forall small C ->
  exists C', 3 <= C' /\
  forall prec emax eps pw rhsF, roomy prec emax X F eps -> computed prec emax pw rhsF rhs n X eps -> C' * eps <= / 3 ->
  forall t y h f K y', fin prec emax t -> Forall (fin prec emax) y -> fin prec emax h -> length y = n ->
  Rabs (val t) <= X + / 3 -> within (X + / 3) (map val y) -> 0 < val h <= / 3 -> 4 * F * val h <= / 3 ->
  rhsF t y = Ret f ->
  rk_step (OT := SFops_at prec emax pw) rhsF (@litm (SFops_at prec emax pw) A) (@lits (SFops_at prec emax pw) B) (@lits (SFops_at prec emax pw) C) t y f h K y' ->
  exists fR KR yR, rhs (val t) (map val y) = Ret fR /\
    rk_step (OT := Rops) rhs (@litm Rops A) (@lits Rops B) (@lits Rops C) (val t) (map val y) fR (val h) KR yR /\
    vap prec emax eps C' y' yR.
Proof.
  intros LA LB HA HB HC. destruct (stages_ap (skipn 1 A) 1 ltac:(lra)) as (Ck & H1 & H2).
  destruct (lincomb_ap X F 4 HX HF 0 Ck ltac:(lra) ltac:(lra)) as (Cs & S1 & S2 & S3 & S4).
  exists (0 + Cs + (X + 1) + 4 * F + 3). split; [lra|].
  intros prec emax eps pw rhsF Hr Hcomp Hs t y h f K y' Ft Fy Fh Ly Bt By Hh HFh Hf (Hst & ->).
  set (FT := SFops_at prec emax pw) in *. pose proof (eps_pos prec emax X F eps Hr) as Pe.
  assert (Sm : forall D, 0 <= D <= 0 + Cs + (X + 1) + 4 * F + 3 -> D * eps <= / 3) by (intros D HD; eapply Rle_trans; [|exact Hs]; apply Rmult_le_compat_r; lra).
  assert (By1 : within (X + 1) (map val y)) by (eapply within_mono; [|exact By]; lra).
  destruct (Hcomp t y) as (k & g & R1 & R2 & R3 & R4); auto; [lra|]. rewrite Hf in R1. injection R1 as <-.
  destruct HT as ((_ & Hkd & _) & _ & _ & Hdef). destruct (Hdef (val t) (map val y)) as (g' & T1 & T2); auto; [lra|now rewrite map_length|]. rewrite R3 in T1. injection T1 as <-.
  assert (Lg : length g = n) by (eapply Hkd; [|exact R3]; now rewrite map_length).
  assert (E1 : skipn 1 (@litm FT A) = @litm FT (skipn 1 A)) by (destruct A; reflexivity).
  assert (E2 : skipn 1 (@lits FT C) = @lits FT (skipn 1 C)) by (destruct C; reflexivity).
  rewrite E1, E2 in Hst.
  destruct (H2 prec emax eps pw rhsF Hr Hcomp ltac:(apply Sm; lra) t y h Ft Fy Fh Ly Bt By Hh HFh (skipn 1 C) [f] [g] K) as (KR & K1 & K2 & K3 & K4 & K5); auto.
  { destruct A; [auto|]. now inversion HA. } { destruct C; [auto|]. now inversion HC. } { rewrite skipn_length. cbn. lia. }
  { constructor; [|constructor]. apply near_vap; auto. now rewrite Rmult_1_l. }
  exists g, KR. eexists. split; [exact R3|]. split.
  { split; [|reflexivity]. assert (E3 : skipn 1 (@litm Rops A) = @litm Rops (skipn 1 A)) by (destruct A; reflexivity).
    assert (E4 : skipn 1 (@lits Rops C) = @lits Rops (skipn 1 C)) by (destruct C; reflexivity). rewrite E3, E4. exact K1. }
  destruct (hb_ap prec emax eps pw h B Hr) as (B1 & B2); auto. { specialize (Sm 7 ltac:(lra)). lra. }
  destruct (vzero_ap F prec emax eps pw n) as (Z1 & Z2).
  destruct (S4 prec emax eps pw Hr ltac:(specialize (Sm Cs ltac:(lra)); lra) _ _ (map (@mul FT h) (@lits FT B)) _ K KR 0%nat ltac:(lia)
    ltac:(unfold lits; rewrite !map_length; lia) B1 B2 K2 K3 Z1 Z2) as (Q1 & Q2).
  fold FT in Q1. replace (INR (0 + 4)) with 4 in Q2 by (cbn; lra).
  unfold rk_combine. rewrite map_length, Ly.
  assert (SmC : Cs * eps <= 1) by (specialize (Sm Cs ltac:(lra)); lra).
  apply (vap_add prec emax X F eps pw Hr); auto; try lra; [now apply vap_self|].
  exact (eq_ind_r (fun k => vap prec emax eps Cs (@lincomb FT k (map (@mul FT h) (@lits FT B)) K) _) Q1 Ly).
Qed.
End Steps.
