(** In floating point a step of a fixed step Runge-Kutta class is taken. *)
From Coq Require Import List ZArith QArith Bool Arith Lia Reals Lra SpecFloat.
From Verif Require Import Base Scalar Vec MBuffer MZeros MSteps MApi MClasses Laws Spec SpecInst PStep PKeeps PCore PHist PBound PVecR SpecRK PRK PDim SpecMS PMS PMS5
  SpecConv PConv1 SpecConv3 SpecOrder PHi1 PHi2 PHi3 PHi4 SpecFl PFl1 PFl2 PFl3 PFl4.
Import ListNotations.
Open Scope R_scope.

Section G.
Context {OT : Ops}.
Lemma stages_prefix rhs t y h rows nodes K K' : stages_of rhs t y h rows nodes K K' -> incl K K'.
Proof. induction 1; [apply incl_refl|]. intros x Hx. apply IHstages_of. apply in_or_app. now left. Qed.
Lemma stages_total rhs t y h rows : (forall s z, exists k, rhs s z = Ret k) -> forall nodes K, length nodes = length rows -> exists K', stages_of rhs t y h rows nodes K K'.
Proof.
  intros Ht. induction rows as [|a rows IH]; intros [|c nodes] K Hl; try discriminate; [exists K; constructor|].
  destruct (Ht (add t (mul h c)) (vadd y (vscale h (lincomb (length y) (firstn (length K) a) K)))) as (k & Hk).
  destruct (IH nodes (K ++ [k]) ltac:(cbn in Hl; lia)) as (K' & HK). exists K'. econstructor; eauto.
Qed.
End G.

Section S.
Variables (X F L : R) (n : nat) (rhs : @rhs_t Rops).
Hypothesis HX : 0 <= X.
Hypothesis HF : 0 <= F.
Hypothesis HL0 : 0 <= L.
Hypothesis HT : tame rhs n L X F.

Lemma step_exists A B C : (0 < length A <= 4)%nat -> length C = length A -> Forall (Forall small) A -> Forall small C ->
  exists C', 3 <= C' /\
  forall prec emax eps pw rhsF, roomy prec emax X F eps -> computed prec emax pw rhsF rhs n X eps -> C' * eps <= / 3 ->
  forall t y h f, fin prec emax t -> Forall (fin prec emax) y -> fin prec emax h -> length y = n ->
  Rabs (val t) <= X + / 3 -> within (X + / 3) (map val y) -> 0 < val h <= / 3 -> 4 * F * val h <= / 3 ->
  rhsF t y = Ret f ->
  exists K y', rk_step (OT := SFops_at prec emax pw) rhsF (@litm (SFops_at prec emax pw) A) (@lits (SFops_at prec emax pw) B) (@lits (SFops_at prec emax pw) C) t y f h K y'.
Proof.
  intros LA LC HA HC. destruct (stages_ap X F L n rhs HX HF HL0 HT (skipn 1 A) 1 ltac:(lra)) as (Ck & H1 & H2).
  exists (Ck + 3). split; [lra|].
  intros prec emax eps pw rhsF Hr Hcomp Hs t y h f Ft Fy Fh Ly Bt By Hh HFh Hf.
  set (FT := SFops_at prec emax pw) in *. pose proof (eps_pos prec emax X F eps Hr) as Pe.
  set (rhsT := fun s z => match rhsF s z with Ret k => Ret k | _ => Ret [S754_nan] end : outcome (@vec FT)).
  assert (HcT : computed prec emax pw rhsT rhs n X eps).
  { intros s z Fs Fz Lz Bs Bz. destruct (Hcomp s z Fs Fz Lz Bs Bz) as (k & g & R1 & R2). exists k, g. split; [|exact R2]. unfold rhsT. now rewrite R1. }
  assert (By1 : within (X + 1) (map val y)) by (eapply within_mono; [|exact By]; lra).
  destruct (Hcomp t y) as (k & g & R1 & R2 & R3 & R4); auto; [lra|]. rewrite Hf in R1. injection R1 as <-.
  destruct HT as ((_ & Hkd & _) & _ & _ & Hdef). destruct (Hdef (val t) (map val y)) as (g' & T1 & T2); auto; [lra|now rewrite map_length|]. rewrite R3 in T1. injection T1 as <-.
  assert (Lg : length g = n) by (eapply Hkd; [|exact R3]; now rewrite map_length).
  assert (E1 : skipn 1 (@litm FT A) = @litm FT (skipn 1 A)) by (destruct A; reflexivity).
  assert (E2 : skipn 1 (@lits FT C) = @lits FT (skipn 1 C)) by (destruct C; reflexivity).
  destruct (stages_total (OT := FT) rhsT t y h (@litm FT (skipn 1 A)) ltac:(intros s z; unfold rhsT; destruct (rhsF s z); eauto) (@lits FT (skipn 1 C)) [f]) as (K & HK).
  { unfold litm, lits. rewrite !map_length, !skipn_length. lia. }
  destruct (H2 prec emax eps pw rhsT Hr HcT ltac:(eapply Rle_trans; [|exact Hs]; apply Rmult_le_compat_r; lra) t y h Ft Fy Fh Ly Bt By Hh HFh (skipn 1 C) [f] [g] K) as (KR & K1 & K2 & K3 & K4 & K5); auto.
  { destruct A; [auto|]. now inversion HA. } { destruct C; [auto|]. now inversion HC. } { rewrite skipn_length. cbn. lia. }
  { constructor; [|constructor]. apply near_vap; auto. now rewrite Rmult_1_l. }
  assert (FK : Forall (Forall (fin prec emax)) K). { clear - K2. induction K2; constructor; eauto using vap_fin. }
  exists K. eexists. split; [|reflexivity]. rewrite E1, E2. revert HK FK. clear. intros HK. 
  induction HK as [|a rows c cs K k K' Hk HK IH]; intros FK; [constructor|]. econstructor; [|apply IH; exact FK].
  unfold rhsT in Hk. destruct (rhsF _ _) as [k'| |] eqn:e; [exact Hk| |]; exfalso; injection Hk as <-.
  all: apply stages_prefix in HK; rewrite Forall_forall in FK; specialize (FK [S754_nan] ltac:(apply HK; apply in_or_app; right; now left)); inversion FK as [|? ? (_ & Q) ?]; exact Q.
Qed.
End S.
