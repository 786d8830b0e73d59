(** C93: from returning calls and event times to found zeros. *)
From Coq Require Import List ZArith Bool Arith Lia Reals Lra.
From Verif Require Import Base Scalar Vec MBuffer MZeros MSteps MApi MDop853 MClasses Laws Spec SpecInst SpecRK SpecDense SpecEv
  PStep PKeeps PClean PCore PHist PBound PVecR PTerm PRun PRun2 PRun3 PFwd PInterp PRK PDim PDense PTop1 PEv1 PEv2 PEv5 PEv6 PEv9 SpecConv SpecEvC PEvC1 SpecEvD.
Import ListNotations.
Open Scope R_scope.

Section A.
Context {E : @Env Rops}.
Variables (m : @meth Rops) (fuelc : nat) (o : @options Rops) (rhs : @rhs_t Rops) (tb : @ext Rops).
Let sv := solver_of (E := E) m fuelc o rhs tb.

Lemma sampled_last (x : stR) ts vs x' : sampled (OT := Rops) sv x ts vs x' -> ts <> [] -> last ts 0 <= now x'.
Proof.
  induction 1 as [x|x ti l x1 a x2 ts vs x3 H1 H2 H3 H4 IH]; intros Hn; [congruence|].
  destruct ts as [|tj ts]; [|change (last (ti :: tj :: ts) 0) with (last (tj :: ts) 0); apply IH; discriminate].
  inversion H4; subst. cbn [last]. apply Rltb_false in H2. cbn [s_interp sv solver_of] in H3. apply interp_of_ok in H3. destruct H3 as (Hc & _).
  unfold now in *. rewrite Hc. exact H2.
Qed.
Lemma run_reaches fuel t s rows s' : is_sorted (OT := Rops) t = true -> t <> [] -> run (E := E) sv fuel t s = (Ret rows, s') -> map fst rows = t -> last t 0 <= now s'.
Proof.
  intros Hs Ht H Hm. destruct (C13_lemma (E := E) m fuelc o rhs tb fuel t s rows s' Hs H) as (s1 & H1 & H2 & [(_ & ->)|(tj & H3 & _)]).
  - rewrite Hm in H2. eapply sampled_last; eauto.
  - exfalso. rewrite <- Hm, <- (map_length fst) in H3. assert (Q : nth_error (map fst rows) (length (map fst rows)) <> None) by (rewrite H3; discriminate).
    apply nth_error_Some in Q. lia.
Qed.

(** a reason not to reach the last time *)
Variable W : stR -> Prop.
Hypothesis HW : forall x x', cache x' = cache x -> hstep x' = hstep x -> W x -> W x'.
Variables (n : nat) (te : R) (y : R -> list R) (eps h : R) (s : stR) (t : list R) (evs : list eventR).
Hypothesis Hr : ready (E := E) m fuelc o rhs tb s.
Hypothesis Ht : is_sorted (OT := Rops) t = true.
Hypothesis Hn : t <> [].
Hypothesis Hev : evs <> [].
Hypothesis Hret : exists N r s', forall fuel, (N <= fuel)%nat -> run_events (E := E) sv fuel t evs s = (Ret r, s').
Hypothesis Hrun : exists N rows s', (forall fuel, (N <= fuel)%nat -> run (E := E) sv fuel t s = (Ret rows, s')) /\ (map fst rows = t \/ W s') /\ now s' <= te.
Hypothesis Het : event_times (E := E) n te y sv s eps h.

Lemma finds_or : (forall u, In u evs -> ~ terminal u) -> forall j u G Lg sg mu del z, nth_error evs j = Some u ->
  visible_zero n y u G Lg sg mu del z (now s) (last t 0) eps h ->
  finds (E := E) sv s t evs j y z eps ((Lg * eps + ev_tol) / mu + h / 2 ^ 50) \/
  exists N r s', (forall fuel, (N <= fuel)%nat -> run_events (E := E) sv fuel t evs s = (Ret r, s')) /\ W s'.
Proof.
  intros Hnt j u G Lg sg mu del z Hj (V1 & V2 & V3 & V4 & V5 & V6 & V7). destruct Hret as (N1 & r & s1 & R1). destruct Hrun as (N2 & rows & s2 & R2 & R3 & R4).
  pose proof (R1 (Nat.max N1 N2) ltac:(lia)) as Q1. pose proof (R2 (Nat.max N1 N2) ltac:(lia)) as Q2.
  destruct (C46_ready (E := E) m fuelc o rhs tb (Nat.max N1 N2) t t evs s r s1 Hr (or_introl (conj Ht eq_refl)) Hev Hnt Q1) as (z' & Z1 & Z2 & Z3 & _).
  fold sv in Z1. rewrite Q2 in Z1. injection Z1 as Z1 <-. assert (Ns : now s1 = now s2) by (unfold now; now rewrite Z2).
  destruct R3 as [R3|R3].
  - left. pose proof (run_reaches _ t s rows s2 Ht Hn Q2 R3) as Hl. rewrite <- Ns in Hl, R4.
    exists N1, r, s1. split; [exact R1|]. split; [now rewrite <- Z1|].
    destruct (Het _ t t evs r s1 (or_introl (conj Ht eq_refl)) Q1 R4 j u G Lg Hj V1) as (P1 & P2).
    destruct (P2 sg mu del z V2 V4 (Rle_trans _ _ _ V5 Hl) V6) as (_ & P3). destruct (P3 V3 V7) as (tau & a & A1 & A2). exists tau, a. split; [exact A1|]. split; [exact A2|].
    apply (P1 tau a A1).
  - right. exists N1, r, s1. split; [exact R1|]. apply (HW s2); auto.
Qed.

(** one terminal event *)
Lemma stops_or u : evs = [u] -> terminal u -> event_stops (E := E) n te y sv s eps h ->
  (forall l x x1 tk, chain (OT := Rops) sv tb s l x -> completes (OT := Rops) sv tb x x1 -> In tk t -> now x < tk -> now x1 <= te) ->
  forall G Lg Lt sg mu del z, 0 <= eps -> 0 < h -> visible_zero n y u G Lg sg mu del z (now s) (last t 0) eps h ->
  first_zero y G Lg Lt del z (now s) te eps h ->
  stops_at (E := E) sv s t u z ((Lg * eps + ev_tol + Lt * (h / 2 ^ 50)) / mu) \/
  exists N r s', (forall fuel, (N <= fuel)%nat -> run_events (E := E) sv fuel t evs s = (Ret r, s')) /\ W s'.
Proof.
  intros Ee Hu Hst Hup G Lg Lt sg mu del z Pe Ph (V1 & V2 & V3 & V4 & V5 & V6 & V7) (F1 & F2 & F3). destruct Hret as (N1 & r & s1 & R1). destruct Hrun as (N2 & rows & s2 & R2 & R3 & R4).
  pose proof (R1 (Nat.max N1 N2) ltac:(lia)) as Q1. pose proof (R2 (Nat.max N1 N2) ltac:(lia)) as Q2.
  destruct (events_R (E := E) m fuelc o rhs tb (Nat.max N1 N2) t t evs s r s1 Hr (or_introl (conj Ht eq_refl)) Hev Q1)
    as (l & x1 & H1 & H2 & H3 & H4 & H5 & H6 & H7 & H7a & H7b & H8 & [(A & z' & B1 & B2 & B3 & B4)|
      (l0 & tau & v & El & (u' & a & j & ts & ys & G1 & G2 & G3 & G4 & G5 & G6 & G7 & G8 & (ts0 & G9) & _) & _ & k & vs & w & K1 & K2 & K3 & K4)]).
  - right. fold sv in B1. rewrite Q2 in B1. injection B1 as B1 <-. exists N1, r, s1. split; [exact R1|]. destruct R3 as [R3|R3].
    + exfalso. pose proof (run_reaches _ t s rows s2 Ht Hn Q2 R3) as Hl. assert (Ns : now s1 = now s2) by (unfold now; congruence). assert (Hte : now s1 <= te) by (rewrite Ns; exact R4).
      pose proof (Hst _ t evs r s1 Ht Q1 Hte u G Lg ltac:(rewrite Ee; now left) Hu V1 sg mu del z V2 V4 V6 V3 V7) as Hc. pose proof (Rle_trans _ _ _ V5 Hl) as Hl2. lra.
    + apply (HW s2); congruence.
  - left. assert (Hte : now s1 <= te).
    { destruct K4 as (tk & K4 & K5). subst l. apply chain_split in H1 as (x & C1 & C2). inversion C2 as [|? ? ? ? C3 C4]; subst. inversion C4; subst. assert (Ex : x = last l0 s) by (eapply PStep.chain_last; exact C1).
      replace (now s1) with (now x1) by (unfold now; now rewrite H3). apply (Hup l0 x x1 tk); auto; [eapply nth_error_In; eauto|]. rewrite Ex. exact K5. }
    exists N1, r, s1. rewrite <- Ee. split; [exact R1|]. rewrite Ht in K3. exists (combine (firstn k t) vs), tau, v. split; [exact K3|].
    assert (Ej : j = 0%nat /\ u' = u). { rewrite Ee in G1. destruct j as [|[|j]]; try discriminate. injection G1 as <-. auto. } destruct Ej as (-> & ->).
    destruct (H8 0%nat u ltac:(rewrite Ee; reflexivity)) as (bs & ts' & ys' & T1 & T2 & [L1 _ _ _ _]). rewrite G7 in T1. injection T1 as <-. rewrite G8 in T2. injection T2 as <-.
    assert (Rp : exists b, reports r 0 tau b).
    { assert (Hi : nth_error ts (length ts0) = Some tau) by (rewrite G9, nth_error_app2, Nat.sub_diag by lia; reflexivity).
      destruct (nth_error ys (length ts0)) as [b|] eqn:eb; [exists b, ts, ys, (length ts0); auto|]. exfalso. apply nth_error_None in eb. rewrite <- L1, G9, app_length in eb. cbn in eb. lia. }
    destruct Rp as (b & Rp).
    destruct (Het _ t t evs r s1 (or_introl (conj Ht eq_refl)) Q1 Hte 0%nat u G Lg ltac:(rewrite Ee; reflexivity) V1) as (P1 & _).
    destruct (P1 tau b Rp) as (T3 & _ & T4).
    assert (Hphi : Rabs (G tau (y tau)) <= Lg * eps + ev_tol + Lt * (h / 2 ^ 50)) by (apply T4; [exact F1|]; intros t1 t2 X1 X2; apply F2; lra).
    pose proof (Hst _ t evs r s1 Ht Q1 Hte u G Lg ltac:(rewrite Ee; now left) Hu V1 sg mu del z V2 V4 V6 V3 V7) as Hlt.
    assert (Hlo : z - del <= tau). { destruct (Rle_lt_dec (z - del) tau) as [X|X]; [exact X|]. specialize (F3 tau ltac:(lra)). lra. }
    apply (at_zero y G sg mu del z V2); auto.
    + assert (0 <= Lg * eps) by (apply Rmult_le_pos; [apply V1|exact Pe]). assert (0 < ev_tol) by (unfold ev_tol; lra).
      assert (0 < h / 2 ^ 50) by (apply Rdiv_lt_0_compat; [exact Ph|apply pow_lt; lra]). assert (0 <= Lt * (h / 2 ^ 50)) by (apply Rmult_le_pos; lra). lra.
    + lra.
Qed.
End A.
