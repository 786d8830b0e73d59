(** C92: run_events of DOP853 with max_factor 1 finds the zeros or raises. *)
From Coq Require Import List ZArith QArith Bool Arith Lia Reals Lra.
From Verif Require Import Base Scalar Vec MBuffer MZeros MSteps MApi MDop853 MClasses Laws Spec SpecInst
  PStep PKeeps PClean PCore PHist PBound PVecR SpecRK SpecEv PTerm PRun PRun2 PRun3 PTop1 PTop2 PMS7 PEv1 PEv2 PEv5 PEv6 PEv9 PMS PDense SpecCtl SpecMS SpecOrder SpecInit SpecConv PConv1 SpecConv3 SpecLive SpecVar SpecVL SpecSolve SpecEvC PEvC1 SpecEvD PEvD1 PEvD2 PConv9 PVar3 PVL3 PSolve3 PSolve4 PSolve6 PSolve4 PSolve3 PCap PCap2 PDlv4 PDcv4 PDcv6 PEv12 .
Import ListNotations.
Open Scope R_scope.

Section A.
Context {E : @Env Rops}.
Variables (m : @meth Rops) (fuelc : nat) (o : @options Rops) (rhs : @rhs_t Rops) (tb : @ext Rops).
Let sv := solver_of (E := E) m fuelc o rhs tb.
Variables (n : nat) (te : R) (y : R -> list R) (eps h : R) (s : stR) (t : list R) (evs : list eventR).
Hypothesis Hr : ready (E := E) m fuelc o rhs tb s.
Hypothesis Ht : is_sorted (OT := Rops) t = true.
Hypothesis Hn : t <> [].
Hypothesis Hev : evs <> [].
Variables (N : nat) (r : @run_ret Rops) (s1 : stR).
Hypothesis R1 : forall fuel, (N <= fuel)%nat -> run_events (E := E) sv fuel t evs s = (Ret r, s1).
(** run need not return, but if it does it has all rows *)
Hypothesis Hrun : exists N2, forall fuel rows s2, (N2 <= fuel)%nat -> run (E := E) sv fuel t s = (Ret rows, s2) -> map fst rows = t /\ now s2 <= te.
Hypothesis Het : event_times (E := E) n te y sv s eps h.

Lemma finds_if : (forall u, In u evs -> ~ terminal u) -> forall j u G Lg sg mu del z, nth_error evs j = Some u ->
  visible_zero n y u G Lg sg mu del z (now s) (last t 0) eps h ->
  finds (E := E) sv s t evs j y z eps ((Lg * eps + ev_tol) / mu + h / 2 ^ 50).
Proof.
  intros Hnt j u G Lg sg mu del z Hj (V1 & V2 & V3 & V4 & V5 & V6 & V7). destruct Hrun as (N2 & R2).
  pose proof (R1 (Nat.max N N2) ltac:(lia)) as Q1.
  destruct (C46_ready (E := E) m fuelc o rhs tb (Nat.max N N2) t t evs s r s1 Hr (or_introl (conj Ht eq_refl)) Hev Hnt Q1) as (z' & Z1 & Z2 & Z3 & _).
  fold sv in Z1. destruct (R2 _ _ _ (Nat.le_max_r N N2) Z1) as (R3 & R4). assert (Ns : now s1 = now z') by (unfold now; now rewrite Z2).
  pose proof (run_reaches (E := E) m fuelc o rhs tb _ t s _ z' Ht Hn Z1 R3) as Hl. rewrite <- Ns in Hl, R4.
  exists N, r, s1. split; [exact R1|]. split; [exact R3|].
  destruct (Het _ t t evs r s1 (or_introl (conj Ht eq_refl)) Q1 R4 j u G Lg Hj V1) as (P1 & P2).
  destruct (P2 sg mu del z V2 V4 (Rle_trans _ _ _ V5 Hl) V6) as (_ & P3). destruct (P3 V3 V7) as (tau & a & A1 & A2). exists tau, a. split; [exact A1|]. split; [exact A2|].
  apply (P1 tau a A1).
Qed.
Lemma stops_if u : evs = [u] -> terminal u -> event_stops (E := E) n te y sv s eps h ->
  (forall l x x1 tk, chain (OT := Rops) sv tb s l x -> completes (OT := Rops) sv tb x x1 -> In tk t -> now x < tk -> now x1 <= te) ->
  forall G Lg Lt sg mu del z, 0 <= eps -> 0 < h -> visible_zero n y u G Lg sg mu del z (now s) (last t 0) eps h ->
  first_zero y G Lg Lt del z (now s) te eps h ->
  stops_at (E := E) sv s t u z ((Lg * eps + ev_tol + Lt * (h / 2 ^ 50)) / mu).
Proof.
  intros Ee Hu Hst Hup G Lg Lt sg mu del z Pe Ph (V1 & V2 & V3 & V4 & V5 & V6 & V7) (F1 & F2 & F3). destruct Hrun as (N2 & R2).
  pose proof (R1 (Nat.max N N2) ltac:(lia)) as Q1.
  destruct (events_R (E := E) m fuelc o rhs tb (Nat.max N N2) t t evs s r s1 Hr (or_introl (conj Ht eq_refl)) Hev Q1)
    as (l & x1 & H1 & H2 & H3 & H4 & H5 & H6 & H7 & H7a & H7b & H8 & [(A & z' & B1 & B2 & B3 & B4)|
      (l0 & tau & v & El & (u' & a & j & ts & ys & G1 & G2 & G3 & G4 & G5 & G6 & G7 & G8 & (ts0 & G9) & _) & _ & k & vs & w & K1 & K2 & K3 & K4)]).
  - exfalso. fold sv in B1. destruct (R2 _ _ _ (Nat.le_max_r N N2) B1) as (R3 & R4). pose proof (run_reaches (E := E) m fuelc o rhs tb _ t s _ z' Ht Hn B1 R3) as Hl.
    assert (Ns : now s1 = now z') by (unfold now; congruence). assert (Hte : now s1 <= te) by (rewrite Ns; exact R4).
    pose proof (Hst _ t evs r s1 Ht Q1 Hte u G Lg ltac:(rewrite Ee; now left) Hu V1 sg mu del z V2 V4 V6 V3 V7) as Hc. pose proof (Rle_trans _ _ _ V5 Hl) as Hl2. lra.
  - assert (Hte : now s1 <= te).
    { destruct K4 as (tk & K4 & K5). subst l. apply chain_split in H1 as (x & C1 & C2). inversion C2 as [|? ? ? ? C3 C4]; subst. inversion C4; subst. assert (Ex : x = last l0 s) by (eapply PStep.chain_last; exact C1).
      replace (now s1) with (now x1) by (unfold now; now rewrite H3). apply (Hup l0 x x1 tk); auto; [eapply nth_error_In; eauto|]. rewrite Ex. exact K5. }
    exists N, r, s1. rewrite <- Ee. split; [exact R1|]. rewrite Ht in K3. exists (combine (firstn k t) vs), tau, v. split; [exact K3|].
    assert (Ej : j = 0%nat /\ u' = u). { rewrite Ee in G1. destruct j as [|[|j]]; try discriminate. injection G1 as <-. auto. } destruct Ej as (-> & ->).
    destruct (H8 0%nat u ltac:(rewrite Ee; reflexivity)) as (bs & ts' & ys' & T1 & T2 & [L1 _ _ _ _]). rewrite G7 in T1. injection T1 as <-. rewrite G8 in T2. injection T2 as <-.
    assert (Rp : exists b, reports r 0 tau b).
    { assert (Hi : nth_error ts (length ts0) = Some tau) by (rewrite G9, nth_error_app2, Nat.sub_diag by lia; reflexivity).
      destruct (nth_error ys (length ts0)) as [b|] eqn:eb; [exists b, ts, ys, (length ts0); auto|]. exfalso. apply nth_error_None in eb. rewrite <- L1, G9, app_length in eb. cbn in eb. lia. }
    destruct Rp as (b & Rp).
    destruct (Het _ t t evs r s1 (or_introl (conj Ht eq_refl)) Q1 Hte 0%nat u G Lg ltac:(rewrite Ee; reflexivity) V1) as (P1 & _).
    destruct (P1 tau b Rp) as (T3 & _ & T4).
    assert (Hphi : Rabs (G tau (y tau)) <= Lg * eps + ev_tol + Lt * (h / 2 ^ 50)) by (apply T4; [exact F1|]; intros t1 t2 X1 X2; apply F2; lra).
    pose proof (Hst _ t evs r s1 Ht Q1 Hte u G Lg ltac:(rewrite Ee; now left) Hu V1 sg mu del z V2 V4 V6 V3 V7) as Hlt.
    assert (Hlo : z - del <= tau). { destruct (Rle_lt_dec (z - del) tau) as [X|X]; [exact X|]. specialize (F3 tau ltac:(lra)). lra. }
    apply (at_zero y G sg mu del z V2); auto.
    + assert (0 <= Lg * eps) by (apply Rmult_le_pos; [apply V1|exact Pe]). assert (0 < ev_tol) by (unfold ev_tol; lra).
      assert (0 < h / 2 ^ 50) by (apply Rdiv_lt_0_compat; [exact Ph|apply pow_lt; lra]). assert (0 <= Lt * (h / 2 ^ 50)) by (apply Rmult_le_pos; lra). lra.
    + lra.
Qed.
End A.

Lemma C92_events_lemma {E : @Env Rops} : forall rhs n L t0 te y S, @numba_mode Rops E = true -> lipschitz n L rhs -> defined_on n rhs -> t0 <= te -> Ck_solution 2 rhs n t0 te y -> (1 <= n)%nat -> 0 <= S ->
  (forall t f i, t0 <= t <= te -> rhs t (y t) = Ret f -> (i < n)%nat -> Rabs (cmp i f) <= S) ->
  exists K, 0 <= K /\ forall (o : @options Rops) h, tolerances o -> shrinking o -> max_factor o = 1 -> (forall x : R, max_step o = @Fin Rops x -> 0 < x) -> 0 < h <= 1 -> 200 * (h * L) <= 1 ->
  exists N, forall g sel, garbage_ok (@DOP853 Rops) g -> garbage_dim n g -> exists s0, init_var (@DOP853 Rops) g rhs t0 (y t0) o sel (Some h) = Ret s0 /\ now s0 = t0 /\
    forall fuelc fuel cs s t evs, let sv := solver_of (E := E) DOP853 fuelc o rhs (@Fin Rops te) in (N <= fuelc)%nat ->
    returns (E := E) sv fuel cs s0 s -> event_call s (te - h) t evs ->
    let eps := K * h + S * (te - t0) * exp (26 * L * (te - t0)) / 10 ^ 29 in
    (exists N' s', forall fuel', (N' <= fuel')%nat -> run_events (E := E) sv fuel' t evs s = (Raise ZeroDivisionError, s')) \/
    ((forall j u G Lg sg mu del z, (forall u, In u evs -> ~ terminal u) -> nth_error evs j = Some u ->
       visible_zero n y u G Lg sg mu del z (now s) (last t 0) eps h ->
       finds (E := E) sv s t evs j y z eps ((Lg * eps + ev_tol) / mu + h / 2 ^ 50)) /\
     (forall u G Lg Lt sg mu del z, evs = [u] -> terminal u -> visible_zero n y u G Lg sg mu del z (now s) (last t 0) eps h ->
       first_zero y G Lg Lt del z (now s) te eps h ->
       stops_at (E := E) sv s t u z ((Lg * eps + ev_tol + Lt * (h / 2 ^ 50)) / mu))).
Proof.
  intros rhs n L t0 te y S Hnm HL Hd Hte HC Hn HS HB. pose proof (Ck_C2 2 rhs n t0 te y (le_n 2) HC) as HC2.
  destruct (C84_dop_lemma (E := E) rhs n L t0 te y S HL Hte HC2 HS HB) as (K & PK & HK). exists K. split; [exact PK|]. intros o h Ho Hs Hmf Hmx Hh HhL.
  destruct (solution_bounds 2 rhs n L t0 te y ltac:(lia) HL Hd Hte HC) as (M & HM).
  pose proof (Ck_dim _ _ _ _ _ _ HC Hte) as Ly.
  destruct (C95_both (E := E) Hnm rhs n L M t0 te (@Fin Rops te) o (y t0) h HL Hd HM Hte Hn Ho Hs Ly (proj1 Hh)) as (hmin & N1 & Hmin & HN1).
  destruct (C49_dop_lemma (E := E) rhs n L M t0 te (@Fin Rops te) o (y t0) h Hnm HL Hd HM Hte Hn Ho Hs Ly (proj1 Hh)) as (N2 & HN2).
  exists (Nat.max N1 N2). intros g sel Hg Hgd. destruct (dop_init g rhs t0 (y t0) o sel h n Hg Hgd Ly (proj1 (proj2 HL)) (Hd _ _ Ly) Ho Hmx) as (s0 & I1 & I2 & I3 & I4).
  exists s0. split; [exact I1|]. split; [exact I4|]. intros fuelc fuel cs s t evs sv Hfu Hr (T1 & T2 & T3 & T4 & T5) eps.
  pose proof (shrinking_sane o Hs) as So. pose proof (var_good (@DOP853 Rops) g rhs t0 (y t0) o sel (Some h) s0 eq_refl Hg I1) as G0.
  assert (P0 : 0 <= hstep s0) by (rewrite I2; lra).
  assert (Hcap : steps_at_most h te sv s0) by (rewrite <- I2; apply (cap_steps (E := E)); auto; lra).
  destruct (HK h g o sel (Some h) s0 fuelc (@Fin Rops te) fuel cs s Hh HhL So Hg I1 P0 Hcap Hr) as (Het & Hst). fold eps sv in Het, Hst.
  assert (Pe : 0 <= eps).
  { unfold eps. assert (0 <= K * h) by (apply Rmult_le_pos; lra). assert (0 <= S * (te - t0) * exp (26 * L * (te - t0)) / 10 ^ 29); [|lra].
    apply Rle_mult_inv_pos; [|apply pow_lt; lra]. apply Rmult_le_pos; [apply Rmult_le_pos; lra|left; apply exp_pos]. }
  assert (Hb : built (OT := Rops) (E := E) rhs DOP853 s0) by exact (built_var (OT := Rops) (E := E) _ DOP853 g t0 (y t0) o sel (Some h) s0 eq_refl Hg I1).
  pose proof (returns_session _ _ _ _ _ Hr) as Es. symmetry in Es.
  assert (Rd : ready (E := E) DOP853 fuelc o rhs (@Fin Rops te) s).
  { right. split; [right; right; now left|]. split; [exact So|]. exists fuel, cs, s0. split; [exact Hb|]. split; [|split; [exact P0|exact Hr]].
    assert (Hsl : length (state s0) = n) by (rewrite I3; exact Ly). intros q v f Hv Hf. rewrite Hsl in *. exact (proj1 (proj2 HL) q v f Hv Hf). }
  assert (Re : reachable (E := E) rhs DOP853 fuelc o (@Fin Rops te) s) by (exists s0, fuel, cs; auto). pose proof (reachable_wf _ _ _ _ _ _ Re) as Ws.
  assert (Os : in_order s /\ 0 <= hstep s).
  { rewrite Es. apply (order_var (E := E) DOP853 fuelc o rhs (@Fin Rops te)); auto; [apply G0|]. apply (built_order (E := E) DOP853 fuelc o rhs (@Fin Rops te)); auto. }
  destruct (HN2 g sel (Some h) s0 fuelc fuel cs s Hg I1 I2 ltac:(lia) Hr t evs T1 T2) as (N' & s1 & [Q|(r & Q)]); auto.
  { intros x Hx. specialize (T3 x Hx). split; [lra|]. cbn. apply Rltb_false. lra. }
  { left. exists N', s1. exact Q. }
  right.
  assert (Hrun : exists N2, forall fuel rows s2, (N2 <= fuel)%nat -> run (E := E) sv fuel t s = (Ret rows, s2) -> map fst rows = t /\ now s2 <= te).
  { destruct (proj2 (HN1 g sel (Some h) s0 fuelc Hg I1 I2 ltac:(lia)) fuel cs s Hr t T1 T2) as (N3 & s3 & D).
    - intros x Hx. specialize (T3 x Hx). pose proof (two_first DOP853 s eq_refl Ws (proj1 Os)). split; [lra|]. cbn. apply Rltb_false. lra.
    - exists N3. intros f rows s2 Hf Hf2. fold sv in D. destruct D as [D|(rows' & D1 & D2 & D3)]; [rewrite D in Hf2 by exact Hf; discriminate|].
      rewrite D3 in Hf2 by exact Hf. injection Hf2 as <- <-.
      assert (Hl : now s < last t 0 <= te - h) by (apply T3; now apply last_in). split; [|apply (D2 te eq_refl); lra].
      destruct D1 as [D1|(W & x & Hx & Hlt)]; [exact D1|]. exfalso.
      apply (cap_not_stopped (E := E) rhs te (@DOP853 Rops) fuelc o s0 fuel cs N3 (CRun (OT := Rops) t) s s3 h x); auto; [lra|lra| |apply T3; exact Hx].
      cbn [exec_call]. fold sv. rewrite D3 by lia. reflexivity. }
  split.
  - intros j u G Lg sg mu del z Hnt Hj Hv. exact (finds_if (E := E) DOP853 fuelc o rhs (@Fin Rops te) n te y eps h s t evs Rd T2 T1 T4 N' r s1 Q Hrun Het Hnt j u G Lg sg mu del z Hj Hv).
  - intros u G Lg Lt sg mu del z Ee Hu Hv Hf.
    apply (stops_if (E := E) DOP853 fuelc o rhs (@Fin Rops te) n te y eps h s t evs Rd T2 T1 T4 N' r s1 Q Hrun Het u Ee Hu Hst) with (G := G) (Lg := Lg) (Lt := Lt) (sg := sg) (mu := mu) (del := del) (z := z); auto; [|lra].
    intros l x x1 tk Hch Hcc Hi1 Hlt.
    assert (Hch2 : chain (OT := Rops) sv (@Fin Rops te) s (l ++ [x1]) x1) by (eapply PStep.chain_app; [exact Hch|]; eapply chain_cons; [exact Hcc|apply chain_nil]).
    pose proof (chain_bound_var (E := E) DOP853 fuelc o rhs (@Fin Rops te) (@Fin Rops te) s _ x1 Ws eq_refl So (proj2 Os) Hch2) as Z. rewrite map_app in Z. apply Forall_app in Z as (_ & Z).
    inversion Z as [|? ? Q1 _]; subst. cbn in Q1. apply Rltb_false in Q1. exact Q1.
Qed.
