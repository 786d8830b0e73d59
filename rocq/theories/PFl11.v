(** The fixed step Runge-Kutta classes in floating point: construction and run return,
    and every row is close to the solution. *)
From Coq Require Import List ZArith QArith Bool Arith Lia Reals Lra SpecFloat.
From Verif Require Import Base Scalar Vec MBuffer MZeros MSteps MApi MClasses Laws Spec SpecInst PStep PKeeps PCore PHist PBound PVecR PRun PRun3 SpecRK PRK PDim PInterp SpecMS PMS PMS5
  SpecConv PConv1 SpecConv3 SpecOrder PHi1 PHi2 PHi3 PHi4 PHi5 SpecFl PFl1 PFl2 PFl3 PFl4 PFl5 PFl6 PFl7 PFl8 PFl9 PFl10.
Import ListNotations.
Open Scope R_scope.

Lemma rk_classes_le m p : In (m, p) rk_classes -> (p <= 4)%nat.
Proof. cbn [rk_classes In]. intros [H|[H|[H|[H|[H|[]]]]]]; injection H as _ <-; lia. Qed.

Lemma C90_lemma rhs n L X F t0 te y : tame rhs n L X F -> t0 <= te -> Rabs t0 <= X -> Rabs te <= X ->
  Ck_solution 5 rhs n t0 (te + 1) y -> smooth_along rhs n t0 (te + 1) y -> (forall t, t0 <= t <= te + 1 -> within X (y t)) ->
  forall m p, In (m, p) rk_classes -> exists K, 0 < K /\
  forall prec emax pw (E : @Env (SFops_at prec emax pw)) eps rhsF h tF yF g,
    roomy prec emax X F eps -> computed prec emax pw rhsF rhs n X eps ->
    fin prec emax h -> 0 < val h -> K * (val h + eps / val h) <= 1 ->
    fin prec emax tF -> val tF = t0 -> Forall (fin prec emax) yF -> near eps (map val yF) (y t0) ->
    garbage_ok (m (SFops_at prec emax pw)) g ->
    exists s0, init_rk (m (SFops_at prec emax pw)) g rhsF tF yF (Some h) = Ret s0 /\
    forall fuelc o tb fuel cs s t,
    s = session (E := E) (solver_of (E := E) (m (SFops_at prec emax pw)) fuelc o rhsF tb) fuel cs s0 ->
    fin prec emax (now s) -> val (now s) <= te ->
    (forall x, fin prec emax x -> val x <= te -> @gt_ext (SFops_at prec emax pw) x tb = false) ->
    t <> [] -> Forall (fin prec emax) t -> is_sorted (OT := SFops_at prec emax pw) t = true ->
    (forall x, In x t -> val (buf_t0 (cache s)) <= val x <= te - 2 * val h) ->
    exists N rows s', (forall fuel', (N <= fuel')%nat ->
      run (E := E) (solver_of (E := E) (m (SFops_at prec emax pw)) fuelc o rhsF tb) fuel' t s = (Ret rows, s')) /\
      map fst rows = t /\
      Forall (fun r => Forall (fin prec emax) (snd r) /\ near (K * (val h ^ p + eps / val h)) (map val (snd r)) (y (val (fst r)))) rows.
Proof.
  intros HT Hte B0 B1 HC HJ HY m p Hm. pose proof (rk_classes_le m p Hm) as Hp4. destruct (rk_classes_tab m p Hm) as (A & B & C & Em & LA & LB & LC & SA & SB & SC & T).
  pose proof HT as (HL & _ & HF & _). assert (HX : 0 <= X) by (pose proof (Rabs_pos t0); lra).
  destruct (rk_step_hi rhs n L t0 (te + 1) y p _ _ _ HL ltac:(lra) HC HJ T) as (Ca & HCa & Hhi).
  assert (HL0 : 0 <= L) by apply HL.
  destruct (step_ap X F L n rhs HX HF HL0 HT A B C LA LB SA SB SC) as (C' & HC' & Hap).
  destruct (step_exists X F L n rhs HX HF HL0 HT A B C LA LC SA SC) as (Ck & HCk & Hex).
  destruct (taylor_facts 5 rhs n t0 (te + 1) y ltac:(lia) ltac:(lra) HC) as (D & Bd & HBd & D0 & DR & HDl & _ & HDt).
  pose proof (Kc_pos rhs n L X F t0 te HT Hte B0 Ca C' HCa HC') as PK.
  set (kk := KK X F t0 te Ca C'). set (kc := Kc X F t0 te Ca C') in *. set (G7 := (X + 8 * F + 20) ^ 7).
  assert (PG : 0 < G7) by (apply pow_lt; lra). assert (Pkk : 9 <= kk) by (unfold kk, KK; fold kc; lra). assert (PLk : 0 <= L * kc) by (apply Rmult_le_pos; lra).
  set (K := kk + 3 * Ck + 8 + 20 * G7 + (5 * kc + 1 + L * kc + 64 * Bd)).
  exists K. split; [unfold K; lra|].
  intros prec emax pw E eps rhsF h tF yF g Hr Hco Fh Hh HK Ft Et Fy Hy Hg. rewrite Em in *.
  assert (Hp1 : (1 <= p)%nat) by (destruct T as (? & _); lia).
  pose proof (eps_pos prec emax X F eps Hr) as Pe. assert (Pq : 0 < eps / val h) by (apply Rdiv_lt_0_compat; lra).
  assert (HK' : forall k, 0 <= k <= K -> k * (val h + eps / val h) <= 1) by (intros k Hk; eapply Rle_trans; [|exact HK]; apply Rmult_le_compat_r; lra).
  assert (HKK : KK X F t0 te Ca C' * (val h + eps / val h) <= 1) by (apply HK'; fold kk; unfold K; lra).
  pose proof (h_small rhs n L X F t0 te HT Hte B0 Ca C' HCa HC' prec emax eps h Hr Hh HKK) as Hh9.
  pose proof (h_F rhs n L X F t0 te HT Hte B0 Ca C' HCa HC' prec emax eps h Hr Hh HKK) as HhF.
  pose proof (X_eps rhs n L X F t0 te HT Hte B0 Ca C' HCa HC' prec emax eps h Hr Hh HKK) as HXe.
  pose proof (eps_q rhs n L X F t0 te HT Hte B0 Ca C' HCa HC' prec emax eps h Hr Hh HKK) as Heq.
  pose proof (hp_le rhs n L X F t0 te HT Hte B0 p Ca C' HCa HC' prec emax eps h Hr Hh HKK Hp1) as Hhp.
  pose proof (Kc_eta rhs n L X F t0 te HT Hte B0 p Ca C' HCa HC' prec emax eps h Hr Hh HKK Hp1) as Hkc. fold kc in Hkc.
  pose proof (err_le rhs n L X F t0 te HT Hte B0 p Ca C' HCa HC' prec emax eps h Hr Hh HKK Hp1) as Herr. fold kc in Herr.
  set (q := eps / val h) in *. set (eta := val h ^ p + q) in *.
  assert (He8 : 8 * eps <= val h).
  { pose proof (HK' 8 ltac:(unfold K; lra)) as Q. replace eps with (q * val h) by (unfold q; field; lra).
    replace (8 * (q * val h)) with ((8 * q) * val h) by ring. rewrite <- (Rmult_1_l (val h)) at 2. apply Rmult_le_compat_r; lra. }
  assert (HGe : (X + 8 * F + 20) ^ 7 * 20 * q <= 1).
  { fold G7. pose proof (HK' (20 * G7) ltac:(unfold K; lra)) as Q. assert (0 <= 20 * G7 * val h) by (apply Rmult_le_pos; lra). lra. }
  assert (HCe : Ck * eps <= / 3).
  { pose proof (HK' (3 * Ck) ltac:(unfold K; lra)) as Q. assert (0 <= 3 * Ck * val h) by (apply Rmult_le_pos; lra). assert (Ck * eps <= Ck * q) by (apply Rmult_le_compat_l; lra). lra. }
  set (FT := SFops_at prec emax pw) in *. set (mm := @Erk FT (@litm FT A) (@lits FT B) (@lits FT C)) in *.
  set (I := fl_inv X F t0 te y A B C p Ca C' prec emax pw eps rhsF h).
  set (Er := kc * eta) in *. assert (Peta : 0 < eta) by (unfold eta; lra). assert (HEr : 0 <= Er <= / 3) by (split; [apply Rmult_le_pos; lra|exact Hkc]).
  assert (LAf : length (@litm FT A) = length A) by (unfold litm; apply map_length). assert (LCf : length (@lits FT C) = length C) by (unfold lits; apply map_length).
  assert (NA : @litm FT A <> []) by (intros e; rewrite e in LAf; cbn in LAf; lia).
  assert (Iok : forall x, I x -> good rhsF mm x /\ hstep x = h /\ valid_binary prec emax (now x) = true /\
    (fin prec emax (now x) -> t0 <= val (now x) /\ (val (now x) <= te -> Forall (fin prec emax) (state x) /\ near Er (map val (state x)) (y (val (now x)))))).
  { intros x (G & G1 & G2 & G3). split; [exact G|]. split; [exact G1|]. split; [exact G2|]. intros Fn. destruct (G3 Fn) as (T1 & T2). split; [exact T1|]. intros Hn.
    destruct (T2 Hn) as (T3 & T4). split; [exact T3|]. eapply near_mono; [|exact T4]. apply Herr. lra. }
  assert (Icore : forall fuelc o x x', I x -> core_of (E := E) mm fuelc o rhsF x = (Ret tt, x') -> I x' /\ exists y' f', cache x' = push (cache x) (@add FT (now x) h) y' f').
  { intros fuelc o x x' Ix H. split; [exact (fl_core rhs n L X F t0 te y HT Hte B0 B1 HC HY A B C p Ca C' HCa HC' Hhi Hap prec emax pw eps E rhsF h Hr Hco Fh Hh HKK Hp1 fuelc o x x' LC ltac:(lia) Ix H)|].
    destruct Ix as (((Wb & Ws) & _) & Hx & _). change (length (stages x) = length (@litm FT A)) in Ws. unfold mm in H. cbn [core_of] in H.
    apply core_erk_iff in H as (KS & y' & f' & _ & _ & ->); [|exact Ws|congruence|exact NA]. exists y', f'. exact (f_equal (fun z => push (cache x) (@add FT (now x) z) y' f') Hx). }
  assert (Istep : forall fuelc o x, I x -> fin prec emax (now x) -> val (now x) + 2 * val h <= te -> exists x', core_of (E := E) mm fuelc o rhsF x = (Ret tt, x')).
  { intros fuelc o x Ix Fn Hn. pose proof Ix as (G & Hx & Hv & Hi). destruct (Hi Fn) as (T1 & T2). destruct (T2 ltac:(lra)) as (T3 & T4).
    pose proof (good_last _ _ _ G) as Hl. pose proof (Herr (val (now x)) ltac:(lra)) as Be. pose proof (inX X t0 te Hte B0 B1 (val (now x)) ltac:(lra)) as Bt.
    assert (Ls : length (state x) = n). { destruct T4 as (Q & _). refine (eq_trans (eq_trans (eq_sym (map_length val (state x))) Q) (len_y rhs n t0 te y HC _ _)). lra. }
    assert (Ws : within (X + / 3) (map val (state x))). { eapply within_mono; [|eapply near_within; [exact T4|apply HY; lra]]. lra. }
    destruct (Hex prec emax eps pw rhsF Hr Hco HCe (now x) (state x) h (deriv x) Fn T3 Fh Ls ltac:(lra) Ws ltac:(lra) HhF Hl) as (KS & y' & Hst).
    destruct (gap rhs n L X F t0 te eps HT Hte B0 B1 prec emax h Hr Fh ltac:(lra) HXe He8 (now x) Fn ltac:(lra)) as (G1 & G2).
    destruct (fl_next rhs n L X F t0 te y HT Hte B0 B1 HC HY A B C p Ca C' HCa HC' Hhi Hap prec emax pw eps rhsF h Hr Hco Fh Hh HKK Hp1 x KS y' T3 Fn T1 ltac:(lra) T4 Hl Hst ltac:(lra)) as (N1 & N2).
    set (t' := SFadd prec emax (now x) h) in *. pose proof (inX X t0 te Hte B0 B1 (val t') ltac:(lra)) as Bt'. pose proof (Herr (val t') ltac:(lra)) as Be'.
    assert (Ly' : length y' = n). { destruct N2 as (Q & _). refine (eq_trans (eq_trans (eq_sym (map_length val y')) Q) (len_y rhs n t0 te y HC _ _)). lra. }
    destruct (Hco t' y' G1 N1 Ly' ltac:(lra)) as (k & gg & R1 & _). { eapply within_mono; [|eapply near_within; [exact N2|apply HY; lra]]. lra. }
    destruct G as ((_ & Wst) & _). change (length (stages x) = length (@litm FT A)) in Wst. unfold mm. cbn [core_of]. eexists. apply core_erk_iff; [exact Wst|congruence|exact NA|].
    exists KS, y', k. split; [exact (eq_ind_r (fun z => rk_step (OT := FT) rhsF _ _ _ _ _ _ z _ _) Hst Hx)|]. split; [exact (eq_ind_r (fun z => rhsF (@add FT (now x) z) y' = Ret k) R1 Hx)|reflexivity]. }
  assert (Icalm : forall x x', I x -> good rhsF mm x' -> cache x' = cache x -> hstep x' = hstep x -> I x').
  { intros x x' (G & G1 & G2 & G3) G' E1 E2. split; [exact G'|]. destruct x as [c1 h1 k1 i1], x' as [c2 h2 k2 i2]. cbn in E1, E2. subst c2 h2. exact (conj G1 (conj G2 G3)). }
  assert (Wy0 : within (X + 1) (map val yF)).
  { eapply within_mono; [|eapply near_within; [exact Hy|apply HY; lra]]. assert (0 <= eps * (X + 3) - eps * 1) by (rewrite <- Rmult_minus_distr_l; apply Rmult_le_pos; lra). lra. }
  assert (Ly0 : length yF = n). { destruct Hy as (Q & _). refine (eq_trans (eq_trans (eq_sym (map_length val yF)) Q) (len_y rhs n t0 te y HC _ _)). lra. }
  destruct (Hco tF yF Ft Fy Ly0 ltac:(rewrite Et; lra) Wy0) as (f0 & g0 & R1 & _).
  assert (Hi : exists s0, init_rk mm g rhsF tF yF (Some h) = Ret s0) by (unfold init_rk, init_base; rewrite R1; eexists; reflexivity).
  destruct Hi as (s0 & Hi). exists s0. split; [exact Hi|].
  assert (I0 : I s0) by (eapply (fl_init rhs n L X F t0 te y) with (tF := tF) (yF := yF); eauto).
  assert (W0 : fr t0 te Er y prec emax pw rhsF h I s0).
  { split; [exact I0|]. unfold init_rk in Hi. apply init_base_spec in Hi as (G & f & Hf & Hc & Hh0); auto. cbn [len_history mm repeat] in Hc.
    exists tF, tF, yF, yF, f, f. split; [exact Hc|]. intros _. split; [exact Ft|]. split; [lra|]. intros _. split; [exact Fy|].
    assert (Q3 : near Er (map val yF) (y (val tF))).
    { rewrite Et. eapply near_mono; [|exact Hy]. assert (K1 : 1 <= kc).
      { unfold kc, Kc, accp. pose proof (Dd_ge rhs n L X F t0 HT B0 Ca C' HCa HC') as DD. assert (P0 : 0 <= 2 * Ca * (te - t0 + 1)) by (apply Rmult_le_pos; lra). pose proof (exp_ge (2 * Ca * (te - t0 + 1))).
        assert (1 * 1 <= (te - t0 + 1) * (2 * Dd X F Ca C')) by (apply Rmult_le_compat; lra).
        assert (1 * 1 <= exp (2 * Ca * (te - t0 + 1)) * ((te - t0 + 1) * (2 * Dd X F Ca C'))) by (apply Rmult_le_compat; lra). lra. }
      apply Rle_trans with (1 * eta); [unfold eta; lra|]. apply Rmult_le_compat_r; lra. }
    split; [exact Q3|]. split; [exact Hf|]. now left. }
  intros fuelc o tb fuel cs s t -> Fn Hn Htb Hne Ftt Hs Hx.
  pose proof (fr_session rhs n L X F t0 te Er eps y HT Hte B0 B1 prec emax pw E rhsF h mm fuelc o tb I Hr Fh ltac:(lra) HXe He8 eq_refl Iok (Icore fuelc o) Icalm fuel cs s0 W0) as W1.
  destruct (run_fl rhs n L X F t0 te Bd Er eps y D HT Hte B0 B1 HC HY HBd D0 ltac:(intros; apply DR; lra) ltac:(intros; apply HDl; [lra|lia]) ltac:(intros; apply HDt; auto; first [lia|lra])
    prec emax pw E rhsF h mm fuelc o tb I Hr Hco Fh ltac:(lra) HhF HXe He8 HGe HEr eq_refl ltac:(reflexivity) Iok (Icore fuelc o) (Istep fuelc o) Htb _ t W1 Fn Hn Hne Ftt Hs Hx)
    as (N & rows & s' & Hrun & Hfst & Hrow).
  exists N, rows, s'. split; [exact Hrun|]. split; [exact Hfst|].
  eapply Forall_impl; [|exact Hrow]. intros r (Q1 & Q2). split; [exact Q1|]. eapply near_mono; [|exact Q2]. unfold Qe. fold G7. fold q.
  assert (Z1 : G7 * 20 * q <= 20 * G7 * eta). { replace (G7 * 20 * q) with (20 * G7 * q) by ring. apply Rmult_le_compat_l; [lra|]. unfold eta. lra. }
  assert (Z2 : val h ^ 4 <= val h ^ p). { replace 4%nat with (p + (4 - p))%nat by lia. rewrite pow_add. assert (val h ^ (4 - p) <= 1) by (rewrite <- (pow1 (4 - p)); apply pow_incr; lra).
    rewrite <- (Rmult_1_r (val h ^ p)) at 2. apply Rmult_le_compat_l; lra. }
  assert (Z3 : Bd * val h ^ 4 <= Bd * eta) by (apply Rmult_le_compat_l; [auto|unfold eta; lra]).
  assert (Z4 : eps <= eta) by (unfold eta; lra).
  assert (Z5 : 0 <= (kk + 3 * Ck + 8) * eta) by (apply Rmult_le_pos; lra).
  unfold K, Er. replace (L * (kc * eta)) with (L * kc * eta) by ring. lra.
Qed.
