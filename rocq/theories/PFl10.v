(** run in floating point: the two recorded rows, interpolation between them, the loop. *)
From Coq Require Import List ZArith QArith Bool Arith Lia Reals Lra SpecFloat.
From Verif Require Import Base Scalar Vec MBuffer MZeros MSteps MApi MClasses Laws Spec SpecInst PStep PKeeps PCore PHist PBound PVecR PRun PRun3 SpecRK PRK PDim PInterp SpecMS PMS PMS5
  SpecConv PConv1 SpecConv3 SpecOrder PHi1 PHi3 PHi5 SpecFl PFl1 PFl2 PFl4 PFl5 PFl6 PFl7 PFl8.
Import ListNotations.
Open Scope R_scope.

Global Instance SFops_at_ord prec emax pw : OrdLaws (SFops_at prec emax pw).
Proof. destruct (SFops_ord pw) as [L1 L2 L3 L4 L5 L6 L7 L8 L9]. constructor; [exact L1|exact L2|exact L3|exact L4|exact L5|exact L6|exact L7|exact L8|exact L9]. Qed.

Section R.
Variables (rhs : @rhs_t Rops) (n : nat) (L X F t0 te Bd Er eps : R) (y : R -> list R) (D : nat -> R -> list R).
Hypothesis HT : tame rhs n L X F.
Hypothesis Hte : t0 <= te.
Hypothesis B0 : Rabs t0 <= X.
Hypothesis B1 : Rabs te <= X.
Hypothesis HC : Ck_solution 5 rhs n t0 (te + 1) y.
Hypothesis HY : forall t, t0 <= t <= te + 1 -> within X (y t).
Hypothesis HB : 0 <= Bd.
Hypothesis D0 : forall t, D 0%nat t = y t.
Hypothesis DR : forall t, t0 <= t <= te -> rhs t (D 0%nat t) = Ret (D 1%nat t).
Hypothesis HDl : forall t j, t0 <= t <= te -> (j <= 4)%nat -> length (D j t) = n.
Hypothesis HDt : forall j m t x i, (j + m <= 4)%nat -> (i < n)%nat -> t0 <= t -> 0 <= x -> t + x <= te ->
  Rabs (cmp i (D j (t + x)) - tpoly (fun q => cmp i (D (j + q)%nat t)) m x) <= Bd * x ^ m.
Variables (prec emax : Z) (pw : spec_float -> spec_float -> spec_float).
Notation FT := (SFops_at prec emax pw).
Notation fin := (fin prec emax).
Variables (E : @Env FT) (rhsF : @rhs_t FT) (h : spec_float) (m : @meth FT) (fuelc : nat) (o : @options FT) (tb : @ext FT).
Variable I : @st FT -> Prop.
Hypothesis Hr : roomy prec emax X F eps.
Hypothesis Hco : computed prec emax pw rhsF rhs n X eps.
Hypothesis Fh : fin h.
Hypothesis Hh : 0 < val h <= / 9.
Hypothesis HhF : 4 * F * val h <= / 3.
Hypothesis HXe : eps * (X + 3) <= val h / 2.
Hypothesis He8 : 8 * eps <= val h.
Hypothesis HGe : (X + 8 * F + 20) ^ 7 * 20 * (eps / val h) <= 1.
Hypothesis HEr : 0 <= Er <= / 3.
Hypothesis Hm : len_history m = 2%nat.
Hypothesis Hfx : is_fixed m = true.
Hypothesis Hip : forall t s, interp_of (E := E) m rhsF t s = interp_default t s.
Hypothesis Iok : forall x, I x -> good rhsF m x /\ hstep x = h /\ valid_binary prec emax (now x) = true /\
  (fin (now x) -> t0 <= val (now x) /\ (val (now x) <= te -> Forall fin (state x) /\ near Er (map val (state x)) (y (val (now x))))).
Hypothesis Icore : forall x x', I x -> core_of (E := E) m fuelc o rhsF x = (Ret tt, x') -> I x' /\ exists y' f', cache x' = push (cache x) (@add FT (now x) h) y' f'.
Hypothesis Istep : forall x, I x -> fin (now x) -> val (now x) + 2 * val h <= te -> exists x', core_of (E := E) m fuelc o rhsF x = (Ret tt, x').
Hypothesis Icalm : forall x x', I x -> good rhsF m x' -> cache x' = cache x -> hstep x' = hstep x -> I x'.

Let Hp : (1 < prec)%Z := proj1 (proj1 Hr).
Let He : (prec < emax)%Z := proj2 (proj1 Hr).

Definition rows2 (x : @st FT) : Prop := exists ta tl ya yl fa fl, cache x = mkbuf [ta; tl] [ya; yl] [fa; fl] /\
  (fin tl -> fin ta /\ t0 <= val ta /\ (val tl <= te -> Forall fin ya /\ near Er (map val ya) (y (val ta)) /\ rhsF ta ya = Ret fa /\
    (val ta = val tl \/ val h / 2 <= val tl - val ta <= 2 * val h))).
Definition fr (x : @st FT) : Prop := I x /\ rows2 x.

Lemma gap (x : spec_float) : fin x -> t0 <= val x <= te -> fin (SFadd prec emax x h) /\ val h / 2 <= val (SFadd prec emax x h) - val x <= 2 * val h.
Proof.
  intros Fx Hx. pose proof (inX X t0 te Hte B0 B1 (val x) Hx) as Bx. pose proof (X_pos X t0 B0) as PX.
  destruct (fl_add prec emax Hp He x h Fx Fh) as (G1 & G2).
  { unfold big. pose proof Hr as (_ & Hb & _). assert (0 <= F) by apply HT. eapply Rle_trans; [apply Rabs_triang|]. rewrite (Rabs_pos_eq (val h)) by lra. lra. }
  split; [exact G1|].
  assert (G3 : Rabs (val (SFadd prec emax x h) - (val x + val h)) <= eps * (X + 3)).
  { eapply Rle_trans; [exact G2|]. pose proof Hr as (_ & _ & Hu). pose proof (uro_pos prec Hp). apply Rmult_le_compat; try lra.
    - pose proof (Rabs_pos (val x + val h)). lra.
    - assert (Rabs (val x + val h) <= Rabs (val x) + val h) by (eapply Rle_trans; [apply Rabs_triang|]; rewrite (Rabs_pos_eq (val h)) by lra; lra). lra. }
  unfold Rabs in G3. destruct (Rcase_abs (val (SFadd prec emax x h) - (val x + val h))); lra.
Qed.

Lemma fr_core x x' : fr x -> core_of (E := E) m fuelc o rhsF x = (Ret tt, x') -> fr x' /\ now x' = SFadd prec emax (now x) h /\ buf_t0 (cache x') = now x.
Proof.
  intros (Ix & ta & tl & ya & yl & fa & fl & Ec & Hc) H. destruct (Icore x x' Ix H) as (Ix' & y' & f' & Ec').
  assert (En : now x = tl) by (unfold now; rewrite Ec; reflexivity). assert (Es : state x = yl) by (unfold state; rewrite Ec; reflexivity).
  assert (Ef : deriv x = fl) by (unfold deriv; rewrite Ec; reflexivity).
  rewrite Ec in Ec'. cbn in Ec'. destruct (Iok x Ix) as (G & _ & Hv & Hi). pose proof (good_last _ _ _ G) as Hl. rewrite En, Es, Ef in *.
  split; [split; [exact Ix'|]|split; [unfold now; rewrite Ec'; reflexivity|rewrite Ec'; reflexivity]].
  exists tl, (SFadd prec emax tl h), yl, y', fl, f'. split; [exact Ec'|]. intros F1.
  assert (Fx : fin tl).
  { destruct tl as [s|s| |s mm ee] eqn:e2.
    - split; auto.
    - exfalso. revert F1. apply (add_nonfin prec emax); auto. intros (_ & []).
    - exfalso. revert F1. apply (add_nonfin prec emax); auto. intros (_ & []).
    - split; auto. }
  destruct (Hi Fx) as (T1 & T2). split; [exact Fx|]. split; [exact T1|]. intros T4.
  pose proof (fl_add_mono prec emax Hp He tl h Fx Fh ltac:(lra) F1) as T3. destruct (T2 ltac:(lra)) as (T5 & T6).
  split; [exact T5|]. split; [exact T6|]. split; [exact Hl|]. right. apply (gap tl Fx). lra.
Qed.

Lemma fr_calm x x' : fr x -> good rhsF m x' -> cache x' = cache x -> hstep x' = hstep x -> fr x'.
Proof. intros (Ix & Hx) G E1 E2. split; [exact (Icalm x x' Ix G E1 E2)|]. unfold rows2 in *. now rewrite E1. Qed.

Lemma fr_session fuel cs x : fr x -> fr (session (E := E) (solver_of (E := E) m fuelc o rhsF tb) fuel cs x).
Proof.
  apply session_inv.
  - intros b z _ _ Hx. cbn [s_core solver_of]. destruct (core_of m fuelc o rhsF z) as [r z'] eqn:e. cbn [snd].
    destruct r as [[]| |]; [eapply fr_core; eauto| |].
    all: destruct (Iok z (proj1 Hx)) as (G & _); pose proof e as e'; apply core_of_ok in e'; [|apply wf_stages; apply G].
    all: destruct e' as (_ & _ & E1 & E2); specialize (E1 Hfx).
    all: pose proof (good_core (OT := FT) (E := E) rhsF m fuelc o z G) as G'; rewrite e in G'; eapply fr_calm; eauto.
  - intros t z Hx. destruct (Iok z (proj1 Hx)) as (G & _). pose proof (good_interp (OT := FT) (E := E) rhsF m t z G) as G'. cbn [s_interp solver_of] in *.
    destruct (interp_of m rhsF t z) as [r z'] eqn:e. apply interp_of_ok in e as (E2 & E1 & _). eapply fr_calm; eauto.
Qed.

(** the value of the interpolant between the two rows *)
Definition Qe : R := (X + 8 * F + 20) ^ 7 * 20 * (eps / val h) + (5 * Er + (eps + L * Er) + 64 * (Bd * val h ^ 4)).
Lemma d_near t u f : t0 <= val t <= te -> fin t -> Forall fin u -> near Er (map val u) (y (val t)) -> rhsF t u = Ret f ->
  Forall fin f /\ within (F + 1) (map val f) /\ near (eps + L * Er) (map val f) (D 1%nat (val t)).
Proof.
  intros Ht Ft Fu Hu Hf. pose proof (inX X t0 te Hte B0 B1 (val t) Ht) as Bx. pose proof (eps_pos prec emax X F eps Hr) as Pe.
  assert (Wu : within (X + 1) (map val u)). { eapply within_mono; [|eapply near_within; [exact Hu|apply HY; lra]]. lra. }
  assert (Ly : length (y (val t)) = n) by (rewrite <- D0; apply HDl; [lra|lia]).
  assert (Lu : length u = n) by (destruct Hu as (Q & _); rewrite map_length in Q; congruence).
  destruct (Hco t u Ft Fu Lu ltac:(lra) Wu) as (k & g & R1 & R2 & R3 & R4). rewrite Hf in R1. injection R1 as <-.
  destruct HT as ((HL0 & Hkd & HLp) & _ & _ & Hdef). destruct (Hdef (val t) (map val u)) as (g' & T1 & T2); auto; [lra|now rewrite map_length|]. rewrite R3 in T1. injection T1 as <-.
  split; [exact R2|]. split.
  - eapply within_mono; [|eapply near_within; [exact R4|exact T2]].
    assert (0 <= X) by (exact (X_pos X t0 B0)). assert (0 <= eps * (X + 3) - eps * 1) by (rewrite <- Rmult_minus_distr_l; apply Rmult_le_pos; lra). lra.
  - eapply near_trans; [exact R4|]. eapply HLp; [exact (eq_trans (map_length val u) Lu)|exact Ly|exact Hu|exact R3|]. rewrite <- D0. apply DR. lra.
Qed.
Lemma Qe_ge : Er <= Qe /\ 0 <= Qe.
Proof.
  pose proof (eps_pos prec emax X F eps Hr) as Pe. assert (0 <= X) by (exact (X_pos X t0 B0)). assert (0 <= F) by apply HT. assert (0 <= L) by apply HT.
  assert (0 < (X + 8 * F + 20) ^ 7) by (apply pow_lt; lra). assert (0 < eps / val h) by (apply Rdiv_lt_0_compat; lra).
  assert (0 <= (X + 8 * F + 20) ^ 7 * 20 * (eps / val h)) by (apply Rmult_le_pos; lra). assert (0 <= L * Er) by (apply Rmult_le_pos; lra).
  assert (0 <= Bd * val h ^ 4) by (apply Rmult_le_pos; auto; apply pow_le; lra). unfold Qe. lra.
Qed.
Lemma fr_interp x t : fr x -> fin (now x) -> val (now x) <= te -> fin t -> val (buf_t0 (cache x)) <= val t <= val (now x) ->
  exists a, interp_of (E := E) m rhsF t x = (Ret a, x) /\ Forall fin (deref (cache x) a) /\ near Qe (map val (deref (cache x) a)) (y (val t)).
Proof.
  intros (Ix & ta & tl & ya & yl & fa & fl & Ec & Hc) Fn Hn Ft Ht. rewrite Hip. unfold interp_default, hermite. rewrite Ec.
  assert (En : now x = tl) by (unfold now; rewrite Ec; reflexivity). assert (Es : state x = yl) by (unfold state; rewrite Ec; reflexivity).
  assert (Ef : deriv x = fl) by (unfold deriv; rewrite Ec; reflexivity).
  destruct (Iok x Ix) as (G & _ & Hv & Hi). pose proof (good_last _ _ _ G) as Hl. rewrite En, Es, Ef in *. rewrite Ec in Ht.
  destruct (Hc Fn) as (Fa & Ta & Hc'). destruct (Hc' Hn) as (Fya & Nya & Hfa & Hgap). clear Hc Hc'. destruct (Hi Fn) as (Tl & Hi'). destruct (Hi' Hn) as (Fyl & Nyl). clear Hi Hi'.
  unfold buf_t0, buf_y0, buf_f0, buf_t, buf_y, buf_f in *. cbn [ts ys fs hd last] in *.
  pose proof Qe_ge as (Q1 & Q0). pose proof (eps_pos prec emax X F eps Hr) as Pe. assert (PX : 0 <= X) by (exact (X_pos X t0 B0)). assert (PF : 0 <= F) by apply HT. assert (PL : 0 <= L) by apply HT.
  change (@eqb FT t ta) with (SFeqb t ta). destruct (SFeqb t ta) eqn:e.
  { exists (CacheRow 0). apply (fl_eqb prec emax) in e; auto. rewrite e. split; [reflexivity|]. split; [exact Fya|]. eapply near_mono; [exact Q1|exact Nya]. }
  assert (Hne : val t <> val ta) by (intros Q; apply (fl_eqb prec emax) in Q; auto; congruence).
  assert (Hg : val h / 2 <= val tl - val ta <= 2 * val h) by (destruct Hgap as [Q|Q]; [lra|exact Q]). clear Hgap.
  destruct (quot_ap prec emax X F eps (val h) t ta tl Hr PX PF Ft Fa Fn ltac:(lra) He8 ltac:(lra) ltac:(lra)) as (Fd & Nd & Ad & Fx & Ax).
  cbn zeta in *. change (@sub FT) with (SFsub prec emax). change (@div FT) with (SFdiv prec emax) in *.
  set (d := SFsub prec emax tl ta) in *. set (xq := SFdiv prec emax (SFsub prec emax t ta) d) in *.
  assert (Ez : @eqb FT d (@zero FT) = false). { destruct (@eqb FT d (@zero FT)) eqn:e2; auto. apply (eqb_zero prec emax pw) in e2; auto. contradiction. }
  unfold sdiv. refine (ex_intro _ (Own (@hermV FT xq d ya yl fa fl)) _). split; [rewrite Ez, andb_false_r; reflexivity|]. cbn [deref].
  (* the float computation *)
  set (q := eps / val h) in *.
  assert (Pq : 0 < q) by (apply Rdiv_lt_0_compat; lra).
  assert (eqq : eps <= q). { unfold q. replace eps with (eps / val h * val h) at 1 by (field; lra). rewrite <- (Rmult_1_r (eps / val h)) at 2. apply Rmult_le_compat_l; [unfold q in Pq|]; lra. }
  assert (Hr' : roomy prec emax X F q) by (destruct Hr as (U1 & U2 & U3); split; [exact U1|split; [exact U2|lra]]).
  destruct (d_near ta ya fa ltac:(lra) Fa Fya Nya Hfa) as (Ffa & Wfa & Nfa). destruct (d_near tl yl fl ltac:(lra) Fn Fyl Nyl Hl) as (Ffl & Wfl & Nfl).
  assert (Rx : 0 <= (val t - val ta) / (val tl - val ta) <= 1).
  { split; [apply Rmult_le_pos; [lra|left; apply Rinv_0_lt_compat; lra]|]. apply (Rmult_le_reg_r (val tl - val ta)); [lra|]. unfold Rdiv. rewrite Rmult_assoc, Rinv_l by lra. lra. }
  assert (Wya : within (X + 1) (map val ya)). { eapply within_mono; [|eapply near_within; [exact Nya|apply HY; lra]]. lra. }
  assert (Wdy : within 1 (@vsub Rops (map val yl) (map val ya))).
  { assert (Nn : near (Er + F * Rabs (val tl - val ta) + Er) (map val yl) (map val ya)).
    { eapply near_trans; [eapply near_trans; [exact Nyl|eapply (sol_lip rhs n L X F t0 (te + 1) y HT HC HY (inX1 X t0 te Hte B0 B1)); lra]|].
      destruct Nya as (Z1 & Z2). split; [symmetry; exact Z1|]. intros i Hi. rewrite Rabs_minus_sym. apply Z2. now rewrite Z1. }
    rewrite (Rabs_pos_eq (val tl - val ta)) in Nn by lra.
    assert (F * (val tl - val ta) <= F * (2 * val h)) by (apply Rmult_le_compat_l; lra).
    destruct Nn as (Z1 & Z2). unfold within. rewrite Forall_forall. intros z Hz. destruct (In_nth _ _ 0 Hz) as (i & Hi & <-).
    assert (Lv : length (@vsub Rops (map val yl) (map val ya)) = length (map val ya)) by (apply vsub_len; [exact Z1|reflexivity]).
    assert (Hi2 : (i < length (map val yl))%nat) by (rewrite Z1, <- Lv; exact Hi).
    specialize (Z2 i Hi2).
    assert (Ev : @eq R (cmp i (@vsub Rops (map val yl) (map val ya))) (cmp i (map val yl) - cmp i (map val ya))) by (apply (vsub_cmp (length (map val ya))); [exact Z1|reflexivity|rewrite <- Z1; exact Hi2]).
    refine (eq_ind_r (fun w => Rabs w <= 1) _ Ev). lra. }
  assert (Ad' : ap prec emax q 20 d (val tl - val ta)) by (split; [exact Fd|eapply Rle_trans; [exact Ad|lra]]).
  pose proof (hermV_ap prec emax X F q pw PX PF Hr' 20 xq ((val t - val ta) / (val tl - val ta)) d (val tl - val ta) ya yl fa fl ltac:(lra)
     HGe (conj Fx Ax) Rx Ad' ltac:(lra) Fya Fyl Ffa Ffl Wya Wdy Wfa Wfl) as V.
  split; [eapply vap_fin; exact V|].
  pose proof (hermV_near n t0 te Bd y D HB D0 HDl HDt (val ta) (val tl) (val t) _ _ _ _ Er (eps + L * Er) Ta ltac:(lra) Hn ltac:(lra) Nya Nyl Nfa Nfl) as N2.
  eapply near_mono; [|exact (near_trans _ _ _ _ _ (vap_near _ _ _ _ _ _ V) N2)]. unfold Qe. fold q. apply Rplus_le_compat_l.
  assert (P1 : 0 <= eps + L * Er) by (assert (0 <= L * Er) by (apply Rmult_le_pos; lra); lra).
  assert ((val tl - val ta) * (eps + L * Er) <= 1 * (eps + L * Er)) by (apply Rmult_le_compat_r; lra).
  assert (P4 : (val tl - val ta) ^ 4 <= (2 * val h) ^ 4) by (apply pow_incr; lra). replace ((2 * val h) ^ 4) with (16 * val h ^ 4) in P4 by ring.
  assert (Bd * (val tl - val ta) ^ 4 <= Bd * (16 * val h ^ 4)) by (apply Rmult_le_compat_l; lra). lra.
Qed.

Hypothesis Htb : forall x, fin x -> val x <= te -> @gt_ext FT x tb = false.
Notation sv := (solver_of (E := E) m fuelc o rhsF tb).

Lemma run_until_fl (ti : spec_float) k : fin ti -> val ti <= te - 2 * val h -> forall s, fr s -> fin (now s) -> val (now s) <= te -> val ti - val (now s) < INR k * (val h / 2) ->
  exists s', (forall fuel, (k <= fuel)%nat -> run_until sv fuel ti s = (Ret true, s')) /\ fr s' /\ fin (now s') /\ val (now s') <= te /\
    val ti <= val (now s') /\ (s' = s \/ val (buf_t0 (cache s')) <= val ti).
Proof.
  intros Fi Hti. induction k as [|k IH]; intros s Is Fn Hn Hk.
  - cbn in Hk. exists s. assert (K : @ltb FT (buf_t (cache s)) ti = false) by (apply (fl_ltb_false prec emax); auto; unfold now in Hk; lra).
    split; [intros [|fuel] _; cbn [run_until]; now rewrite K|]. split; [exact Is|]. split; [exact Fn|]. split; [exact Hn|]. split; [lra|now left].
  - destruct (@ltb FT (buf_t (cache s)) ti) eqn:K.
    2:{ exists s. split; [intros [|fuel] _; cbn [run_until]; now rewrite K|]. split; [exact Is|]. split; [exact Fn|]. split; [exact Hn|]. apply (fl_ltb_false prec emax) in K; auto. }
    apply (fl_ltb prec emax) in K as K'; auto. change (val (now s) < val ti) in K'.
    destruct (Iok s (proj1 Is)) as (_ & Eh & _ & Hi). destruct (Hi Fn) as (T1 & _).
    destruct (gap (now s) Fn ltac:(lra)) as (G1 & G2). destruct (Istep s (proj1 Is) Fn ltac:(lra)) as (s1 & Hc).
    destruct (fr_core s s1 Is Hc) as (I1 & N1 & W1).
    destruct (step_cases sv (s_bound sv) s) as [[Hw He'] | [Hw He']].
    + exfalso. unfold would_pass in Hw. rewrite Eh in Hw. cbn [s_bound solver_of] in Hw. pose proof (Htb (SFadd prec emax (now s) h) G1 ltac:(lra)) as Q. change (@gt_ext FT (SFadd prec emax (now s) h) tb = true) in Hw. congruence.
    + change (s_core sv s) with (core_of (E := E) m fuelc o rhsF s) in He'. rewrite Hc in He'. rewrite S_INR in Hk.
      destruct (IH s1 I1) as (s' & H1 & H2 & H3 & H4 & H5 & H6); rewrite ?N1; auto; [lra|lra|].
      exists s'. split; [intros [|fuel] Hfu; [lia|]; cbn [run_until]; rewrite K; unfold bind; rewrite He'; apply H1; lia|].
      split; [exact H2|]. split; [exact H3|]. split; [exact H4|]. split; [exact H5|]. right. destruct H6 as [->|H6]; [rewrite W1; lra|exact H6].
Qed.

Definition row_ok (r : spec_float * list spec_float) : Prop := Forall fin (snd r) /\ near Qe (map val (snd r)) (y (val (fst r))).
Lemma enough (d : R) : exists k, d < INR k * (val h / 2).
Proof.
  destruct (archimed (d / (val h / 2))) as (A1 & _). exists (Z.to_nat (up (d / (val h / 2)))).
  assert (d / (val h / 2) < INR (Z.to_nat (up (d / (val h / 2))))).
  { eapply Rlt_le_trans; [exact A1|]. rewrite INR_IZR_INZ. apply IZR_le. lia. }
  replace d with (d / (val h / 2) * (val h / 2)) at 1 by (field; lra). apply Rmult_lt_compat_r; lra.
Qed.
Lemma run_eval_fl (t : list spec_float) : forall s, fr s -> fin (now s) -> val (now s) <= te -> Forall fin t -> is_sorted (OT := FT) t = true ->
  (forall x, In x t -> val (buf_t0 (cache s)) <= val x <= te - 2 * val h) ->
  exists N vs s', (forall fuel, (N <= fuel)%nat -> run_eval_ sv fuel t s = (Ret vs, s')) /\ fr s' /\ length vs = length t /\ Forall row_ok (combine t vs).
Proof.
  induction t as [|ti t IH]; intros s Is Fn Hn Ft Hs Hx.
  - exists 0%nat, [], s. split; [reflexivity|]. split; [exact Is|]. split; [reflexivity|constructor].
  - inversion Ft as [|? ? F1 F2]; subst. destruct (enough (val ti - val (now s))) as (k & Hk). destruct (Hx ti (or_introl eq_refl)) as (R1 & R2).
    destruct (run_until_fl ti k F1 R2 s Is Fn Hn Hk) as (s1 & Hru & I1 & Fn1 & Hn1 & Hti & Q).
    assert (W1 : val (buf_t0 (cache s1)) <= val ti) by (destruct Q as [->|Q]; assumption).
    destruct (fr_interp s1 ti I1 Fn1 Hn1 F1 (conj W1 Hti)) as (a & Hi & Fa & Na).
    destruct (sorted_cons _ _ Hs) as (Hs1 & Hs2). rewrite Forall_forall in Hs2.
    destruct (IH s1 I1 Fn1 Hn1 F2 Hs1) as (N & vs & s' & H & I' & Hl & Hok).
    { intros x Hxt. split; [|apply Hx; now right]. apply Rle_trans with (val ti); [exact W1|]. specialize (Hs2 x Hxt).
      rewrite Forall_forall in F2. apply (fl_leb prec emax) in Hs2; auto. }
    exists (max N k), (deref (cache s1) a :: vs), s'. split; [|split; [exact I'|split; [cbn; lia|]]].
    + intros fuel Hfu. cbn [run_eval_]. unfold bind. rewrite Hru by lia. unfold interp_copy, bind.
      change (s_interp sv ti s1) with (interp_of (E := E) m rhsF ti s1). rewrite Hi. cbn [get ret]. rewrite H by lia. reflexivity.
    + cbn [combine]. constructor; [|exact Hok]. split; [exact Fa|exact Na].
Qed.
Lemma fr_t0 s : fr s -> fin (now s) -> fin (buf_t0 (cache s)).
Proof.
  intros (Ix & ta & tl & ya & yl & fa & fl & Ec & Hc) Fn. assert (En : now s = tl) by (unfold now; rewrite Ec; reflexivity).
  rewrite En in Fn. destruct (Hc Fn) as (Fa & _). rewrite Ec. exact Fa.
Qed.
Lemma run_fl s (t : list spec_float) : fr s -> fin (now s) -> val (now s) <= te -> t <> [] -> Forall fin t -> is_sorted (OT := FT) t = true ->
  (forall x, In x t -> val (buf_t0 (cache s)) <= val x <= te - 2 * val h) ->
  exists N rows s', (forall fuel, (N <= fuel)%nat -> run (E := E) sv fuel t s = (Ret rows, s')) /\ map fst rows = t /\ Forall row_ok rows.
Proof.
  intros Is Fn Hn Ht Ft Hs Hx. destruct t as [|ta tr]; [congruence|].
  destruct (run_eval_fl (ta :: tr) s Is Fn Hn Ft Hs Hx) as (N & vs & s' & H & I' & Hl & Hok).
  assert (Nm : forall x, fin x -> num (O := FT) x) by (intros x Fx; apply (fl_leb prec emax); auto; lra).
  exists N, (combine (ta :: tr) vs), s'. split; [|split; [|exact Hok]].
  - intros fuel Hfu. refine (eq_trans (run_as_eval m fuelc o rhsF tb fuel ta tr s Hs _ _ _) _).
    + apply Nm. now apply fr_t0.
    + apply (fl_ltb_false prec emax); [now inversion Ft|now apply fr_t0|]. apply Hx. now left.
    + assert (Hin : In (list_max (OT := FT) ta tr) (ta :: tr)). { apply (list_max_in (OT := FT)). eapply Forall_impl; [|exact Ft]. exact Nm. }
      cbn [ext_gt]. apply Htb; [|pose proof (Hx _ Hin); lra]. rewrite Forall_forall in Ft. now apply Ft.
    + rewrite H by lia. reflexivity.
  - clear - Hl. revert Hl. generalize (ta :: tr). intros l. revert vs.
    induction l as [|x l IH]; intros [|v vs] Hd; try discriminate; [reflexivity|]. cbn [combine map fst]. f_equal. apply IH. cbn in Hd. lia.
Qed.
End R.
