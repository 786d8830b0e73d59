(** C84: events of the numerical solution against events of the solution. *)
From Coq Require Import List ZArith Bool Arith Reals Lia Lra.
From Verif Require Import Base Scalar Vec MBuffer MZeros MSteps MApi MDop853 MClasses Laws Spec SpecInst SpecRK SpecDense SpecEv SpecConv SpecEvC
  PStep PBound PCore PHist PEv6 PEv9.
Import ListNotations.
Open Scope R_scope.

Lemma rabs_inv2 a b : Rabs a <= b -> - b <= a <= b.
Proof. intros H. unfold Rabs in H; destruct (Rcase_abs a); lra. Qed.
Lemma mul_pos_ineq mu a b : 0 < mu -> mu * a <= b -> a <= b / mu.
Proof. intros Hm H. apply Rmult_le_reg_l with mu; [exact Hm|]. unfold Rdiv. rewrite (Rmult_comm b), <- Rmult_assoc, Rinv_r by lra. lra. Qed.

Lemma subsub (a b : R) : a - (a - b) = b. Proof. ring. Qed.
Lemma addsub (a b : R) : a + (b - a) = b. Proof. ring. Qed.

Section Abs.
Context {E : @Env Rops}.
Notation now := (@now Rops).
Variables (m : @meth Rops) (fuelc : nat) (o : @options Rops) (rhs : @rhs_t Rops) (tb : @ext Rops).
Let sv := solver_of (E := E) m fuelc o rhs tb.
Variables (n : nat) (te : R) (y : R -> list R) (eps h : R) (I : stR -> Prop) (s : stR).
Hypothesis Hr : ready (E := E) m fuelc o rhs tb s.
Hypothesis Heps : 0 <= eps.
Hypothesis Hh : 0 < h.
Hypothesis I0 : I s.
Hypothesis Iy : forall x, I x -> now x <= te -> length (y (now x)) = n /\ near eps (state x) (y (now x)).
Hypothesis Ic : forall x x1, I x -> completes sv tb x x1 -> I x1 /\ now x <= now x1 /\ (now x1 <= te -> now x1 <= now x + h).
Hypothesis Id : forall x x1 tau v, I x -> completes sv tb x x1 -> now x1 <= te -> now x <= tau <= now x1 -> sol sv x1 tau = Ret v -> length (y tau) = n /\ near eps v (y tau).

Lemma chain_I x l x1 : chain sv tb x l x1 -> I x -> I x1 /\ now x <= now x1.
Proof.
  induction 1 as [|x x' l x1 Hc _ IH]; intros Hx; [split; [auto|lra]|].
  destruct (Ic x x' Hx Hc) as (I1 & L1 & _). destruct (IH I1) as (I2 & L2). split; [auto|]. lra.
Qed.
Lemma step_I x0 l x2 x x1 : chain sv tb x0 l x2 -> I x0 -> step_of x0 l x x1 ->
  I x /\ completes sv tb x x1 /\ now x0 <= now x /\ now x1 <= now x2.
Proof.
  intros Hc. revert x x1. induction Hc as [|q q' l q1 Hq Hch IH]; intros x x1 H0 Hs; [destruct Hs|].
  destruct (Ic q q' H0 Hq) as (I1 & L1 & _). destruct Hs as [[= <- <-]|Hs].
  - destruct (chain_I _ _ _ Hch I1) as (_ & L2). split; [exact H0|]. split; [exact Hq|]. split; [lra|exact L2].
  - destruct (IH x x1 I1 Hs) as (A & B & C & D). split; [exact A|]. split; [exact B|]. split; [lra|exact D].
Qed.

Section Ev.
Variables (u : eventR) (G : R -> list R -> R) (Lg : R).
Hypothesis HG : event_fun n Lg u G.
Let phi := fun t => G t (y t).
Let ep := Lg * eps.
Lemma ep_pos : 0 <= ep. Proof. apply Rmult_le_pos; [apply HG|exact Heps]. Qed.

Lemma value_near x v : I x -> now x <= te -> value u x v -> Rabs (v - phi (now x)) <= ep.
Proof.
  intros Hx Ht Hv. destruct (Iy x Hx Ht) as (Ly & Hn). destruct HG as (_ & G1 & G2).
  assert (Ls : length (state x) = n) by exact (eq_trans (proj1 Hn) Ly).
  unfold value in Hv. rewrite (G1 (now x) (state x) Ls) in Hv. injection Hv as <-. apply G2; auto.
Qed.
Lemma value_ex x : I x -> now x <= te -> exists v, value u x v.
Proof.
  intros Hx Ht. destruct (Iy x Hx Ht) as (Ly & Hn). destruct HG as (_ & G1 & G2). exists (G (now x) (state x)). apply G1. exact (eq_trans (proj1 Hn) Ly).
Qed.
Lemma along_near x x1 tau v : I x -> completes sv tb x x1 -> now x1 <= te -> now x <= tau <= now x1 -> along sv u x1 tau = Ret v -> Rabs (v - phi tau) <= ep.
Proof.
  intros Hx Hc Ht Htau Hv. unfold along in Hv. destruct (sol sv x1 tau) as [w|ex|] eqn:es; try discriminate.
  destruct (Id x x1 tau w Hx Hc Ht Htau es) as (Ly & Hn). destruct HG as (_ & G1 & G2).
  assert (Lw : length w = n) by exact (eq_trans (proj1 Hn) Ly).
  rewrite (G1 tau w Lw) in Hv. injection Hv as <-. apply G2; auto.
Qed.
(** what a located event says about the event function of the solution *)
Lemma located_near x x1 tau : I x -> completes sv tb x x1 -> now x1 <= te -> located sv u x x1 tau ->
  now x <= tau <= now x1 /\ (Rabs (phi tau) <= ep + ev_tol \/
    exists a b, now x <= a <= tau /\ tau <= b <= now x1 /\ b - a <= h / 2 ^ 50 /\ ((phi a <= ep /\ - ep <= phi b) \/ (- ep <= phi a /\ phi b <= ep))).
Proof.
  intros Hx Hc Ht Hl. destruct (Ic x x1 Hx Hc) as (I1 & L1 & L2). specialize (L2 Ht).
  assert (Ptol : 0 < ev_tol) by (unfold ev_tol; lra).
  destruct Hl as [(Hv & ->)|(_ & B1 & [(v & Hv & Hvt)|(a & b & va & vb & B2 & B3 & B4 & B5 & Ha & Hb & Hab)])].
  - split; [lra|]. left. pose proof (value_near x1 0 I1 Ht Hv) as Q. replace (0 - phi (now x1)) with (- phi (now x1)) in Q by ring. rewrite Rabs_Ropp in Q. lra.
  - split; [exact B1|]. left. pose proof (along_near x x1 tau v Hx Hc Ht B1 Hv) as Q.
    apply rabs_inv2 in Q. apply rabs_inv2 in Hvt. apply Rabs_le. lra.
  - split; [exact B1|]. right. exists a, b.
    pose proof (along_near x x1 a va Hx Hc Ht ltac:(lra) Ha) as Qa. pose proof (along_near x x1 b vb Hx Hc Ht ltac:(lra) Hb) as Qb.
    apply rabs_inv2 in Qa. apply rabs_inv2 in Qb.
    assert (H50 : 0 < / 2 ^ 50) by (apply Rinv_0_lt_compat; apply pow_lt; lra).
    split; [lra|]. split; [lra|]. split.
    + rewrite B5. unfold Rdiv. apply Rmult_le_compat_r; lra.
    + destruct (Rle_lt_dec va 0) as [Hn|Hp].
      * left. assert (0 <= vb). { destruct (Rle_lt_dec 0 vb) as [H1|H1]; auto. exfalso. assert (0 <= (- va) * (- vb)) by (apply Rmult_le_pos; lra). lra. } lra.
      * right. assert (vb <= 0). { destruct (Rle_lt_dec vb 0) as [H1|H1]; auto. exfalso. assert (0 <= va * vb) by (apply Rmult_le_pos; lra). lra. } lra.
Qed.
Lemma h50 : 0 < h / 2 ^ 50 <= h.
Proof.
  assert (0 < / 2 ^ 50) by (apply Rinv_0_lt_compat; apply pow_lt; lra). split; [now apply Rmult_lt_0_compat|].
  assert (/ 2 ^ 50 <= / 1) by (apply Rinv_le_contravar; [lra|]; apply pow_R1_Rle; lra). unfold Rdiv. rewrite <- (Rmult_1_r h) at 2. apply Rmult_le_compat_l; lra.
Qed.
Lemma located_lip Lt x x1 tau lo hi : I x -> completes sv tb x x1 -> now x1 <= te -> located sv u x x1 tau -> lo <= now x -> now x1 <= hi -> 0 <= Lt ->
  (forall t1 t2, lo <= t1 <= hi -> lo <= t2 <= hi -> Rabs (phi t1 - phi t2) <= Lt * Rabs (t1 - t2)) ->
  Rabs (phi tau) <= ep + ev_tol + Lt * (h / 2 ^ 50).
Proof.
  intros Hx Hc Ht Hl Hlo Hhi PL HLt. destruct (located_near x x1 tau Hx Hc Ht Hl) as (B1 & B2). destruct (Ic x x1 Hx Hc) as (_ & L1 & L2). specialize (L2 Ht).
  pose proof ep_pos as Pe. assert (Ptol : 0 < ev_tol) by (unfold ev_tol; lra). pose proof h50 as H50.
  assert (0 <= Lt * (h / 2 ^ 50)) by (apply Rmult_le_pos; lra).
  destruct B2 as [B2|(a & b & Ha & Hb & Hab & Hphi)]; [lra|].
  pose proof (HLt tau a ltac:(lra) ltac:(lra)) as Qa. pose proof (HLt tau b ltac:(lra) ltac:(lra)) as Qb.
  assert (Qa' : Lt * Rabs (tau - a) <= Lt * (h / 2 ^ 50)) by (apply Rmult_le_compat_l; [exact PL|]; rewrite Rabs_pos_eq; lra).
  assert (Qb' : Lt * Rabs (tau - b) <= Lt * (h / 2 ^ 50)) by (apply Rmult_le_compat_l; [exact PL|]; rewrite <- Rabs_Ropp; rewrite Rabs_pos_eq; lra).
  apply rabs_inv2 in Qa. apply rabs_inv2 in Qb. apply Rabs_le. destruct Hphi as [(H1 & H2)|(H1 & H2)]; lra.
Qed.

Section Zero.
Variables (sg mu del z : R).
Hypothesis HZ : simple_zero sg mu del phi z.
Hypothesis Hdel : 2 * h <= del.
Lemma below a : z - del <= a <= z + del -> - ep <= sg * phi a -> z - a <= ep / mu.
Proof.
  intros Ha Hp. destruct HZ as (_ & Pm & Q). pose proof ep_pos as Pe. apply mul_pos_ineq; [exact Pm|]. destruct (Rle_lt_dec z a) as [H1|H1].
  - assert (0 <= mu * (a - z)) by (apply Rmult_le_pos; lra). lra.
  - destruct (Q (z - a) ltac:(lra)) as (_ & Q2). replace (z - (z - a)) with a in Q2 by ring. lra.
Qed.
Lemma above b : z - del <= b <= z + del -> sg * phi b <= ep -> b - z <= ep / mu.
Proof.
  intros Ha Hp. destruct HZ as (_ & Pm & Q). pose proof ep_pos as Pe. apply mul_pos_ineq; [exact Pm|]. destruct (Rle_lt_dec b z) as [H1|H1].
  - assert (0 <= mu * (z - b)) by (apply Rmult_le_pos; lra). lra.
  - destruct (Q (b - z) ltac:(lra)) as (Q2 & _). replace (z + (b - z)) with b in Q2 by ring. lra.
Qed.
Lemma at_zero e a : 0 <= e -> z - del <= a <= z + del -> Rabs (phi a) <= e -> Rabs (a - z) <= e / mu.
Proof.
  intros Pe Ha Hp. apply rabs_inv2 in Hp. destruct HZ as (Hs & Pm & Q). apply mul_pos_ineq; [exact Pm|].
  destruct (Rle_lt_dec z a) as [H1|H1].
  - rewrite Rabs_pos_eq by lra. destruct (Q (a - z) ltac:(lra)) as (Q2 & _). replace (z + (a - z)) with a in Q2 by ring. destruct Hs as [-> | ->]; lra.
  - rewrite Rabs_left by lra. destruct (Q (z - a) ltac:(lra)) as (_ & Q2). replace (z - (z - a)) with a in Q2 by ring. destruct Hs as [-> | ->]; lra.
Qed.
Lemma located_zero x x1 tau : I x -> completes sv tb x x1 -> now x1 <= te -> located sv u x x1 tau ->
  z - del + h / 2 ^ 50 <= tau \/ z - del <= now x -> tau <= z + del - h / 2 ^ 50 \/ now x1 <= z + del -> Rabs (tau - z) <= (ep + ev_tol) / mu + h / 2 ^ 50.
Proof.
  intros Hx Hc Ht Hl Hd1 Hd2. destruct (located_near x x1 tau Hx Hc Ht Hl) as (B1 & B2). pose proof h50 as H50. pose proof ep_pos as Pe.
  assert (Ptol : 0 < ev_tol) by (unfold ev_tol; lra). pose proof HZ as (Hs & Pm & Q).
  destruct B2 as [B2|(a & b & Ha & Hb & Hab & Hphi)]; [pose proof (at_zero (ep + ev_tol) tau ltac:(lra) ltac:(lra) B2); lra|].
  assert (K : ep / mu <= (ep + ev_tol) / mu) by (unfold Rdiv; apply Rmult_le_compat_r; [left; now apply Rinv_0_lt_compat|lra]).
  assert (C : (sg * phi a <= ep /\ - ep <= sg * phi b) \/ (- ep <= sg * phi a /\ sg * phi b <= ep)).
  { destruct Hs as [-> | ->]; destruct Hphi as [(H1 & H2)|(H1 & H2)]; [left|right|right|left]; lra. }
  destruct C as [(H1 & H2)|(H1 & H2)].
  - pose proof (above a ltac:(lra) H1). pose proof (below b ltac:(lra) H2). apply Rabs_le. lra.
  - pose proof (below a ltac:(lra) H1). pose proof (above b ltac:(lra) H2). apply Rabs_le. lra.
Qed.

Hypothesis Hdir : 0 <= sg * ue_dir u.
Hypothesis Hsm : ep < mu * (del / 2).
Lemma sg_low x v : I x -> now x <= te -> value u x v -> z - del <= now x <= z - del / 2 -> sg * v < 0.
Proof.
  intros Hx Ht Hv Hn. pose proof (value_near x v Hx Ht Hv) as Q. apply rabs_inv2 in Q. destruct HZ as (Hs & Pm & Z).
  destruct (Z (z - now x) ltac:(lra)) as (_ & Z2). rewrite (subsub z (now x)) in Z2.
  assert (mu * (del / 2) <= mu * (z - now x)) by (apply Rmult_le_compat_l; lra). destruct Hs as [-> | ->]; lra.
Qed.
Lemma sg_high x v : I x -> now x <= te -> value u x v -> z + del / 2 <= now x <= z + del -> 0 < sg * v.
Proof.
  intros Hx Ht Hv Hn. pose proof (value_near x v Hx Ht Hv) as Q. apply rabs_inv2 in Q. destruct HZ as (Hs & Pm & Z).
  destruct (Z (now x - z) ltac:(lra)) as (Z2 & _). rewrite (addsub z (now x)) in Z2.
  assert (mu * (del / 2) <= mu * (now x - z)) by (apply Rmult_le_compat_l; lra). destruct Hs as [-> | ->]; lra.
Qed.
(** some step goes through the zero *)
Lemma crossing_step x l x2 : chain sv tb x l x2 -> I x -> now x2 <= te -> now x < z + del / 2 -> z + del <= now x2 ->
  (forall v, z - del <= now x -> value u x v -> sg * v < 0) ->
  exists q q1, step_of x l q q1 /\ z - del <= now q /\ now q1 < z + del /\ triggers u q q1.
Proof.
  induction 1 as [x|x x1 l x2 Hc Hch IH]; intros Hx Ht Hlt Hge Hv; [pose proof h50; lra|].
  destruct (Ic x x1 Hx Hc) as (I1 & L1 & L2). destruct (chain_I _ _ _ Hch I1) as (_ & L3). specialize (L2 ltac:(lra)).
  destruct (value_ex x Hx ltac:(lra)) as (v & Ev). destruct (value_ex x1 I1 ltac:(lra)) as (v1 & Ev1).
  assert (Dec : (z - del <= now x /\ 0 <= sg * v1) \/ (now x1 < z + del / 2 /\ (forall w, z - del <= now x1 -> value u x1 w -> sg * w < 0))).
  { destruct (Rle_lt_dec (now x1) (z - del / 2)) as [H1|H1].
    - right. split; [lra|]. intros w H2 Hw. apply (sg_low x1 w); auto; lra.
    - destruct (Rle_lt_dec 0 (sg * v1)) as [H2|H2]; [left; lra|]. right. split.
      + destruct (Rlt_le_dec (now x1) (z + del / 2)) as [H3|H3]; [exact H3|]. pose proof (sg_high x1 v1 I1 ltac:(lra) Ev1 ltac:(lra)). lra.
      + intros w _ Hw. unfold value in *. rewrite Ev1 in Hw. injection Hw as <-. exact H2. }
  destruct Dec as [(D1 & D2)|(D1 & D2)].
  - exists x, x1. split; [left; reflexivity|]. split; [exact D1|]. split; [lra|]. exists v, v1. split; [exact Ev|]. split; [exact Ev1|].
    pose proof (Hv v D1 Ev) as Hv'. clear IH. pose proof Hdir as Hdir'. destruct HZ as (Hs & _). destruct Hs as [e|e]; rewrite e in *; [left|right]; lra.
  - destruct (IH I1 Ht D1 Hge D2) as (q & q1 & Hs & Q). exists q, q1. split; [right; exact Hs|exact Q].
Qed.
Lemma start_low x : now x <= z - del -> I x -> now x <= te -> forall v, z - del <= now x -> value u x v -> sg * v < 0.
Proof. intros H1 Hx Ht v H2 Hv. apply (sg_low x v); auto. pose proof h50. lra. Qed.
End Zero.
End Ev.

Theorem events_found : event_times (E := E) n te y sv s eps h.
Proof.
  intros fuel t t' evs r s' Hord Hrun Hn j u G Lg Hj HG phi.
  assert (Hne : evs <> []) by (intros ->; destruct j; discriminate).
  destruct (C42_lemma (E := E) m fuelc o rhs tb fuel t t' evs s r s' Hr Hord Hne Hrun) as (l & s1 & Hch & Ec & Hall).
  assert (En : now s' = now s1) by (unfold Spec.now; now rewrite Ec). rewrite En in *. clear Ec. destruct (Hall j u Hj) as (Hf & Hb). clear Hall.
  pose proof h50 as H50.
  split.
  - intros tau a Hrep. destruct (Hb tau a Hrep) as (x & x1 & Hs & _ & Hl). destruct (step_I _ _ _ _ _ Hch I0 Hs) as (Ix & Hc & L1 & L2).
    assert (Ht1 : now x1 <= te) by lra. destruct (located_near u G Lg HG x x1 tau Ix Hc Ht1 Hl) as (B1 & _). split; [lra|]. split.
    + intros v ->. destruct (C43_lemma (E := E) m fuelc o rhs tb fuel t t' evs s r s' Hr Hord Hne Hrun) as (l' & s1' & Hch' & Ec' & Hall').
      destruct (Hall' j u tau (Own v) Hj Hrep) as (x' & x1' & Hs' & _ & Ht' & Ha & _). destruct (step_I _ _ _ _ _ Hch' I0 Hs') as (Ix' & Hc' & _ & L2').
      assert (En' : now s' = now s1') by (unfold Spec.now; now rewrite Ec'). apply (Id x' x1' tau v Ix' Hc'); auto.
      * lra.
      * unfold sol_arr in Ha. unfold sol. fold sv in Ha. destruct (s_interp sv tau x1') as [[a'|e|] w]; cbn [fst] in Ha; try discriminate. injection Ha as ->. reflexivity.
    + intros Lt PL HL. apply (located_lip u G Lg HG Lt x x1 tau (now s) (now s1)); auto.
  - intros sg mu del z HZ Hlo Hhi Hd. split.
    + intros tau a Hrep Hw. destruct (Hb tau a Hrep) as (x & x1 & Hs & _ & Hl). destruct (step_I _ _ _ _ _ Hch I0 Hs) as (Ix & Hc & L1 & L2).
      apply rabs_inv2 in Hw. apply (located_zero u G Lg HG sg mu del z HZ x x1 tau Ix Hc); auto; lra.
    + intros Hdir Hsm. destruct (crossing_step u G Lg HG sg mu del z HZ Hd Hdir Hsm s l s1 Hch I0 Hn ltac:(lra) Hhi) as (x & x1 & Hs & Q1 & Q2 & Ht).
      { apply (start_low u G Lg HG sg mu del z HZ Hd Hdir Hsm s Hlo I0). destruct (chain_I _ _ _ Hch I0). lra. }
      destruct (Hf x x1 Hs Ht) as (tau & a & Hrep & Hl). exists tau, a. split; [exact Hrep|].
      destruct (step_I _ _ _ _ _ Hch I0 Hs) as (Ix & Hc & L1 & L2).
      apply (located_zero u G Lg HG sg mu del z HZ x x1 tau Ix Hc); auto; lra.
Qed.
Theorem events_stop : event_stops (E := E) n te y sv s eps h.
Proof.
  intros fuel t evs r s' Hso Hrun Hn u G Lg Hu Htm HG sg mu del z HZ Hlo Hd Hdir Hsm.
  assert (Hne : evs <> []) by (intros ->; destruct Hu).
  destruct (C44_lemma (E := E) m fuelc o rhs tb fuel t evs s r s' Hr Hso Hne Hrun) as (l & s1 & Hch & Ec & _ & Hall).
  assert (En : now s' = now s1) by (unfold Spec.now; now rewrite Ec). rewrite En in *. clear Ec.
  destruct (Rlt_le_dec (now s1) (z + del)) as [H1|H1]; [exact H1|exfalso]. pose proof h50 as H50.
  destruct (crossing_step u G Lg HG sg mu del z HZ Hd Hdir Hsm s l s1 Hch I0 Hn ltac:(lra) H1) as (x & x1 & Hs & Q1 & Q2 & Ht).
  { apply (start_low u G Lg HG sg mu del z HZ Hd Hdir Hsm s Hlo I0). destruct (chain_I _ _ _ Hch I0). lra. }
  destruct Hall as [(Hno & _)|(x0 & u0 & tau & y0 & rows0 & w & tk & (l0 & El & _) & Hno & _)]; [exact (Hno u x x1 Hu Htm Hs Ht)|].
  subst l. assert (Hs' : step_of s l0 x x1 \/ x1 = s1).
  { clear -Hs. unfold step_of in *. revert s Hs. induction l0 as [|q l0 IH]; intros s Hs.
    - destruct Hs as [[= _ <-]|[]]. now right.
    - destruct Hs as [[= <- <-]|Hs]; [left; now left|]. destruct (IH q Hs) as [H|H]; [left; now right|now right]. }
  destruct Hs' as [Hs'|Hs']; [|subst x1; lra]. rewrite removelast_last in Hno. exact (Hno u x x1 Hu Htm Hs' Ht).
Qed.
End Abs.
