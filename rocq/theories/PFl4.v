(** Sessions in floating point. *)
From Coq Require Import List ZArith QArith Bool Arith Lia Reals Lra SpecFloat.
From Verif Require Import Base Scalar Vec MBuffer MZeros MSteps MApi MClasses Laws Spec SpecInst PStep PKeeps PCore PHist PBound PVecR SpecRK PRK PDim SpecMS PMS PMS5
  SpecConv PConv1 SpecConv3 SpecOrder PHi1 PHi2 PHi3 PHi4 SpecFl PFl1 PFl2 PFl3.
Import ListNotations.
Open Scope R_scope.

Ltac sm := repeat first [apply Forall_nil | apply Forall_cons]; unfold small; rewrite lit_R; cbn; apply Rabs_le; lra.

Lemma rk_classes_tab m p : In (m, p) rk_classes -> exists A B C, (forall OT, m OT = @Erk OT (@litm OT A) (@lits OT B) (@lits OT C)) /\
  (0 < length A <= 4)%nat /\ (length B <= 4)%nat /\ length C = length A /\ Forall (Forall small) A /\ Forall small B /\ Forall small C /\
  tab4 p (@litm Rops A) (@lits Rops B) (@lits Rops C).
Proof.
  intros H.
  assert (exists A B C, (forall OT, m OT = @Erk OT (@litm OT A) (@lits OT B) (@lits OT C)) /\
    (0 < length A <= 4)%nat /\ (length B <= 4)%nat /\ length C = length A /\ Forall (Forall small) A /\ Forall small B /\ Forall small C /\ In (m Rops, p) rk_table)
    as (A & B & C & H1 & H2 & H3 & H4 & H5 & H6 & H7 & H8).
  { cbn [rk_classes In] in H. destruct H as [H|[H|[H|[H|[H|[]]]]]]; injection H as <- <-.
    - exists [[0; 0]; [1 # 2; 0]]%Q, [0; 1]%Q, [0; 1 # 2]%Q. split; [reflexivity|]. split; [cbn; lia|]. split; [cbn; lia|]. split; [reflexivity|].
      split; [|split; [|split; [|cbn; auto]]]; sm.
    - exists [[0; 0; 0; 0]; [1 # 2; 0; 0; 0]; [0; 1; 0; 0]; [0; 0; 1; 0]]%Q, [1 # 6; 4 # 6; 0 # 6; 1 # 6]%Q, [0; 1 # 2; 1; 1]%Q.
      split; [reflexivity|]. split; [cbn; lia|]. split; [cbn; lia|]. split; [reflexivity|].
      split; [|split; [|split; [|cbn; auto]]]; sm.
    - exists [[0 # 3; 0 # 3; 0 # 3]; [1 # 3; 0 # 3; 0 # 3]; [0 # 3; 2 # 3; 0 # 3]]%Q, [1 # 4; 0 # 4; 3 # 4]%Q, [0 # 3; 1 # 3; 2 # 3]%Q.
      split; [reflexivity|]. split; [cbn; lia|]. split; [cbn; lia|]. split; [reflexivity|].
      split; [|split; [|split; [|cbn; auto]]]; sm.
    - exists [[0; 0; 0; 0]; [1 # 2; 0; 0; 0]; [0; 1 # 2; 0; 0]; [0; 0; 1; 0]]%Q, [1 # 6; 2 # 6; 2 # 6; 1 # 6]%Q, [0 # 2; 1 # 2; 1 # 2; 2 # 2]%Q.
      split; [reflexivity|]. split; [cbn; lia|]. split; [cbn; lia|]. split; [reflexivity|].
      split; [|split; [|split; [|cbn; auto]]]; sm.
    - exists [[0; 0; 0; 0]; [1 # 3; 0; 0; 0]; [-1 # 3; 1; 0; 0]; [1; -1; 1; 0]]%Q, [1 # 8; 3 # 8; 3 # 8; 1 # 8]%Q, [0 # 3; 1 # 3; 2 # 3; 3 # 3]%Q.
      split; [reflexivity|]. split; [cbn; lia|]. split; [cbn; lia|]. split; [reflexivity|].
      split; [|split; [|split; [|cbn; auto 6]]]; sm. }
  exists A, B, C. repeat (split; [assumption|]). destruct (rk_table_tab4 _ _ H8) as (A' & B' & C' & E1 & _ & _ & T). rewrite H1 in E1. injection E1 as <- <- <-. exact T.
Qed.

(** a solution does not move faster than F *)
Lemma sol_lip rhs n L X F t0 te y : tame rhs n L X F -> Ck_solution 5 rhs n t0 te y -> (forall t, t0 <= t <= te -> within X (y t)) ->
  (forall t, t0 <= t <= te -> Rabs t <= X + 1) ->
  forall s t, t0 <= s <= te -> t0 <= t <= te -> near (F * Rabs (s - t)) (y s) (y t).
Proof.
  intros (_ & _ & HF & Hdef) (D & D0 & HD) HX HT.
  assert (Ln : forall t, t0 <= t <= te -> length (y t) = n). { intros t Ht. rewrite <- D0. apply (HD t Ht). lia. }
  assert (HB : forall t i, t0 <= t <= te -> (i < n)%nat -> Rabs (cmp i (D 1%nat t)) <= F).
  { intros t i Ht Hi. destruct (Hdef t (y t)) as (f & E1 & E2); auto.
    - eapply within_mono; [|now apply HX]. lra.
    - destruct (HD t Ht) as (E3 & E4 & _). rewrite E1 in E3. injection E3 as ->. unfold within in E2. rewrite Forall_forall in E2. apply E2. apply nth_In. rewrite E4; lia. }
  assert (G : forall s t, t0 <= s -> s < t -> t <= te -> near (F * Rabs (s - t)) (y s) (y t)).
  { intros s t Hs Hst Ht. split; [rewrite !Ln by lra; reflexivity|]. intros i Hi. rewrite Ln in Hi by lra.
    destruct (MVT_cor2 (fun x => cmp i (y x)) (fun x => cmp i (D 1%nat x)) s t Hst) as (c & Hc & Hc2).
    - intros c Hc. destruct (HD c ltac:(lra)) as (_ & _ & Q). destruct (Q i Hi) as (Q1 & _). specialize (Q1 0%nat ltac:(lia)).
      eapply derivable_pt_lim_ext; [|exact Q1]. intros z. cbv beta. unfold cmp. rewrite D0. reflexivity.
    - cbv beta in Hc. rewrite Rabs_minus_sym. rewrite Hc. rewrite Rabs_mult. rewrite (Rabs_minus_sym s t). apply Rmult_le_compat_r; [apply Rabs_pos|]. apply HB; auto. lra. }
  intros s t Hs Ht. destruct (Rtotal_order s t) as [H|[->|H]].
  - apply G; lra.
  - apply near_refl. apply Rmult_le_pos; [lra|apply Rabs_pos].
  - specialize (G t s ltac:(lra) H ltac:(lra)). destruct G as (G1 & G2). split; auto. intros i Hi. rewrite Rabs_minus_sym. rewrite (Rabs_minus_sym s t). apply G2. congruence.
Qed.

Section FL.
Variables (rhs : @rhs_t Rops) (n : nat) (L X F t0 te : R) (y : R -> list R).
Hypothesis HT : tame rhs n L X F.
Hypothesis Hte : t0 <= te.
Hypothesis B0 : Rabs t0 <= X.
Hypothesis B1 : Rabs te <= X.
Hypothesis HC : Ck_solution 5 rhs n t0 (te + 1) y.
Hypothesis HJ : smooth_along rhs n t0 (te + 1) y.
Hypothesis HY : forall t, t0 <= t <= te + 1 -> within X (y t).

Lemma inX t : t0 <= t <= te -> Rabs t <= X.
Proof. intros H. apply Rabs_le. pose proof (Rabs_def2 t0 (X + 1)). pose proof B0. pose proof B1. unfold Rabs in *. destruct (Rcase_abs t0), (Rcase_abs te); lra. Qed.
Lemma inX1 t : t0 <= t <= te + 1 -> Rabs t <= X + 1.
Proof. intros H. apply Rabs_le. pose proof B0. pose proof B1. unfold Rabs in *. destruct (Rcase_abs t0), (Rcase_abs te); lra. Qed.
Lemma X_pos : 0 <= X.
Proof. pose proof (Rabs_pos t0). lra. Qed.
Lemma len_y t : t0 <= t <= te + 1 -> length (y t) = n.
Proof. intros Ht. destruct HC as (D & D0 & HD). rewrite <- D0. apply (HD t Ht). lia. Qed.

Lemma near_within e u v : near e u v -> within X v -> within (X + e) u.
Proof.
  intros (H1 & H2) Hv. unfold within in *. rewrite Forall_forall in *. intros x Hx. destruct (In_nth _ _ 0 Hx) as (i & Hi & <-).
  specialize (H2 i Hi). change (Rabs (nth i u 0 - nth i v 0) <= e) in H2. assert (Rabs (nth i v 0) <= X) by (apply Hv; apply nth_In; congruence).
  replace (nth i u 0) with ((nth i u 0 - nth i v 0) + nth i v 0) by ring. eapply Rle_trans; [apply Rabs_triang|]. lra.
Qed.

Variables (A : list (list Q)) (B C : list Q) (p : nat) (Ca C' : R).
Hypothesis HCa : 0 <= Ca.
Hypothesis HC' : 3 <= C'.
Hypothesis Hhi : forall h e t u f K u', 0 < h <= 1 -> 0 <= e -> t0 <= t -> t + h <= te + 1 ->
    near e u (y t) -> rhs t u = Ret f -> rk_step (OT := Rops) rhs (@litm Rops A) (@lits Rops B) (@lits Rops C) t u f h K u' ->
    near ((1 + h * Ca) * e + Ca * (h * h ^ p)) u' (y (t + h)).
Hypothesis Hap : forall prec emax eps pw rhsF, roomy prec emax X F eps -> computed prec emax pw rhsF rhs n X eps -> C' * eps <= / 3 ->
  forall t y h f K y', fin prec emax t -> Forall (fin prec emax) y -> fin prec emax h -> length y = n ->
  Rabs (val t) <= X + / 3 -> within (X + / 3) (map val y) -> 0 < val h <= / 3 -> 4 * F * val h <= / 3 ->
  rhsF t y = Ret f ->
  rk_step (OT := SFops_at prec emax pw) rhsF (@litm (SFops_at prec emax pw) A) (@lits (SFops_at prec emax pw) B) (@lits (SFops_at prec emax pw) C) t y f h K y' ->
  exists fR KR yR, rhs (val t) (map val y) = Ret fR /\
    rk_step (OT := Rops) rhs (@litm Rops A) (@lits Rops B) (@lits Rops C) (val t) (map val y) fR (val h) KR yR /\
    vap prec emax eps C' y' yR.

Definition Dd : R := Ca + C' + F * (X + 3).
Definition Kc : R := accp (2 * Ca) (2 * Dd) 1 (te - t0 + 1).
Definition KK : R := 3 * Kc + 12 * F + 3 * C' + 2 * (X + 3).

Lemma F_pos : 0 <= F.
Proof. apply HT. Qed.
Lemma Dd_ge : 3 <= Dd.
Proof. unfold Dd. pose proof F_pos. pose proof X_pos. assert (0 <= F * (X + 3)) by (apply Rmult_le_pos; lra). lra. Qed.
Lemma Kc_pos : 0 <= Kc.
Proof. pose proof Dd_ge. apply accp_pos; lra. Qed.
Lemma accp_eta La D eta x : accp La D eta x = accp La D 1 x * eta.
Proof. unfold accp. ring. Qed.

Section Fmt.
Variables (prec emax : Z) (pw : spec_float -> spec_float -> spec_float) (eps : R).
Notation FT := (SFops_at prec emax pw).
Variables (E : @Env FT) (rhsF : @rhs_t FT) (h : spec_float).
Hypothesis Hr : roomy prec emax X F eps.
Hypothesis Hcomp : computed prec emax pw rhsF rhs n X eps.
Hypothesis Fh : fin prec emax h.
Hypothesis Hh : 0 < val h.
Hypothesis HK : KK * (val h + eps / val h) <= 1.
Hypothesis Hp1 : (1 <= p)%nat.
Let eta : R := val h ^ p + eps / val h.

Lemma Hp : (1 < prec)%Z.
Proof. apply Hr. Qed.
Lemma He : (prec < emax)%Z.
Proof. apply Hr. Qed.
Lemma eps0 : 0 < eps.
Proof. pose proof Hr as (_ & _ & H). pose proof (uro_pos prec Hp). lra. Qed.
Lemma q0 : 0 < eps / val h.
Proof. apply Rdiv_lt_0_compat; [apply eps0|exact Hh]. Qed.
Lemma KK_part k : 0 <= k <= KK -> k * val h <= 1 /\ k * (eps / val h) <= 1 /\ k * (val h + eps / val h) <= 1.
Proof.
  intros Hk. pose proof q0. pose proof HK as HK'.
  assert (k * (val h + eps / val h) <= KK * (val h + eps / val h)) by (apply Rmult_le_compat_r; lra).
  assert (0 <= k * val h) by (apply Rmult_le_pos; lra). assert (0 <= k * (eps / val h)) by (apply Rmult_le_pos; lra). lra.
Qed.
Lemma h_small : val h <= / 9.
Proof.
  pose proof Kc_pos. pose proof F_pos. pose proof X_pos. destruct (KK_part 9) as (U1 & _); [unfold KK; lra|]. lra.
Qed.
Lemma h_F : 4 * F * val h <= / 3.
Proof. pose proof Kc_pos. pose proof F_pos. pose proof X_pos. destruct (KK_part (12 * F)) as (U1 & _); [unfold KK; lra|]. lra. Qed.
Lemma eps_q : eps <= eps / val h.
Proof.
  pose proof q0. pose proof h_small. replace eps with (eps / val h * val h) at 1 by (field; lra).
  rewrite <- (Rmult_1_r (eps / val h)) at 2. apply Rmult_le_compat_l; lra.
Qed.
Lemma C_eps : C' * eps <= / 3.
Proof.
  pose proof Kc_pos. pose proof F_pos. pose proof X_pos. destruct (KK_part (3 * C')) as (_ & U1 & _); [unfold KK; lra|].
  pose proof eps_q. assert (C' * eps <= C' * (eps / val h)) by (apply Rmult_le_compat_l; lra). lra.
Qed.
Lemma X_eps : eps * (X + 3) <= val h / 2.
Proof.
  pose proof Kc_pos. pose proof F_pos. pose proof X_pos. destruct (KK_part (2 * (X + 3))) as (_ & H2 & _); [unfold KK; lra|].
  replace (eps * (X + 3)) with ((2 * (X + 3) * (eps / val h)) * (val h / 2)) by (field; lra).
  rewrite <- (Rmult_1_l (val h / 2)) at 2. apply Rmult_le_compat_r; lra.
Qed.
Lemma hp_le : 0 < val h ^ p <= val h.
Proof.
  split; [apply pow_lt; exact Hh|]. pose proof h_small. replace p with (S (pred p)) by lia. cbn [pow].
  assert (val h ^ pred p <= 1). { rewrite <- (pow1 (pred p)). apply pow_incr. lra. }
  apply Rle_trans with (val h * 1); [apply Rmult_le_compat_l; lra|lra].
Qed.
Lemma eta_pos : 0 < eta.
Proof. unfold eta. pose proof q0. pose proof hp_le. lra. Qed.
Lemma Kc_eta : Kc * eta <= / 3.
Proof.
  pose proof Kc_pos. pose proof F_pos. pose proof X_pos. destruct (KK_part (3 * Kc)) as (_ & _ & H2); [unfold KK; lra|].
  assert (Kc * eta <= Kc * (val h + eps / val h)) by (apply Rmult_le_compat_l; [lra|]; unfold eta; pose proof hp_le; lra). lra.
Qed.

Definition err (t : R) : R := accp (2 * Ca) (2 * Dd) eta (t - t0 + 1).
Lemma err_le t : t0 <= t <= te -> 0 <= err t <= Kc * eta.
Proof.
  intros Ht. pose proof Dd_ge. pose proof eta_pos. unfold err. split; [apply accp_pos; lra|]. unfold Kc. rewrite <- accp_eta. apply accp_mono; lra.
Qed.

Definition fl_inv (x : @st FT) : Prop :=
  good rhsF (@Erk FT (@litm FT A) (@lits FT B) (@lits FT C)) x /\ hstep x = h /\ valid_binary prec emax (now x) = true /\
  (fin prec emax (now x) -> t0 <= val (now x) /\
    (val (now x) <= te -> Forall (fin prec emax) (state x) /\ near (err (val (now x))) (map val (state x)) (y (val (now x))))).

Lemma fl_next (x : @st FT) K y' : Forall (fin prec emax) (state x) -> fin prec emax (now x) -> t0 <= val (now x) -> val (now x) <= te ->
  near (err (val (now x))) (map val (state x)) (y (val (now x))) -> rhsF (now x) (state x) = Ret (deriv x) ->
  rk_step (OT := FT) rhsF (@litm FT A) (@lits FT B) (@lits FT C) (now x) (state x) (deriv x) h K y' ->
  val (SFadd prec emax (now x) h) <= te ->
  Forall (fin prec emax) y' /\ near (err (val (SFadd prec emax (now x) h))) (map val y') (y (val (SFadd prec emax (now x) h))).
Proof.
  intros Fs Ft T1 T2 Hn Hf Hk T3. set (t := val (now x)) in *. set (t' := val (SFadd prec emax (now x) h)) in *.
  pose proof h_small. pose proof X_pos. pose proof F_pos. pose proof (inX t ltac:(lra)) as Bt. pose proof (err_le t ltac:(lra)) as Be. pose proof Kc_eta.
  assert (Ls : length (state x) = n). { destruct Hn as (G & _). exact (eq_trans (eq_trans (eq_sym (map_length val (state x))) G) (len_y t ltac:(lra))). }
  assert (Ws : within (X + / 3) (map val (state x))).
  { eapply within_mono; [|eapply near_within; [exact Hn|apply HY; lra]]. lra. }
  destruct (Hap prec emax eps pw rhsF Hr Hcomp C_eps (now x) (state x) h (deriv x) K y' Ft Fs Fh Ls) as (fR & KR & yR & R1 & R2 & R3); auto.
  { fold t. lra. } { lra. } { apply h_F. }
  pose proof (Hhi (val h) (err t) t (map val (state x)) fR KR yR ltac:(lra) (proj1 Be) T1 ltac:(lra) Hn R1 R2) as S1.
  destruct (fl_add prec emax Hp He (now x) h Ft Fh) as (G1 & G2).
  { fold t. unfold big. pose proof Hr as (_ & Hb & _). eapply Rle_trans; [apply Rabs_triang|]. rewrite (Rabs_pos_eq (val h)) by lra. lra. }
  fold t t' in G2.
  assert (G3 : Rabs (t' - (t + val h)) <= eps * (X + 3)).
  { eapply Rle_trans; [exact G2|]. pose proof Hr as (_ & _ & Hu). pose proof (uro_pos prec Hp). apply Rmult_le_compat; try lra.
    - pose proof (Rabs_pos (t + val h)). lra.
    - assert (Rabs (t + val h) <= Rabs t + val h) by (eapply Rle_trans; [apply Rabs_triang|]; rewrite (Rabs_pos_eq (val h)) by lra; lra). lra. }
  pose proof X_eps as G4. assert (G5 : val h / 2 <= t' - t). { unfold Rabs in G3; destruct (Rcase_abs (t' - (t + val h))); lra. }
  split; [eapply vap_fin; exact R3|].
  pose proof (sol_lip rhs n L X F t0 (te + 1) y HT HC HY inX1 (t + val h) t' ltac:(lra) ltac:(lra)) as S2.
  pose proof (near_trans _ _ _ _ _ (vap_near _ _ _ _ _ _ R3) (near_trans _ _ _ _ _ S1 S2)) as S3.
  eapply near_mono; [|exact S3].
  pose proof Dd_ge. pose proof eta_pos. pose proof q0.
  eapply Rle_trans; [|unfold err; replace (t' - t0 + 1) with ((t - t0 + 1) + (t' - t)) by ring; apply accp_step; lra].
  fold (err t).
  assert (Z1 : val h * Ca <= (t' - t) * (2 * Ca)). { replace (val h * Ca) with (val h / 2 * (2 * Ca)) by field. apply Rmult_le_compat_r; lra. }
  assert (Z2 : val h * Ca * err t <= (t' - t) * (2 * Ca) * err t) by (apply Rmult_le_compat_r; lra).
  assert (Z3 : Ca * (val h * val h ^ p) <= Ca * (val h * eta)).
  { apply Rmult_le_compat_l; auto. apply Rmult_le_compat_l; [lra|]. unfold eta. lra. }
  assert (Z4 : eps <= val h * eta).
  { replace eps with (val h * (eps / val h)) by (field; lra). apply Rmult_le_compat_l; [lra|]. unfold eta. pose proof hp_le. lra. }
  assert (Z5 : C' * eps <= C' * (val h * eta)) by (apply Rmult_le_compat_l; lra).
  assert (Z6 : F * Rabs (t + val h - t') <= F * (X + 3) * (val h * eta)).
  { rewrite Rmult_assoc. apply Rmult_le_compat_l; auto. rewrite Rabs_minus_sym. eapply Rle_trans; [exact G3|]. rewrite Rmult_comm. apply Rmult_le_compat_l; lra. }
  assert (Z7 : Dd * (val h * eta) <= 2 * Dd * ((t' - t) * eta)).
  { replace (Dd * (val h * eta)) with (2 * Dd * (val h / 2 * eta)) by field. apply Rmult_le_compat_l; [lra|]. apply Rmult_le_compat_r; lra. }
  unfold Dd in Z7 at 1. lra.
Qed.

Let m : @meth FT := @Erk FT (@litm FT A) (@lits FT B) (@lits FT C).

Lemma fl_core fuelc o x x' : length C = length A -> (0 < length A)%nat -> fl_inv x -> core_of (E := E) m fuelc o rhsF x = (Ret tt, x') -> fl_inv x'.
Proof.
  intros Hlen Hlen0 (G & Hx & Hv & Hi) Hc. unfold m in *.
  pose proof (good_core (OT := FT) (E := E) rhsF (@Erk FT (@litm FT A) (@lits FT B) (@lits FT C)) fuelc o x G) as G'. rewrite Hc in G'. cbn [snd] in G'.
  pose proof (good_last _ _ _ G) as Hf. pose proof (good_last _ _ _ G') as Hf'.
  pose proof G as ((Wb & Ws) & _). cbn in Wb, Ws.
  cbn [core_of] in Hc. apply core_erk_iff in Hc as (K & y' & f' & Hs & Hr' & ->); auto; try (unfold litm, lits; rewrite !map_length; auto).
  rewrite Hx in *. change (@add FT (now x) h) with (SFadd prec emax (now x) h) in *.
  assert (En : forall s, now (mkst (@push FT (cache x) (SFadd prec emax (now x) h) y' f') h K s) = SFadd prec emax (now x) h) by (intros; apply (push_t 1); exact Wb).
  assert (Ey : forall s, state (mkst (@push FT (cache x) (SFadd prec emax (now x) h) y' f') h K s) = y') by (intros; apply (push_y 1); exact Wb).
  unfold fl_inv. rewrite En, Ey. split; [exact G'|]. split; [reflexivity|]. split; [apply (add_valid prec emax Hp He); [exact Hv|apply Fh]|].
  intros Fn.
  assert (Fx : fin prec emax (now x)).
  { destruct (valid_binary prec emax (now x)) eqn:e; [|discriminate]. destruct (now x) as [s|s| |s mm ee] eqn:e2.
    - split; auto.
    - exfalso. revert Fn. apply (add_nonfin prec emax); auto. intros (_ & []).
    - exfalso. revert Fn. apply (add_nonfin prec emax); auto. intros (_ & []).
    - split; auto. }
  destruct (Hi Fx) as (T1 & T2).
  pose proof (fl_add_mono prec emax Hp He (now x) h Fx Fh ltac:(lra) Fn) as T3. split; [lra|].
  intros T4. destruct (T2 ltac:(lra)) as (F1 & F2). eapply fl_next; eauto. lra.
  intros e. apply (f_equal (@length _)) in e. unfold litm in e. rewrite map_length in e. cbn in e. lia.
Qed.

Lemma fl_session fuelc o tb fuel cs x : length C = length A -> (0 < length A)%nat -> fl_inv x -> fl_inv (session (E := E) (solver_of (E := E) m fuelc o rhsF tb) fuel cs x).
Proof.
  intros Hlen Hlen0. apply session_inv.
  - intros b z _ _ Hx. cbn [s_core solver_of]. destruct (core_of m fuelc o rhsF z) as [r z'] eqn:e. cbn [snd].
    destruct r as [[]| |]; [eapply fl_core; eauto| |].
    all: pose proof e as e'; apply core_of_ok in e'; [|apply wf_stages; apply Hx].
    all: destruct e' as (_ & _ & E1 & E2); specialize (E1 eq_refl).
    all: destruct Hx as (G & G1 & G2 & G3); pose proof (good_core (OT := FT) (E := E) rhsF m fuelc o z G) as G'; rewrite e in G'.
    all: split; [exact G'|]; unfold now, state in *; rewrite E1, E2; auto.
  - intros t z Hx. pose proof (good_interp (OT := FT) (E := E) rhsF m t z (proj1 Hx)) as G'. cbn [s_interp solver_of] in *.
    destruct (interp_of m rhsF t z) as [r z'] eqn:e. apply interp_of_ok in e as (E2 & E1 & _).
    destruct Hx as (G & G1 & G2 & G3). cbn [snd] in *. split; [exact G'|]; unfold now, state in *; rewrite E1, E2; auto.
Qed.

Lemma fl_init g tF yF s : fin prec emax tF -> val tF = t0 -> Forall (fin prec emax) yF -> near eps (map val yF) (y t0) -> garbage_ok m g ->
  init_rk m g rhsF tF yF (Some h) = Ret s -> fl_inv s.
Proof.
  intros Ft Et Fy Hy Hg H. unfold init_rk in H. apply init_base_spec in H as (G & f & Hf & Hc & Hh0); auto. cbn in Hh0.
  destruct (len_history_pos m) as (k & Hk).
  assert (En : now s = tF). { unfold now, buf_t. rewrite Hc, Hk. apply last_repeat; lia. }
  assert (Es : state s = yF). { unfold state, buf_y. rewrite Hc, Hk. apply last_repeat; lia. }
  unfold fl_inv. rewrite En, Es. split; [exact G|]. split; [exact Hh0|]. split; [apply Ft|]. intros _. rewrite Et. split; [lra|]. intros _. split; auto.
  eapply near_mono; [|exact Hy]. unfold err, accp. replace (t0 - t0 + 1) with 1 by ring. rewrite !Rmult_1_r, Rmult_1_l.
  pose proof Dd_ge. pose proof eta_pos. pose proof eps_q. assert (eps <= eta) by (unfold eta; pose proof hp_le; lra).
  pose proof (exp_ge (2 * Ca)). assert (1 <= exp (2 * Ca)) by lra.
  apply Rle_trans with (1 * 1 * eta); [lra|]. apply Rmult_le_compat_r; [lra|]. apply Rmult_le_compat; lra.
Qed.
End Fmt.
End FL.

Lemma C81_lemma rhs n L X F t0 te y : tame rhs n L X F -> t0 <= te -> Rabs t0 <= X -> Rabs te <= X ->
  Ck_solution 5 rhs n t0 (te + 1) y -> smooth_along rhs n t0 (te + 1) y -> (forall t, t0 <= t <= te + 1 -> within X (y t)) ->
  forall m p, In (m, p) rk_classes -> exists K, 0 < K /\
  forall prec emax pw (E : @Env (SFops_at prec emax pw)) eps rhsF h tF yF g s0 fuelc o tb fuel cs s,
    roomy prec emax X F eps -> computed prec emax pw rhsF rhs n X eps ->
    fin prec emax h -> 0 < val h -> K * (val h + eps / val h) <= 1 ->
    fin prec emax tF -> val tF = t0 -> Forall (fin prec emax) yF -> near eps (map val yF) (y t0) ->
    garbage_ok (m (SFops_at prec emax pw)) g -> init_rk (m (SFops_at prec emax pw)) g rhsF tF yF (Some h) = Ret s0 ->
    s = session (E := E) (solver_of (E := E) (m (SFops_at prec emax pw)) fuelc o rhsF tb) fuel cs s0 ->
    fin prec emax (now s) -> val (now s) <= te ->
    Forall (fin prec emax) (state s) /\
    near (K * (val h ^ p + eps / val h)) (map val (state s)) (y (val (now s))).
Proof.
  intros HT Hte B0 B1 HC HJ HY m p Hm. destruct (rk_classes_tab m p Hm) as (A & B & C & Em & LA & LB & LC & SA & SB & SC & T).
  pose proof HT as (HL & _ & HF & _). assert (HX : 0 <= X) by (pose proof (Rabs_pos t0); lra).
  destruct (rk_step_hi rhs n L t0 (te + 1) y p _ _ _ HL ltac:(lra) HC HJ T) as (Ca & HCa & Hhi).
  assert (HL0 : 0 <= L) by apply HL.
  destruct (step_ap X F L n rhs HX HF HL0 HT A B C LA LB SA SB SC) as (C' & HC' & Hap).
  pose proof (Kc_pos rhs n L X F t0 te HT Hte B0 Ca C' HCa HC') as PK.
  exists (KK X F t0 te Ca C'). split; [unfold KK; lra|].
  intros prec emax pw E eps rhsF h tF yF g s0 fuelc o tb fuel cs s Hr Hco Fh Hh HK Ft Et Fy Hy Hg Hi -> Fn Hn. rewrite Em in *.
  assert (Hp1 : (1 <= p)%nat) by (destruct T as (? & _); lia).
  assert (I : fl_inv X F t0 te y A B C p Ca C' prec emax pw eps rhsF h s0) by (eapply (fl_init rhs n L X F t0 te y) with (tF := tF) (yF := yF); eauto).
  assert (I' : fl_inv X F t0 te y A B C p Ca C' prec emax pw eps rhsF h (session (solver_of (@Erk (SFops_at prec emax pw) (litm A) (lits B) (lits C)) fuelc o rhsF tb) fuel cs s0)) by (eapply (fl_session rhs n L); eauto; lia).
  destruct I' as (_ & _ & _ & I'). destruct (I' Fn) as (T1 & T2). destruct (T2 Hn) as (F1 & F2). split; auto.
  eapply near_mono; [|exact F2]. eapply Rle_trans; [apply (err_le rhs n L X F t0 te HT Hte B0 p Ca C' HCa HC' prec emax eps h Hr Hh HK Hp1); lra|].
  assert (0 < val h ^ p) by (apply pow_lt; auto). assert (0 < eps). { pose proof Hr as (? & _ & Hu). pose proof (uro_pos prec). lra || (destruct (H1 ltac:(lia)); lra). }
  assert (0 < eps / val h) by (apply Rdiv_lt_0_compat; auto). apply Rmult_le_compat_r; [lra|]. unfold KK; lra.
Qed.
