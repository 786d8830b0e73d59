(** Instances for the examples of C67: y' = sqrt(1 + y^2), y(0) = 0. *)
From Coq Require Import List ZArith QArith Bool Arith Lia Reals Lra.
From Verif Require Import Base Scalar Vec MBuffer MZeros MSteps MApi MDop853 MClasses Laws Spec SpecInst
  PStep PCore PHist PBound PVecR SpecRK PDim PFwd PTerm SpecMS PMS PMS2 PTop1 PMS6 PMS7 Ex SpecOrder SpecConv SpecConv3 PConv1.
Import ListNotations.
Open Scope R_scope.

Definition rhs_cat : @rhs_t Rops := fun _ y => Ret (map (fun x : R => sqrt (1 + x * x)) y).
Definition sol_cat (t : R) : list R := [sinh t].

Lemma one_sq x : 0 < 1 + x * x. Proof. pose proof (Rle_0_sqr x) as H. unfold Rsqr in H. lra. Qed.
Lemma root_sq x : sqrt (1 + x * x) * sqrt (1 + x * x) = 1 + x * x.
Proof. apply sqrt_sqrt. pose proof (one_sq x). lra. Qed.
Lemma root_pos x : 1 <= sqrt (1 + x * x).
Proof. rewrite <- sqrt_1 at 1. apply sqrt_le_1_alt. pose proof (Rle_0_sqr x) as H. unfold Rsqr in H. lra. Qed.
Lemma root_abs x : Rabs x <= sqrt (1 + x * x).
Proof.
  apply Rsqr_incr_0; [|apply Rabs_pos|pose proof (root_pos x); lra].
  unfold Rsqr. rewrite root_sq. replace (Rabs x * Rabs x) with (x * x); [lra|].
  rewrite <- Rabs_mult, Rabs_right; auto. apply Rle_ge, Rle_0_sqr.
Qed.
Lemma root_lip a b : Rabs (sqrt (1 + a * a) - sqrt (1 + b * b)) <= Rabs (a - b).
Proof.
  set (A := sqrt (1 + a * a)). set (B := sqrt (1 + b * b)).
  pose proof (root_pos a) as PA. pose proof (root_pos b) as PB. pose proof (root_abs a) as QA. pose proof (root_abs b) as QB.
  pose proof (root_sq a) as EA. pose proof (root_sq b) as EB. fold A in PA, QA, EA. fold B in PB, QB, EB.
  assert (S : (A - B) * (A + B) = (a - b) * (a + b)) by lra.
  apply (Rmult_le_reg_r (A + B)); [lra|].
  rewrite <- (Rabs_right (A + B)) at 1 by lra. rewrite <- Rabs_mult, S, Rabs_mult. apply Rmult_le_compat_l; [apply Rabs_pos|].
  eapply Rle_trans; [apply Rabs_triang|]. lra.
Qed.
Lemma root_quad s z : Rabs (sqrt (1 + z * z) - sqrt (1 + s * s) - s / sqrt (1 + s * s) * (z - s)) <= (z - s) * (z - s).
Proof.
  set (A := sqrt (1 + z * z)). set (B := sqrt (1 + s * s)).
  pose proof (root_pos z) as PA. pose proof (root_pos s) as PB. pose proof (root_abs z) as QA. pose proof (root_abs s) as QB.
  pose proof (root_sq z) as EA. pose proof (root_sq s) as EB. fold A in PA, QA, EA. fold B in PB, QB, EB.
  assert (H : A - B - s / B * (z - s) = (A * B - 1 - s * z) / B).
  { apply (Rmult_eq_reg_r B); [|lra]. field_simplify; [|lra|lra]. replace (B ^ 2) with (1 + s * s) by lra. ring. }
  rewrite H.
  assert (P : Rabs (s * z) <= A * B).
  { rewrite Rabs_mult, Rmult_comm. apply Rmult_le_compat; auto; apply Rabs_pos. }
  pose proof (Rle_abs (s * z)) as P1. pose proof (Rle_abs (- (s * z))) as P2. rewrite Rabs_Ropp in P2.
  assert (F : (A * B - 1 - s * z) * (A * B + 1 + s * z) = (z - s) * (z - s)).
  { replace ((A * B - 1 - s * z) * (A * B + 1 + s * z)) with ((A * A) * (B * B) - (1 + s * z) * (1 + s * z)) by ring.
    rewrite EA, EB. ring. }
  pose proof (Rle_0_sqr (z - s)) as P3. unfold Rsqr in P3.
  assert (X0 : 0 <= A * B - 1 - s * z).
  { destruct (Rle_dec 0 (A * B - 1 - s * z)); auto. exfalso.
    assert ((A * B - 1 - s * z) * (A * B + 1 + s * z) < 0); [|lra].
    rewrite <- (Rmult_0_l (A * B + 1 + s * z)). apply Rmult_lt_compat_r; lra. }
  assert (X1 : A * B - 1 - s * z <= (z - s) * (z - s)).
  { rewrite <- F. rewrite <- (Rmult_1_r (A * B - 1 - s * z)) at 1. apply Rmult_le_compat_l; lra. }
  rewrite Rabs_right.
  - apply (Rmult_le_reg_r B); [lra|]. unfold Rdiv. rewrite Rmult_assoc, Rinv_l, Rmult_1_r by lra.
    eapply Rle_trans; [exact X1|]. rewrite <- (Rmult_1_r ((z - s) * (z - s))) at 1. apply Rmult_le_compat_l; lra.
  - apply Rle_ge. unfold Rdiv. apply Rmult_le_pos; auto. left. apply Rinv_0_lt_compat. lra.
Qed.
Lemma cosh_root t : sqrt (1 + sinh t * sinh t) = cosh t.
Proof.
  assert (P : 0 < cosh t). { unfold cosh. pose proof (exp_pos t). pose proof (exp_pos (- t)). lra. }
  apply Rsqr_inj; [apply sqrt_pos|lra|]. unfold Rsqr. rewrite root_sq.
  unfold cosh, sinh. replace (exp (- t)) with (/ exp t) by now rewrite exp_Ropp. field. apply Rgt_not_eq, exp_pos.
Qed.
Lemma cosh_pos t : 1 <= cosh t. Proof. rewrite <- cosh_root. apply root_pos. Qed.

Lemma cat_lipschitz : lipschitz 1 1 rhs_cat.
Proof.
  split; [lra|]. split.
  - intros t y f H E. injection E as <-. now rewrite map_length.
  - intros t y z u v e Hy Hz (Hl & H) E1 E2. injection E1 as <-. injection E2 as <-. rewrite Rmult_1_l.
    destruct y as [|a [|? ?]]; try discriminate. destruct z as [|b [|? ?]]; try discriminate.
    split; [reflexivity|]. intros i Hi. destruct i as [|i]; [|cbn in Hi; lia]. specialize (H 0%nat ltac:(cbn; lia)). cbn in *.
    eapply Rle_trans; [apply root_lip|exact H].
Qed.
Definition cat_D (j : nat) (t : R) : list R := if Nat.even j then [sinh t] else [cosh t].
Lemma cat_solution t0 te k : Ck_solution k rhs_cat 1 t0 te sol_cat.
Proof.
  exists cat_D. split; [reflexivity|]. intros t _. split; [unfold rhs_cat, sol_cat, cat_D; cbn [map Nat.even]; now rewrite cosh_root|]. split; [intros j _; unfold cat_D; destruct (Nat.even j); reflexivity|].
  intros i Hi. destruct i as [|i]; [|lia]. split.
  - intros j _. unfold cat_D. rewrite Nat.even_succ, <- Nat.negb_even. destruct (Nat.even j); cbn [negb cmp nth].
    + apply derivable_pt_lim_sinh.
    + apply derivable_pt_lim_cosh.
  - unfold cat_D. destruct (Nat.even k); cbn [cmp nth]; apply derivable_continuous_pt; [apply derivable_pt_sinh|apply derivable_pt_cosh].
Qed.
Lemma der_ext f g t l : (forall x, f x = g x) -> derivable_pt_lim f t l -> derivable_pt_lim g t l.
Proof. intros E H eps He. destruct (H eps He) as (d & Hd). exists d. intros h H1 H2. rewrite <- !E. auto. Qed.
Definition cat_J (t : R) : R := sinh t / cosh t.
Definition cat_J1 (t : R) : R := 1 / (cosh t * cosh t).
Definition cat_J2 (t : R) : R := - (2 * (cosh t * sinh t)) / Rsqr (cosh t * cosh t).
Lemma cosh_sinh t : cosh t * cosh t = 1 + sinh t * sinh t.
Proof. rewrite <- cosh_root. apply root_sq. Qed.
Lemma cat_J_der t : derivable_pt_lim cat_J t (cat_J1 t).
Proof.
  pose proof (cosh_pos t).
  replace (cat_J1 t) with ((cosh t * cosh t - sinh t * sinh t) / Rsqr (cosh t)).
  - apply (derivable_pt_lim_div sinh cosh); [apply derivable_pt_lim_sinh|apply derivable_pt_lim_cosh|lra].
  - unfold cat_J1, Rsqr. pose proof (cosh_sinh t). f_equal. lra.
Qed.
Lemma cat_J1_der t : derivable_pt_lim cat_J1 t (cat_J2 t).
Proof.
  pose proof (cosh_pos t).
  replace (cat_J2 t) with ((0 * (cosh t * cosh t) - (sinh t * cosh t + cosh t * sinh t) * 1) / Rsqr (cosh t * cosh t)).
  - apply (derivable_pt_lim_div (fct_cte 1) (cosh * cosh)%F).
    + apply derivable_pt_lim_const.
    + apply derivable_pt_lim_mult; apply derivable_pt_lim_cosh.
    + unfold mult_fct. apply Rmult_integral_contrapositive; lra.
  - unfold cat_J2. f_equal. lra.
Qed.
Lemma cat_J2_cont t : continuity_pt cat_J2 t.
Proof.
  pose proof (cosh_pos t).
  assert (Cc : continuity_pt cosh t) by (apply derivable_continuous_pt, derivable_pt_cosh).
  assert (Cs : continuity_pt sinh t) by (apply derivable_continuous_pt, derivable_pt_sinh).
  assert (C2 : continuity_pt (cosh * cosh)%F t) by now apply continuity_pt_mult.
  apply (continuity_pt_div (- (fct_cte 2 * (cosh * sinh)))%F ((cosh * cosh) * (cosh * cosh))%F).
  - apply continuity_pt_opp, continuity_pt_mult; [apply continuity_pt_const; now intros ? ?|now apply continuity_pt_mult].
  - now apply continuity_pt_mult.
  - assert (P : cosh t * cosh t <> 0) by (apply Rmult_integral_contrapositive; lra).
    change (cosh t * cosh t * (cosh t * cosh t) <> 0). now apply Rmult_integral_contrapositive.
Qed.
Lemma cat_smooth t0 te : smooth_along rhs_cat 1 t0 te sol_cat.
Proof.
  exists (fun _ _ => cat_J), (fun _ _ => cat_J1), (fun _ _ => cat_J2), 1. intros t _. split.
  - intros i j _ _. split; [apply cat_J_der|]. split; [apply cat_J1_der|apply cat_J2_cont].
  - intros z f g e i (Hl & H) E1 E2 Hi. injection E1 as <-. injection E2 as <-. destruct i as [|i]; [|lia].
    unfold sol_cat in *. destruct z as [|a [|? ?]]; try discriminate. specialize (H 0%nat ltac:(cbn; lia)). cbn [cmp nth] in H.
    cbn [map seq cmp nth vsub map2 dot]. set (s := sinh t) in *. 
    pose proof (root_quad s a) as Q. pose proof (cosh_root t) as Cr. fold s in Cr.
    unfold cat_J. fold s. rewrite <- Cr.
    match goal with |- Rabs ?u <= _ => replace u with (sqrt (1 + a * a) - sqrt (1 + s * s) - s / sqrt (1 + s * s) * (a - s)) end.
    + eapply Rle_trans; [exact Q|]. rewrite Rmult_1_l. replace ((a - s) * (a - s)) with (Rabs (a - s) * Rabs (a - s)).
      * apply Rmult_le_compat; auto; apply Rabs_pos.
      * rewrite <- Rabs_mult. apply Rabs_right, Rle_ge, Rle_0_sqr.
    + change (@sub Rops a s) with (a - s). lra.
Qed.

Definition r_cat (h : R) : @st Rops :=
  of_outcome (init_rk (RungeKutta4 (OT := Rops)) (garb RungeKutta4) rhs_cat (0%R : @T Rops) (sol_cat 0) (Some h)).
Lemma cat_rk4 h : init_rk (RungeKutta4 (OT := Rops)) (garb RungeKutta4) rhs_cat 0 (sol_cat 0) (Some h) = Ret (r_cat h).
Proof. reflexivity. Qed.
Lemma r_cat_built h : built (OT := Rops) (E := ER) rhs_cat RungeKutta4 (r_cat h).
Proof. exact (built_rk (OT := Rops) (E := ER) _ RungeKutta4 (garb RungeKutta4) 0%R (sol_cat 0) (Some h) _ I (garb_ok _) (cat_rk4 h)). Qed.
Lemma total_cat : total (OT := Rops) rhs_cat.
Proof. intros t y. eexists. reflexivity. Qed.
Lemma cat_rk4_step h : exists s, session (E := ER) (solver_of (E := ER) RungeKutta4 0 default_options rhs_cat PInf) 0 [CStep None None] (r_cat h) = s /\ now s = h.
Proof.
  destruct (core_total (E := ER) RungeKutta4 0 default_options rhs_cat (r_cat h) total_cat I) as (s' & Hc).
  exists s'. split.
  - cbn [session exec_call]. rewrite step_none by reflexivity. cbn [s_core solver_of]. rewrite Hc. reflexivity.
  - destruct (core_fixed_now (E := ER) RungeKutta4 0 default_options rhs_cat (r_cat h) s') as (E1 & _); auto.
    + exact (proj1 (built_good _ _ _ (r_cat_built h))).
    + refine (eq_trans E1 _). exact (Rplus_0_l h).
Qed.
