(** C91: a step whose stages all vanish is accepted whatever the tolerances. *)
From Coq Require Import List ZArith QArith Bool Arith Lia Reals Lra.
From Verif Require Import Base Scalar Vec MBuffer MZeros MSteps MApi MDop853 MClasses Laws Spec SpecInst SpecInit
  PStep PKeeps PCore PHist PRun PInterp PBound PVecR SpecRK SpecDense SpecCtl PDim PRK PDense PCtl PC1 PFwd PTerm SpecVar
  SpecOrder SpecConv SpecConv2 SpecConv3 PConv1 PTop1 Ex PConv9 PConv10 PSolve8.
Import ListNotations.
Open Scope R_scope.

(** (1 - cos(w t)) / 2 and its integral *)
Definition wave (w : R) : @rhs_t Rops := fun t _ => Ret [(1 - cos (w * t)) / 2].
Definition wave_sol (w t : R) : list R := [t / 2 - sin (w * t) / (2 * w)].

Section Wave.
Variable w : R.
Hypothesis Hw : 0 < w.
Definition wave_D (j : nat) (t : R) : list R := match j with O => wave_sol w t | 1%nat => [(1 - cos (w * t)) / 2]
  | S (S j) => [w ^ S j / 2 * sin (w * t + INR j * (PI / 2))] end.
Lemma wave_lim j t : derivable_pt_lim (fun x => cmp 0 (wave_D j x)) t (cmp 0 (wave_D (S j) t)).
Proof.
  destruct j as [|[|j]]; unfold wave_D, wave_sol; cbn [nth].
  - replace ((1 - cos (w * t)) / 2) with (/ 2 * 1 - / (2 * w) * (cos (w * t + 0) * w)) by (rewrite Rplus_0_r; field; lra).
    apply (lim_ext (fun x => / 2 * id x - / (2 * w) * sin (w * x + 0))); [intros x; unfold id; rewrite Rplus_0_r; unfold Rdiv; ring|].
    apply (derivable_pt_lim_minus (fun x => / 2 * id x) (fun x => / (2 * w) * sin (w * x + 0))).
    + apply (derivable_pt_lim_scal id). apply derivable_pt_lim_id.
    + apply (derivable_pt_lim_scal (fun x => sin (w * x + 0))). apply (derivable_pt_lim_comp (fun x => w * x + 0) sin); [apply lin_lim|apply derivable_pt_lim_sin].
  - replace (w ^ 1 / 2 * sin (w * t + INR 0 * (PI / 2))) with (/ 2 * (0 - - sin (w * t + 0) * w)) by (cbn [INR pow]; rewrite Rmult_0_l; field).
    apply (lim_ext (fun x => / 2 * (1 - cos (w * x + 0)))); [intros x; rewrite Rplus_0_r; unfold Rdiv; ring|].
    apply (derivable_pt_lim_scal (fun x => 1 - cos (w * x + 0))). apply (derivable_pt_lim_minus (fun _ => 1) (fun x => cos (w * x + 0))); [apply derivable_pt_lim_const|].
    apply (derivable_pt_lim_comp (fun x => w * x + 0) cos); [apply lin_lim|apply derivable_pt_lim_cos].
  - replace (w ^ S (S j) / 2 * sin (w * t + INR (S j) * (PI / 2))) with (w ^ S j / 2 * (cos (w * t + INR j * (PI / 2)) * w)).
    2:{ rewrite S_INR. replace (w * t + (INR j + 1) * (PI / 2)) with (PI / 2 + (w * t + INR j * (PI / 2))) by ring. rewrite <- cos_sin. cbn [pow]. field. }
    apply (derivable_pt_lim_scal (fun x => sin (w * x + INR j * (PI / 2)))).
    apply (derivable_pt_lim_comp (fun x => w * x + INR j * (PI / 2)) sin); [apply lin_lim|apply derivable_pt_lim_sin].
Qed.
Lemma wave_solution k te : Ck_solution k (wave w) 1 0 te (wave_sol w).
Proof.
  exists wave_D. split; [reflexivity|]. intros t _. split; [|split].
  - reflexivity.
  - intros [|[|j]] _; reflexivity.
  - intros i Hi. destruct i as [|i]; [|lia]. split; [intros j _; apply wave_lim|]. apply derivable_continuous_pt. exists (cmp 0 (wave_D (S k) t)). apply wave_lim.
Qed.
Lemma wave_lip : lipschitz 1 0 (wave w).
Proof.
  split; [lra|]. split.
  - intros t u f _ Hf. injection Hf as <-. reflexivity.
  - intros t u v a b e _ _ (_ & _) Ha Hb. injection Ha as <-. injection Hb as <-. split; [reflexivity|]. intros i Hi.
    rewrite Rmult_0_l. unfold Rminus. rewrite Rplus_opp_r, Rabs_R0. lra.
Qed.
Lemma wave_start : wave_sol w 0 = [0].
Proof. unfold wave_sol. f_equal. rewrite Rmult_0_r, sin_0. field. lra. Qed.
End Wave.

Lemma cos_turns (q : nat) : cos (2 * INR q * PI) = 1.
Proof. rewrite <- cos_0. replace (2 * INR q * PI) with (0 + 2 * INR q * PI) by ring. apply cos_period. Qed.
Lemma sin_turns (q : nat) : sin (2 * INR q * PI) = 0.
Proof. rewrite <- sin_0. replace (2 * INR q * PI) with (0 + 2 * INR q * PI) by ring. apply sin_period. Qed.
Lemma wave_zero H q u : 0 < H -> wave (2 * INR 180 * PI / H) (0 + H * (INR q / 180)) u = Ret [0].
Proof.
  intros HH. unfold wave. do 2 f_equal.
  replace (2 * INR 180 * PI / H * (0 + H * (INR q / 180))) with (2 * INR q * PI) by (rewrite (INR_IZR_INZ 180); cbn; field; lra).
  rewrite cos_turns. field.
Qed.
Lemma wave_end H : 0 < H -> wave_sol (2 * INR 180 * PI / H) H = [H / 2].
Proof.
  intros HH. unfold wave_sol. f_equal. replace (2 * INR 180 * PI / H * H) with (2 * INR 180 * PI) by (field; lra). rewrite sin_turns. unfold Rdiv. ring.
Qed.

Section Blind.
Context {E : @Env Rops}.
(** whatever the options, the first step covers H and leaves the state as it was *)
Lemma blind_step (rhs : @rhs_t Rops) A B C Ew order P g o sel (H : R) fuelc fuel : let m := @Fsal Rops A B C Ew order P in
  length C = length A -> A <> [] -> (0 <= order)%Z -> keeps_dim 1 rhs -> 0 <= H ->
  rhs 0 [0] = Ret [0] -> rhs (0 + H) [0] = Ret [0] -> (forall c u, In c C -> rhs (0 + H * c) u = Ret [0]) ->
  garbage_ok m g -> valid_options o -> (0 < fuelc)%nat ->
  exists s0 s1 a, @init_var Rops m g rhs 0 [0] o sel (Some H) = Ret s0 /\
    step (solver_of (E := E) m fuelc o rhs PInf) fuel None None s0 = (Ret (@ROne Rops H a), s1) /\ now s1 = H /\ state s1 = [0] /\ deref (cache s1) a = [0].
Proof.
  intros m HC HA Hor Hd HH Z0 Z1 ZC Hg (V1 & V2) Hfu.
  assert (I : exists s0, @init_var Rops m g rhs 0 [0] o sel (Some H) = Ret s0 /\ hstep s0 = H).
  { unfold init_var. destruct (init_base m g rhs 0 [0] None) as [s0| |] eqn:e.
    2,3: (unfold init_base in e; rewrite Z0 in e; discriminate).
    cbn [obind]. rewrite V2.
    replace (match max_step o with Fin x => @leb Rops x zero | PInf => false end) with false by (destruct (max_step o) as [x|]; [now rewrite V1|reflexivity]).
    cbn [obind m]. eexists. split; reflexivity. }
  destruct I as (s0 & I1 & I2).
  destruct (init_var_fresh _ _ _ _ _ _ _ _ _ Hg eq_refl I1) as (N1 & N2 & N3 & _).
  assert (N4 : deriv s0 = [0]) by (assert (Q := eq_trans (eq_sym N3) Z0); now injection Q).
  assert (Tid : tidy A B C Ew order P rhs 1 s0).
  { apply (built_tidy (E := E)); auto.
    - exact (built_var (E := E) rhs m g 0 [0] o sel (Some H) s0 eq_refl Hg I1).
    - now rewrite N2.
    - now rewrite I2. }
  pose proof (zero_attempts rhs 0 H 0 A B C Ew o order HC ZC Z1) as Ha.
  pose proof Tid as (((Wb & Wn) & D & _) & _). cbn [n_stages_of] in Wn. cbn [len_history] in Wb.
  destruct (attempts_core A B C (@norm_fsal Rops Ew) o order rhs (fsal_error o Ew) 1 (computes_fsal Ew o) Hor HC HA Hd [(H, 0)] s0 [0] [0] (H * factor o order 0) fuelc)
    as (s1 & Cm & _ & Hc).
  - rewrite Wn. apply Nat.add_1_r.
  - now rewrite N2.
  - now rewrite N4.
  - rewrite N1, N2, N4, I2. exact Ha.
  - cbn. lia.
  - rewrite N1 in Hc. unfold last_h in Hc. cbn [last fst] in Hc. rewrite Rplus_0_l in Hc.
    assert (T1 : now s1 = H) by (unfold now; rewrite Hc; exact (push_t 1 _ _ _ _ Wb)).
    assert (Y1 : state s1 = [0]) by (unfold state; rewrite Hc; exact (push_y 1 _ _ _ _ Wb)).
    exists s0, s1, (CacheRow (length (ys (cache s1)) - 1)). split; [exact I1|]. split; [|split; [exact T1|split; [exact Y1|]]].
    + assert (Cm' : s_core (solver_of (E := E) m fuelc o rhs PInf) s0 = (Ret tt, s1)) by exact Cm.
      unfold step, step_, bind. rewrite Cm'. cbn [s_bound solver_of gt_ext ret get fst snd]. 
      exact (f_equal (fun z => (Ret (@ROne Rops z (CacheRow (length (ys (cache s1)) - 1))), s1)) T1).
    + assert (Ln : forall l : list (@vec Rops), nth (length l - 1) l [] = last l []).
      { clear. intros [|v l]; [reflexivity|]. replace (length (v :: l) - 1)%nat with (length l) by (cbn; lia). revert v. induction l as [|z l IH]; intros v; [reflexivity|]. exact (IH z). }
      rewrite <- Y1. exact (Ln (ys (cache s1))).
Qed.
End Blind.

Theorem C91_refuted_lemma {E : @Env Rops} : forall H, 0 < H -> exists rhs y, lipschitz 1 0 rhs /\ (forall k te, Ck_solution k rhs 1 0 te y) /\ y 0 = [0] /\ y H = [H / 2] /\
  forall m p (o : @options Rops) g sel fuelc fuel, In (m, p) var_table -> valid_options o -> (0 : R) < atol o -> garbage_ok m g -> (0 < fuelc)%nat ->
  exists s0 s1 a, @init_var Rops m g rhs 0 (y 0) o sel (Some H) = Ret s0 /\
    step (solver_of (E := E) m fuelc o rhs PInf) fuel None None s0 = (Ret (@ROne Rops H a), s1) /\ deref (cache s1) a = [0].
Proof.
  intros H HH. set (w := 2 * INR 180 * PI / H).
  assert (Hw : 0 < w) by (unfold w; pose proof PI_RGT_0; rewrite INR_IZR_INZ; cbn; apply Rdiv_lt_0_compat; lra).
  exists (wave w), (wave_sol w). split; [apply wave_lip|]. split; [intros; now apply wave_solution|]. split; [now apply wave_start|]. split; [now apply wave_end|].
  intros m p o g sel fuelc fuel Hin Hv _ Hg Hfu. rewrite (wave_start w Hw).
  assert (Z0 : wave w 0 [0] = Ret [0]).
  { pose proof (wave_zero H 0 [0] HH) as Z. cbn [INR] in Z. replace (0 + H * (0 / 180)) with 0 in Z by field. exact Z. }
  assert (Z1 : wave w (0 + H) [0] = Ret [0]).
  { pose proof (wave_zero H 180 [0] HH) as Z. replace (0 + H * (INR 180 / 180)) with (0 + H) in Z by (rewrite INR_IZR_INZ; cbn; field). exact Z. }
  assert (ZC : match m with Fsal A _ C _ order _ => (length C = length A /\ A <> [] /\ (0 <= order)%Z) /\ forall c u, In c C -> wave w (0 + H * c) u = Ret [0] | _ => False end).
  { destruct Hin as [Hin|[Hin|[]]]; injection Hin as <- <-; cbn [RungeKutta45 RungeKutta23]; (split; [split; [reflexivity|split; [discriminate|lia]]|]);
    intros c u Hc; unfold lits in Hc; cbn [map] in Hc; rewrite !lit_R in Hc; cbn [QArith_base.Qnum QArith_base.Qden] in Hc;
    (assert (exists q, c = INR q / 180) as (q & ->); [|now apply wave_zero]); repeat (destruct Hc as [<-|Hc]); try (destruct Hc).
    - exists 0%nat. cbn. field.
    - exists 90%nat. rewrite INR_IZR_INZ. cbn. field.
    - exists 135%nat. rewrite INR_IZR_INZ. cbn. field.
    - exists 0%nat. cbn. field.
    - exists 36%nat. rewrite INR_IZR_INZ. cbn. field.
    - exists 54%nat. rewrite INR_IZR_INZ. cbn. field.
    - exists 144%nat. rewrite INR_IZR_INZ. cbn. field.
    - exists 160%nat. rewrite INR_IZR_INZ. cbn. field.
    - exists 180%nat. rewrite INR_IZR_INZ. cbn. field. }
  destruct m as [| | |A B C Ew order P|]; try (destruct ZC; fail). destruct ZC as ((S1 & S2 & S3) & ZC).
  destruct (blind_step (E := E) (wave w) A B C Ew order P g o sel H fuelc fuel) as (s0 & s1 & a & R1 & R2 & _ & _ & R5); auto; try lra.
  - apply wave_lip.
  - exists s0, s1, a. auto.
Qed.
