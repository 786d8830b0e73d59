(** C79: the tolerance of the root finder limits the accuracy, and instances. *)
From Coq Require Import List ZArith QArith Bool Arith Lia Reals Lra.
From Verif Require Import Base Scalar Vec MBuffer MZeros MSteps MApi MClasses MDop853 Laws Spec SpecInst PStep PKeeps PCore PHist PClean PBound PVecR SpecRK PRK PDim PFwd Ex PTerm PTop1 SpecZeros PZeros PZeros2 SpecMS PMS PMS2 PRK2 PRK3 PMS3 PMS4 PMS5 PMS6 PMS7
  SpecOrder SpecConv SpecVar PConv1 PConv8 SpecConv3 PHi1 PHi3 PHi4 PExHi PExVar PGlob PLmm1 PLmm2 PLmm3 SpecLmm PLmm4 PLmm5 PLmm6 PLmm7.
Import ListNotations.
Open Scope R_scope.

Section S.
Context {E : @Env Rops}.
(** y1' = 1, y2' = 0 with AdamsMoulton1 and a step of at most 1.48e-8 *)
Lemma C79_floor_lemma (h : R) (n : nat) : 0 < h <= 148 / 10000000000 ->
  exists s0 sn : @st Rops, init_ms (E := E) AM1 (garb AM1) (rhs_const [1; 0]) 0 [0; 0] (Some h) FSNone 0 = Ret s0 /\
    returns (E := E) (solver_of (E := E) AM1 0 default_options (rhs_const [1; 0]) PInf) 0 (repeat (CStep None None) n) s0 sn /\
    now sn = INR n * h /\ state sn = [0; 0].
Proof.
  intros Hh. destruct (fsnone_exists (E := E) AM1 0 [0; 0] h [1; 0] I) as (s0 & Hs & Bu).
  set (c := [1; 0]) in *.
  assert (P0 : now s0 = 0 /\ state s0 = [0; 0] /\ hstep s0 = h /\ dims 2 s0).
  { pose proof Hs as Hs'. unfold init_ms in Hs'. cbn in Hs'. injection Hs' as <-. cbn. repeat split; repeat constructor. }
  destruct P0 as (P1 & P2 & P3 & P4).
  exists s0. set (sv := solver_of (E := E) AM1 0 default_options (rhs_const c) PInf).
  assert (Hn : norm2 (map (fun x => h * x) c) <= 148 / 10000000000).
  { unfold norm2, c. cbn [map fold_right]. replace (h * 1 * (h * 1) + (h * 0 * (h * 0) + 0)) with (h * h) by ring.
    rewrite sqrt_square by lra. lra. }
  assert (Main : forall n, exists sn, returns (E := E) sv 0 (repeat (CStep None None) n) s0 sn /\ now sn = INR n * h /\ state sn = [0; 0] /\ hstep sn = h /\ dims 2 sn).
  { induction n0 as [|k (sk & Rk & K1 & K2 & K3 & K4)].
    - exists s0. split; [constructor|]. cbn [INR]. rewrite Rmult_0_l. auto.
    - destruct (C30_stall_runs (E := E) AM1 c (rhs_const c) 0 default_options sk 0) as (s' & a & St & S1 & S2 & S3 & S4).
      + now left.
      + exists s0, 0%nat, (repeat (CStep None None) k). split; [exact Bu|]. symmetry. exact (returns_session _ _ _ _ _ Rk).
      + exact K4. + discriminate. + intros t y. reflexivity. + rewrite K3. exact Hn.
      + exists s'. split; [|rewrite S1, S2, S3, K1, K3, S_INR; split; [rring|auto]].
        assert (App : forall l s1 s2 s3, returns (E := E) sv 0 l s1 s2 -> exec_call sv 0 (CStep None None) s2 = (Ret tt, s3) -> returns (E := E) sv 0 (l ++ [CStep None None]) s1 s3).
        { clear. induction l as [|x l IH]; intros s1 s2 s3 H1 H2; inversion H1; subst; cbn [app].
          - eapply rts_cons; [exact H2|constructor]. - eapply rts_cons; eauto. }
        replace (repeat (CStep None None) (S k)) with (repeat (@CStep Rops None None) k ++ [CStep None None]).
        2:{ clear. induction k; [reflexivity|]. cbn [repeat app] in *. now rewrite IHk. }
        apply (App _ _ sk); [exact Rk|]. unfold exec_call, bind. unfold sv. rewrite St. reflexivity. }
  destruct (Main n) as (sn & M1 & M2 & M3 & _). exists sn. auto 10.
Qed.

(** what the step leaves of its equation *)
Lemma C79_equation_lemma rhs n L k m : lipschitz n L rhs -> In (k, m) (am_table ++ bdf_table) -> solve_dim (E := E) ->
  forall fuelc o tb (s s' : @st Rops), reachable (E := E) rhs m fuelc o tb s -> dims n s ->
  0 < hstep s -> hstep s * (L * Rabs (new_weight m)) <= 1 / 2 ->
  took_step (solver_of (E := E) m fuelc o rhs tb) s s' ->
  now s' = now s + hstep s /\ length (state s') = n /\ rhs (now s') (state s') = Ret (deriv s') /\
  forall i, (i < n)%nat -> Rabs (cmp i (lm_residual (A_of m) (B_of m) (new_weight m) s (state s') (deriv s'))) <= 444 / 10000000000.
Proof.
  intros HL Hm Sd fuelc o tb s s' Hr D Hh Hb St. destruct (implicit_stable k m Hm) as (A & B & Bn & -> & (_ & _ & LAB & _)). cbn [A_of B_of new_weight] in *.
  pose proof (reach_good _ _ _ _ _ _ Hr) as G.
  destruct (impl_step_gen A B Bn fuelc o rhs tb s s' (proj1 (proj1 G)) St) as (Nt & _). apply took_core in St. cbn [s_core solver_of] in St.
  destruct (steps_any (E := E) rhs n L A B Bn HL LAB Sd fuelc o (hstep s) Hh Hb s s' G D eq_refl St) as (_ & Q1 & Q2 & Q3). auto.
Qed.
(** along the steps of an instance *)
Lemma steps_leave rhs n L A B Bn fuelc o rho te (s0 : @st Rops) : lipschitz n L rhs -> length A = length B -> solve_dim (E := E) ->
  step_solves (E := E) rhs n A B Bn fuelc o (hstep s0) rho -> good rhs (@ImplMS Rops A B Bn) s0 -> dims n s0 ->
  leaves_at_most rho te (@ImplMS Rops A B Bn) (solver_of (E := E) (@ImplMS Rops A B Bn) fuelc o rhs PInf) s0.
Proof.
  intros HL LAB Sd Hs G0 D0. set (M := @ImplMS Rops A B Bn) in *. set (sv := solver_of (E := E) M fuelc o rhs PInf).
  assert (Hi : forall x, stepped sv s0 x -> good rhs M x /\ dims n x /\ hstep x = hstep s0).
  { intros x Hx. induction Hx as [|x Hx (G & D & Hh) Hw]; [auto|]. change (s_core sv x) with (core_of (E := E) M fuelc o rhs x).
    split; [now apply good_core|]. destruct (core_of (E := E) M fuelc o rhs x) as [r x'] eqn:e. cbn [snd].
    pose proof e as e'. apply core_of_ok in e'; [|cbn; discriminate]. destruct e' as (_ & _ & E1 & E2). split; [|rewrite E1; auto].
    destruct r as [[]|ex|].
    - refine (core_dim n rhs (proj1 (proj2 HL)) M fuelc o x x' Sd (proj1 G) _ D e). exact I.
    - unfold dims. rewrite E2. exact D.
    - unfold dims. rewrite E2. exact D. }
  intros x x' Hx (_ & Hc) _. destruct (Hi x Hx) as (G & D & Hh). destruct (Hs x x' G D Hh Hc) as (_ & _ & _ & Q).
  apply Forall_forall. intros r Hr. apply (In_nth _ _ 0) in Hr as (i & Hi1 & <-). apply Q.
  unfold lm_residual in Hi1. rewrite map_length, seq_length in Hi1. exact (eq_ind _ (fun q => (i < q)%nat) Hi1 _ (wf_state_dim _ _ _ (proj1 G) D)).
Qed.
Lemma C79_residual_lemma rhs n L k m : lipschitz n L rhs -> In (k, m) (am_table ++ bdf_table) -> solve_dim (E := E) ->
  forall te fuelc o (s0 : @st Rops), built (E := E) rhs m s0 -> dims n s0 -> 0 < hstep s0 -> hstep s0 * (L * Rabs (new_weight m)) <= 1 / 2 ->
  leaves_at_most (444 / 10000000000) te m (solver_of (E := E) m fuelc o rhs PInf) s0.
Proof.
  intros HL Hm Sd te fuelc o s0 Hb D Hh Hw. destruct (implicit_stable k m Hm) as (A & B & Bn & -> & (_ & _ & LAB & _)). cbn [new_weight] in Hw.
  apply (steps_leave rhs n L A B Bn fuelc o _ te s0 HL LAB Sd); [|exact (built_good _ _ _ Hb)|exact D].
  exact (steps_any (E := E) rhs n L A B Bn HL LAB Sd fuelc o (hstep s0) Hh Hw).
Qed.
Lemma C79_residual_affine_lemma rhs n L k m a b : lipschitz n L rhs -> In (k, m) (am_table ++ bdf_table) -> solve_dim (E := E) -> n = 1%nat -> affine1 rhs a b ->
  forall te fuelc o (s0 : @st Rops), built (E := E) rhs m s0 -> dims n s0 -> 0 < hstep s0 -> hstep s0 * (L * Rabs (new_weight m)) <= 1 / 2 ->
  leaves_at_most 0 te m (solver_of (E := E) m fuelc o rhs PInf) s0.
Proof.
  intros HL Hm Sd Hn Af te fuelc o s0 Hb D Hh Hw. destruct (implicit_stable k m Hm) as (A & B & Bn & -> & (_ & _ & LAB & _)). cbn [new_weight] in Hw.
  apply (steps_leave rhs n L A B Bn fuelc o _ te s0 HL LAB Sd); [|exact (built_good _ _ _ Hb)|exact D].
  exact (steps_affine (E := E) rhs n L A B Bn HL LAB fuelc o (hstep s0) a b Hn Af Hh Hw).
Qed.
End S.

(** BDF3 started by RungeKutta4 on y' = sqrt(1 + y^2) *)
Lemma cat_started k m h : In (k, m) (am_table ++ bdf_table) -> exists fs s0, starts (E := ER) rhs_cat 0 (sol_cat 0) h (Some RungeKutta4) fs /\
  init_ms (E := ER) m (garb m) rhs_cat 0 (sol_cat 0) (Some h) fs 0 = Ret s0.
Proof.
  intros Hm. exists (FSFixed (fun _ _ _ => Ret (solver_of (E := ER) RungeKutta4 0 default_options rhs_cat PInf, r_cat h))).
  assert (Ex : exists s0, init_ms (E := ER) m (garb m) rhs_cat 0 (sol_cat 0) (Some h) (FSFixed (fun _ _ _ => Ret (solver_of (E := ER) RungeKutta4 0 default_options rhs_cat PInf, r_cat h))) 0 = Ret s0).
  { unfold init_ms, init_base. cbn [rhs_cat obind]. destruct (Nat.eqb _ 1); [eauto|]. cbn [fst snd obind].
    match goal with |- context [fs_fixed_loop ?a ?b ?c ?d] => destruct (fs_loop_returns (E := ER) RungeKutta4 0 default_options rhs_cat a total_cat I c d) as (c' & e); 
      replace (fs_fixed_loop a b c d) with (@Ret (@buffer Rops) c') by (symmetry; exact e) end.
    cbn [obind]. eauto. }
  destruct Ex as (s0 & Hs). exists s0. split; [|exact Hs]. exact (starts_fixed (E := ER) rhs_cat 0 (sol_cat 0) h RungeKutta4 (garb RungeKutta4) (r_cat h) 0 default_options (garb_ok _) (cat_rk4 h)).
Qed.
Lemma cat_recorded h : 0 < h -> exists s0, built (E := ER) rhs_cat AM2 s0 /\ dims 1 s0 /\ hstep s0 = h /\ now s0 = 0 /\ recorded 1 rhs_cat sol_cat 0 0 s0.
Proof.
  intros Hh. assert (Ex : exists s0, init_ms (E := ER) AM2 (garb AM2) rhs_cat 0 (sol_cat 0) (Some h) FSNone 0 = Ret s0).
  { unfold init_ms, init_base. cbn [rhs_cat obind]. destruct (Nat.eqb _ 1); eauto. }
  destruct Ex as (s0 & Hs). exists s0. split; [exact (built_ms (E := ER) rhs_cat AM2 (garb AM2) 0 (sol_cat 0) (Some h) 0 s0 I (garb_ok _) Hs)|].
  unfold init_ms in Hs. cbn in Hs. injection Hs as <-. cbn. split; [split; repeat constructor|]. split; [reflexivity|]. split; [reflexivity|].
  unfold recorded. cbn. split; [right; rring|]. intros j Hj. assert (j = 0)%nat as -> by lia. cbn. split; [rring|]. split; [reflexivity|]. apply near_refl. lra.
Qed.
Lemma exp_affine : affine1 (@rhs_exp Rops) (fun _ => 1) (fun _ => 0).
Proof. intros t p. unfold rhs_exp. do 2 f_equal. apply (eq_sym (x := 1 * p + 0)). lra. Qed.
