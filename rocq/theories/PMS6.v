(** Multistep instances over the reals started with RungeKutta4. *)
From Coq Require Import List ZArith QArith Qreals Bool Arith Lia Reals Lra.
From Verif Require Import Base Scalar Vec MBuffer MZeros MSteps MApi MClasses MDop853 Laws Spec SpecInst
  PStep PCore PHist PBound PVecR SpecRK PRK PDim PDense PFwd Ex PTerm PTop1 SpecZeros PZeros PZeros2 SpecMS PMS PMS2 PRK2 PRK3 PMS3 PMS4 PMS5.
Import ListNotations.
Open Scope R_scope.

Lemma rhs_poly_quad Ps : quadrature (rhs_poly Ps) Ps. Proof. intros t y. reflexivity. Qed.
Lemma rhs_poly_total Ps : total (OT := Rops) (rhs_poly Ps). Proof. intros t y. eexists. reflexivity. Qed.
Lemma fs_loop_returns {E : @Env Rops} m1 fuel1 o1 rhs n : total (OT := Rops) rhs -> explicit m1 -> forall s1 c,
  exists c', fs_fixed_loop n (solver_of (E := E) m1 fuel1 o1 rhs PInf) s1 c = Ret c'.
Proof.
  intros Ht He. induction n as [|n IH]; intros s1 c; cbn [fs_fixed_loop]; [eauto|].
  rewrite step_none by reflexivity. cbn [s_core solver_of]. destruct (core_total m1 fuel1 o1 rhs s1 Ht He) as (s' & e). rewrite e. apply IH.
Qed.

Definition rk4_at {E : @Env Rops} (Ps : list (list R)) (t0 h : R) : @st Rops :=
  of_outcome (init_rk (RungeKutta4 (OT := Rops)) (garb RungeKutta4) (rhs_poly Ps) (t0 : @T Rops) (solution Ps t0) (Some h)).
Lemma rk4_at_built {E : @Env Rops} Ps t0 h : built (OT := Rops) (E := E) (rhs_poly Ps) RungeKutta4 (rk4_at Ps t0 h).
Proof.
  refine (built_rk (OT := Rops) (E := E) _ RungeKutta4 (garb RungeKutta4) t0 (solution Ps t0) (Some h) _ I (garb_ok _) _).
  apply of_outcome_ok. reflexivity.
Qed.
Lemma rk4_at_props {E : @Env Rops} Ps t0 h : now (rk4_at Ps t0 h) = t0 /\ state (rk4_at Ps t0 h) = solution Ps t0 /\ hstep (rk4_at Ps t0 h) = h /\
  dims (length Ps) (rk4_at Ps t0 h).
Proof.
  split; [reflexivity|]. split; [reflexivity|]. split; [reflexivity|].
  split; cbn; repeat constructor; apply map_length.
Qed.
(** A multistep instance of any class, started with RungeKutta4, for y' a vector
    of polynomials of degree at most 3: the start-up rows are exact. *)
Lemma startup_exists {E : @Env Rops} m g Ps t0 h : is_multistep m -> (2 <= ms_order m)%nat -> garbage_ok m g -> Forall (degree_le 4) Ps ->
  exists s, init_ms (E := E) m g (rhs_poly Ps) t0 (solution Ps t0) (Some h)
      (FSFixed (fun _ _ _ => Ret (solver_of (E := E) RungeKutta4 0 default_options (rhs_poly Ps) PInf, rk4_at Ps t0 h))) 0 = Ret s /\
    built (E := E) (rhs_poly Ps) m s /\ hstep s = h /\ now s = t0 + INR (ms_order m - 1) * h /\
    tracks (ms_order m) Ps s /\ dims (length Ps) s.
Proof.
  intros Hm Ho Hg HP.
  assert (Ex : exists s, init_ms (E := E) m g (rhs_poly Ps) t0 (solution Ps t0) (Some h)
      (FSFixed (fun _ _ _ => Ret (solver_of (E := E) RungeKutta4 0 default_options (rhs_poly Ps) PInf, rk4_at Ps t0 h))) 0 = Ret s).
  { unfold init_ms. cbn [init_base obind rhs_poly]. destruct (Nat.eqb _ 1); [eauto|]. cbn [fst snd].
    destruct (fs_loop_returns (E := E) RungeKutta4 0 default_options (rhs_poly Ps) (ms_order m - 1) (rhs_poly_total Ps) I (rk4_at Ps t0 h)
       (cache (mkst (buffer_init (len_history m) (g_buf g) t0 (solution Ps t0) (slope Ps t0)) h (g_K g) (mkitp [] [] zero)))) as (c' & e).
    match goal with |- context [fs_fixed_loop ?a ?b ?c ?d] => replace (fs_fixed_loop a b c d) with (@Ret (@buffer Rops) c') by (symmetry; exact e) end.
    cbn [obind]. eauto. }
  destruct Ex as (s & Hs). exists s. split; [exact Hs|].
  destruct (rk4_at_props (E := E) Ps t0 h) as (R1 & R2 & R3 & R4).
  assert (Bu : built (E := E) (rhs_poly Ps) m s).
  { refine (built_ms_fixed (E := E) _ m g t0 (solution Ps t0) (Some h) 0 s RungeKutta4 (rk4_at Ps t0 h) 0 default_options Hm Hg eq_refl (rk4_at_built _ _ _) R1 R2 R3 Hs). }
  split; [exact Bu|].
  destruct (startup_tracks (E := E) m g (rhs_poly Ps) t0 h _ _ _ 4 Ps 0 default_options (rk4_at Ps t0 h) s 0 Hm Ho Hg RungeKutta4_quad
     (rhs_poly_quad Ps) HP (built_good _ _ _ (rk4_at_built _ _ _)) R4 R1 R2 R3 Hs) as (K1 & K2 & K3).
  split; [exact K1|]. split; [exact K2|]. split; [exact K3|].
  assert (Lh : len_history m = ms_order m) by (destruct m; try contradiction; apply Nat.max_l; exact Ho).
  pose proof (built_good _ _ _ Bu) as (((L1 & L2 & L3) & _) & _). rewrite Lh in *.
  destruct K3 as (_ & Y & F). split.
  - rewrite <- (lastn_all (ys (cache s))), L2, Y. apply Forall_map, Forall_forall. intros. apply map_length.
  - rewrite <- (lastn_all (fs (cache s))), L3, F. apply Forall_map, Forall_forall. intros. apply map_length.
Qed.
