(** C27 to C30, C34, C35: the multistep classes over the real numbers.

    [started_rk4 rhs m t0 h y0 s]: [s] is an instance of the multistep class [m]
    built with first stepper RungeKutta4; [took_step sv s s']: a call step() on [s]
    took a step and left [s']; [tracks k Ps s]: the last k recorded rows lie on the
    polynomials Ps; [dims n s]: the recorded rows have length n (SpecMS, SpecRK). *)
From Coq Require Import List ZArith QArith Bool Arith Lia Reals Lra.
From Verif Require Import Base Scalar Vec MBuffer MZeros MSteps MApi MDop853 MClasses Laws Spec SpecInst SpecRK SpecZeros SpecMS
  PVecR PDim PHist PBound Ex PTop1 PMS PMS2 PMS3 PMS4 PMS5 PMS6 PMS7.
Import ListNotations.
Open Scope R_scope.

(** * C27  Adams-Bashforth
    The documented formulas (newest value first) are exact up to degree k ... *)
Theorem C27_documented : forall k m bs, In (k, m, bs) ab_table -> forall p t h, degree_le k p ->
  peval p (t + h) = peval p t + h * dot bs (map (fun j => peval (pder p) (t - INR j * h)) (seq 0 k)).
Proof. exact ab_documented. Qed.
Print Assumptions C27_documented.
(** ... and the derivative used above is the derivative. *)
Theorem C27_derivative : forall p t, derivable_pt_lim (peval p) t (peval (pder p) t).
Proof. exact peval_derivative. Qed.
Print Assumptions C27_derivative.
(** The classes use the documented coefficients on the values oldest first. *)
Theorem C27_formula {E : @Env Rops} : forall k m bs rhs fuelc o tb n (s s' : @st Rops), In (k, m, bs) ab_table ->
  reachable (E := E) rhs m fuelc o tb s -> dims n s -> took_step (solver_of (E := E) m fuelc o rhs tb) s s' ->
  now s' = now s + hstep s /\ length (state s') = n /\ rhs (now s') (state s') = Ret (deriv s') /\
  forall i, (i < n)%nat -> cmp i (state s') =
    cmp i (state s) + hstep s * dot bs (map (fun f => cmp i f) (lastn k (fs (cache s)))).
Proof. exact C27_formula_lemma. Qed.
Print Assumptions C27_formula.
(** Refuted for k = 2, 3, 4, 5: for y' = 2 t started exactly, one step ends at
    t^2 - 2 k h^2, whatever t0 and h. *)
Theorem C27_refuted {E : @Env Rops} : forall k m bs t0 h, In (k, m, bs) ab_table -> (2 <= k)%nat -> h <> 0 ->
  exists s s' : @st Rops, started_rk4 (E := E) (rhs_poly [[0; 0; 1]]) m t0 h (solution [[0; 0; 1]] t0) s /\ tracks k [[0; 0; 1]] s /\
    took_step (solver_of (E := E) m 0 default_options (rhs_poly [[0; 0; 1]]) PInf) s s' /\
    now s' = now s + h /\ state s' = [peval [0; 0; 1] (now s') - 2 * INR k * h ^ 2] /\ state s' <> solution [[0; 0; 1]] (now s').
Proof. exact C27_refuted_lemma. Qed.
Print Assumptions C27_refuted.
(** The error on every quadratic solution, for every right-hand side. *)
Theorem C27_defect {E : @Env Rops} : forall k m bs rhs Ps fuelc o tb (s s' : @st Rops), In (k, m, bs) ab_table -> (2 <= k)%nat ->
  reachable (E := E) rhs m fuelc o tb s -> dims (length Ps) s -> Forall (degree_le 2) Ps -> tracks k Ps s ->
  took_step (solver_of (E := E) m fuelc o rhs tb) s s' ->
  now s' = now s + hstep s /\
  forall i, (i < length Ps)%nat -> cmp i (state s') =
    peval (nth i Ps []) (now s') - 2 * INR k * nth 2 (nth i Ps []) 0 * (hstep s * hstep s).
Proof. exact C27_defect_lemma. Qed.
Print Assumptions C27_defect.
(** What holds of all five classes: exact, and exact again, for degree at most 1.
    Missing: degrees 2 to k, see above. *)
Theorem C27_partial {E : @Env Rops} : forall k m bs rhs Ps fuelc o tb (s s' : @st Rops), In (k, m, bs) ab_table ->
  reachable (E := E) rhs m fuelc o tb s -> dims (length Ps) s -> Forall (degree_le 1) Ps -> tracks k Ps s -> solves rhs Ps ->
  took_step (solver_of (E := E) m fuelc o rhs tb) s s' ->
  now s' = now s + hstep s /\ state s' = solution Ps (now s') /\ tracks k Ps s'.
Proof. exact C27_linear_lemma. Qed.
Print Assumptions C27_partial.
(** y' = (1, -2), AdamsBashforth4 *)
Example C27_ex {E : @Env Rops} : let Ps := [[0; 1]; [5; -2]] in
  exists s s' : @st Rops, started_rk4 (E := E) (rhs_poly Ps) AB4 3 (1/2) (solution Ps 3) s /\
   reachable (E := E) (rhs_poly Ps) AB4 0 default_options PInf s /\ dims 2 s /\ Forall (degree_le 1) Ps /\ tracks 4 Ps s /\
   solves (rhs_poly Ps) Ps /\ took_step (solver_of (E := E) AB4 0 default_options (rhs_poly Ps) PInf) s s'.
Proof.
  intros Ps. assert (HP : Forall (degree_le 4) Ps) by (repeat constructor; unfold degree_le; cbn; lia).
  destruct (started_exists (E := E) AB4 Ps 3 (1/2) I ltac:(cbn; lia) HP) as (s & Hs).
  destruct (started_spec _ AB4 _ _ _ s I ltac:(cbn; lia) (rhs_poly_quad _) HP Hs) as (Bu & _ & _ & Tr & D).
  destruct (explicit_runs (E := E) (A_of AB4) (B_of AB4) 0 default_options (rhs_poly Ps) s (rhs_poly_total _)) as (s' & St).
  exists s, s'. repeat (split; [first [exact Hs | now apply reach_built | exact D | exact Tr | repeat constructor; unfold degree_le; cbn; lia | intros t; reflexivity]|]).
  exact St.
Qed.

(** A multistep instance started by RungeKutta4 has the exact history when the
    solution is polynomial of degree at most 4 and the right-hand side depends on
    time alone: the hypothesis [tracks] of this file can be met for every class. *)
Theorem C27_startup {E : @Env Rops} : forall rhs m t0 h Ps (s : @st Rops), is_multistep m -> (2 <= ms_order m)%nat ->
  quadrature rhs Ps -> Forall (degree_le 4) Ps -> started_rk4 (E := E) rhs m t0 h (solution Ps t0) s ->
  built (E := E) rhs m s /\ hstep s = h /\ now s = t0 + INR (ms_order m - 1) * h /\ tracks (ms_order m) Ps s /\ dims (length Ps) s.
Proof. exact started_spec. Qed.
Print Assumptions C27_startup.
Theorem C27_startup_exists {E : @Env Rops} : forall m Ps t0 h, is_multistep m -> (2 <= ms_order m)%nat -> Forall (degree_le 4) Ps ->
  exists s, started_rk4 (E := E) (rhs_poly Ps) m t0 h (solution Ps t0) s.
Proof. exact started_exists. Qed.
Print Assumptions C27_startup_exists.

(** * C28  Adams-Moulton
    AdamsMoulton1, 2, 3: polynomials of degree at most k satisfy the implicit
    equation of the step exactly, in any dimension; *)
Theorem C28_relation {E : @Env Rops} : forall k m rhs Ps fuelc o tb (s : @st Rops), In (k, m) am_table ->
  reachable (E := E) rhs m fuelc o tb s -> Forall (degree_le k) Ps -> tracks (length (A_of m)) Ps s ->
  lm_relation (A_of m) (B_of m) (new_weight m) s (solution Ps (now s + hstep s)) (slope Ps (now s + hstep s)).
Proof. intros k m rhs Ps fuelc o tb s H. exact (exact_relation m k rhs Ps fuelc o tb s (proj1 (am_spec _ _ H))). Qed.
Print Assumptions C28_relation.
(** a scalar step on y' = a(t) y + b(t) is exact and keeps the history exact; *)
Theorem C28_partial {E : @Env Rops} : forall k m rhs p a b fuelc o tb (s s' : @st Rops), In (k, m) am_table ->
  reachable (E := E) rhs m fuelc o tb s -> dims 1 s -> degree_le k p -> affine1 rhs a b -> solves rhs [p] ->
  tracks (length (A_of m)) [p] s -> 1 - hstep s * new_weight m * a (now s + hstep s) <> 0 ->
  took_step (solver_of (E := E) m fuelc o rhs tb) s s' ->
  now s' = now s + hstep s /\ state s' = [peval p (now s')] /\ tracks (length (A_of m)) [p] s'.
Proof.
  intros k m rhs p a b fuelc o tb s s' H. destruct (am_spec _ _ H) as (X & Im & LA).
  exact (exact_scalar m k rhs p a b fuelc o tb s s' X Im LA).
Qed.
Print Assumptions C28_partial.
(** a step on a system y' = f(t) is exact within the tolerance of the root finder. *)
Theorem C28_system {E : @Env Rops} : forall k m rhs Ps fuelc o tb (s s' : @st Rops), In (k, m) am_table ->
  reachable (E := E) rhs m fuelc o tb s -> dims (length Ps) s -> length Ps <> 1%nat -> solve_dim (E := E) ->
  Forall (degree_le k) Ps -> quadrature rhs Ps -> tracks (length (A_of m)) Ps s ->
  took_step (solver_of (E := E) m fuelc o rhs tb) s s' ->
  now s' = now s + hstep s /\
  norm2 (map (fun i => cmp i (state s') - peval (nth i Ps []) (now s')) (seq 0 (length Ps))) <= 148 / 10000000000.
Proof.
  intros k m rhs Ps fuelc o tb s s' H. destruct (am_spec _ _ H) as (X & Im & LA).
  exact (exact_system m k rhs Ps fuelc o tb s s' X Im).
Qed.
Print Assumptions C28_system.
(** AdamsMoulton4 and 5 are refuted already at degree 2: for y' = 2 t started
    exactly one step ends at t^2 - 3 h^2, or t^2 - (325/72) h^2. *)
Theorem C28_refuted {E : @Env Rops} : forall m D t0 h, In (m, D) am_defects -> h <> 0 ->
  exists s s' : @st Rops, started_rk4 (E := E) (rhs_poly [[0; 0; 1]]) m t0 h (solution [[0; 0; 1]] t0) s /\ tracks (length (A_of m)) [[0; 0; 1]] s /\
    took_step (solver_of (E := E) m 0 default_options (rhs_poly [[0; 0; 1]]) PInf) s s' /\
    now s' = now s + h /\ state s' = [peval [0; 0; 1] (now s') - D * h ^ 2] /\ state s' <> solution [[0; 0; 1]] (now s').
Proof. exact C28_refuted_lemma. Qed.
Print Assumptions C28_refuted.
Theorem C28_defect {E : @Env Rops} : forall m D rhs p fuelc o tb (s s' : @st Rops), In (m, D) am_defects ->
  reachable (E := E) rhs m fuelc o tb s -> dims 1 s -> degree_le 2 p -> quadrature rhs [p] -> tracks (length (A_of m)) [p] s ->
  took_step (solver_of (E := E) m fuelc o rhs tb) s s' ->
  now s' = now s + hstep s /\ state s' = [peval p (now s') - D * nth 2 p 0 * (hstep s * hstep s)].
Proof. exact C28_defect_lemma. Qed.
Print Assumptions C28_defect.
(** AdamsMoulton3 on y = t^3 - t + 1 *)
Example C28_ex {E : @Env Rops} : let p := [1; -1; 0; 1] in
  exists s s' : @st Rops, started_rk4 (E := E) (rhs_poly [p]) AM3 2 (1/4) (solution [p] 2) s /\ In (3%nat, AM3) am_table /\
   reachable (E := E) (rhs_poly [p]) AM3 0 default_options PInf s /\ dims 1 s /\ degree_le 3 p /\
   affine1 (rhs_poly [p]) (fun _ => 0) (peval (pder p)) /\ solves (rhs_poly [p]) [p] /\ tracks (length (A_of AM3)) [p] s /\
   1 - hstep s * new_weight AM3 * 0 <> 0 /\
   took_step (solver_of (E := E) AM3 0 default_options (rhs_poly [p]) PInf) s s'.
Proof.
  intros p. assert (HP : Forall (degree_le 4) [p]) by (repeat constructor; unfold degree_le; cbn; lia).
  destruct (started_exists (E := E) AM3 [p] 2 (1/4) I ltac:(cbn; lia) HP) as (s & Hs).
  destruct (started_spec _ AM3 _ _ _ s I ltac:(cbn; lia) (rhs_poly_quad _) HP Hs) as (Bu & _ & _ & Tr & D).
  assert (Af : affine1 (rhs_poly [p]) (fun _ => 0) (peval (pder p))) by (intros t y; unfold rhs_poly, slope; cbn [map]; do 2 f_equal; ring).
  destruct (scalar_runs (E := E) AM3 (rhs_poly [p]) _ _ 0 default_options s I eq_refl (reach_built _ _ _ _ _ _ Bu) D Af) as (s' & St).
  { rewrite Rmult_0_r. lra. }
  exists s, s'. split; [exact Hs|]. split; [cbn; auto|]. split; [now apply reach_built|]. split; [exact D|]. split; [unfold degree_le; cbn; lia|].
  split; [exact Af|]. split; [intros t; reflexivity|]. split; [exact Tr|]. split; [rewrite Rmult_0_r; lra | exact St].
Qed.

(** * C29  BDF1 to BDF6
    Same three statements, for all six classes. *)
Theorem C29_relation {E : @Env Rops} : forall k m rhs Ps fuelc o tb (s : @st Rops), In (k, m) bdf_table ->
  reachable (E := E) rhs m fuelc o tb s -> Forall (degree_le k) Ps -> tracks (length (A_of m)) Ps s ->
  lm_relation (A_of m) (B_of m) (new_weight m) s (solution Ps (now s + hstep s)) (slope Ps (now s + hstep s)).
Proof. intros k m rhs Ps fuelc o tb s H. exact (exact_relation m k rhs Ps fuelc o tb s (proj1 (bdf_spec _ _ H))). Qed.
Print Assumptions C29_relation.
Theorem C29_scalar {E : @Env Rops} : forall k m rhs p a b fuelc o tb (s s' : @st Rops), In (k, m) bdf_table ->
  reachable (E := E) rhs m fuelc o tb s -> dims 1 s -> degree_le k p -> affine1 rhs a b -> solves rhs [p] ->
  tracks (length (A_of m)) [p] s -> 1 - hstep s * new_weight m * a (now s + hstep s) <> 0 ->
  took_step (solver_of (E := E) m fuelc o rhs tb) s s' ->
  now s' = now s + hstep s /\ state s' = [peval p (now s')] /\ tracks (length (A_of m)) [p] s'.
Proof.
  intros k m rhs p a b fuelc o tb s s' H. destruct (bdf_spec _ _ H) as (X & Im & LA).
  exact (exact_scalar m k rhs p a b fuelc o tb s s' X Im LA).
Qed.
Print Assumptions C29_scalar.
Theorem C29_system {E : @Env Rops} : forall k m rhs Ps fuelc o tb (s s' : @st Rops), In (k, m) bdf_table ->
  reachable (E := E) rhs m fuelc o tb s -> dims (length Ps) s -> length Ps <> 1%nat -> solve_dim (E := E) ->
  Forall (degree_le k) Ps -> quadrature rhs Ps -> tracks (length (A_of m)) Ps s ->
  took_step (solver_of (E := E) m fuelc o rhs tb) s s' ->
  now s' = now s + hstep s /\
  norm2 (map (fun i => cmp i (state s') - peval (nth i Ps []) (now s')) (seq 0 (length Ps))) <= 148 / 10000000000.
Proof.
  intros k m rhs Ps fuelc o tb s s' H. destruct (bdf_spec _ _ H) as (X & Im & LA).
  exact (exact_system m k rhs Ps fuelc o tb s s' X Im).
Qed.
Print Assumptions C29_system.
(** BDF4 on y' = 4 t^3 *)
Example C29_ex {E : @Env Rops} : let p := [0; 0; 0; 0; 1] in
  exists s s' : @st Rops, started_rk4 (E := E) (rhs_poly [p]) BDF4 2 (1/4) (solution [p] 2) s /\ In (4%nat, BDF4) bdf_table /\
   reachable (E := E) (rhs_poly [p]) BDF4 0 default_options PInf s /\ dims 1 s /\ degree_le 4 p /\
   affine1 (rhs_poly [p]) (fun _ => 0) (peval (pder p)) /\ solves (rhs_poly [p]) [p] /\ tracks (length (A_of BDF4)) [p] s /\
   1 - hstep s * new_weight BDF4 * 0 <> 0 /\
   took_step (solver_of (E := E) BDF4 0 default_options (rhs_poly [p]) PInf) s s'.
Proof.
  intros p. assert (HP : Forall (degree_le 4) [p]) by (repeat constructor; unfold degree_le; cbn; lia).
  destruct (started_exists (E := E) BDF4 [p] 2 (1/4) I ltac:(cbn; lia) HP) as (s & Hs).
  destruct (started_spec _ BDF4 _ _ _ s I ltac:(cbn; lia) (rhs_poly_quad _) HP Hs) as (Bu & _ & _ & Tr & D).
  assert (Af : affine1 (rhs_poly [p]) (fun _ => 0) (peval (pder p))) by (intros t y; unfold rhs_poly, slope; cbn [map]; do 2 f_equal; ring).
  destruct (scalar_runs (E := E) BDF4 (rhs_poly [p]) _ _ 0 default_options s I eq_refl (reach_built _ _ _ _ _ _ Bu) D Af) as (s' & St).
  { rewrite Rmult_0_r. lra. }
  exists s, s'. split; [exact Hs|]. split; [cbn; auto|]. split; [now apply reach_built|]. split; [exact D|]. split; [unfold degree_le; cbn; lia|].
  split; [exact Af|]. split; [intros t; reflexivity|]. split; [exact Tr|]. split; [rewrite Rmult_0_r; lra | exact St].
Qed.

(** * C30  y' = c
    Runge-Kutta classes, every dimension, c, h: the step is w h c where w is the sum
    of the weights, 1 for all classes but DOP853, whose literals add up to a little
    more than 1. *)
Theorem C30_rk {E : @Env Rops} : forall m w c rhs fuelc o tb (s s' : @st Rops), In (m, w) rk_sums ->
  reachable (E := E) rhs m fuelc o tb s -> dims (length c) s -> constant rhs c ->
  took_step (solver_of (E := E) m fuelc o rhs tb) s s' ->
  length (state s') = length c /\
  forall i, (i < length c)%nat -> cmp i (state s') = cmp i (state s) + w * (now s' - now s) * cmp i c.
Proof. exact C30_rk_lemma. Qed.
Print Assumptions C30_rk.
(** Adams-Bashforth, every dimension *)
Theorem C30_ab {E : @Env Rops} : forall k m bs c rhs fuelc o tb (s s' : @st Rops), In (k, m, bs) ab_table ->
  reachable (E := E) rhs m fuelc o tb s -> dims (length c) s -> constant rhs c ->
  took_step (solver_of (E := E) m fuelc o rhs tb) s s' ->
  length (state s') = length c /\
  forall i, (i < length c)%nat -> cmp i (state s') = cmp i (state s) + (now s' - now s) * cmp i c.
Proof. exact C30_ab_lemma. Qed.
Print Assumptions C30_ab.
(** Adams-Moulton, dimension 1 *)
Theorem C30_am_partial {E : @Env Rops} : forall m c rhs fuelc o tb (s s' : @st Rops), In m am_all ->
  reachable (E := E) rhs m fuelc o tb s -> dims 1 s -> constant rhs [c] ->
  took_step (solver_of (E := E) m fuelc o rhs tb) s s' ->
  now s' = now s + hstep s /\ state s' = [cmp 0 (state s) + hstep s * c].
Proof. exact C30_am_lemma. Qed.
Print Assumptions C30_am_partial.
(** Refuted in dimension 2: AdamsMoulton1 with h = 1 on y' = (1e-8, 0) does not move,
    however many steps it takes. *)
Theorem C30_refuted {E : @Env Rops} : forall n : nat,
  exists s0 sn : @st Rops, built (E := E) (rhs_const [1 / 100000000; 0]) AM1 s0 /\ now s0 = 0 /\ state s0 = [0; 0] /\
    returns (E := E) (solver_of (E := E) AM1 0 default_options (rhs_const [1 / 100000000; 0]) PInf) 0 (repeat (CStep None None) n) s0 sn /\
    now sn = INR n /\ state sn = [0; 0].
Proof. exact C30_stall_refuted_lemma. Qed.
Print Assumptions C30_refuted.
(** the same for every Adams-Moulton class whenever |h c| <= 1.48e-8 *)
Theorem C30_stall {E : @Env Rops} : forall m c rhs fuelc o tb (s s' : @st Rops), In m am_all ->
  reachable (E := E) rhs m fuelc o tb s -> dims (length c) s -> length c <> 1%nat -> constant rhs c ->
  norm2 (map (fun x => hstep s * x) c) <= 148 / 10000000000 ->
  took_step (solver_of (E := E) m fuelc o rhs tb) s s' ->
  now s' = now s + hstep s /\ state s' = state s.
Proof. exact C30_stall_lemma. Qed.
Print Assumptions C30_stall.
(** Refuted for BDF2 to BDF6 built without a first stepper: the first step moves by
    Bn h c, Bn the coefficient of the new derivative, and Bn < 1. *)
Theorem C30_bdf_refuted {E : @Env Rops} : forall k m t0 y0 h c, In (k, m) bdf_table -> (2 <= k)%nat -> h <> 0 -> c <> 0 ->
  exists s s' : @st Rops, init_ms (E := E) m (garb m) (rhs_const [c]) t0 [y0] (Some h) FSNone 0 = Ret s /\
    took_step (solver_of (E := E) m 0 default_options (rhs_const [c]) PInf) s s' /\ 
    state s' = [y0 + new_weight m * h * c] /\ state s' <> [y0 + h * c].
Proof. exact C30_bdf_refuted_lemma. Qed.
Print Assumptions C30_bdf_refuted.
(** (BDF started with an exact history is exact: C29_scalar with p of degree 1.) *)

(** * C34  implicit steps on systems
    Every outcome of step() for an implicit multistep method in dimension other than
    1: success means the residual is within 1.48e-8; failure means RuntimeError, or
    an exception of the right-hand side or of numpy.linalg.solve, and no change. *)
Theorem C34 {E : @Env Rops} : forall A B Bn fuelc o rhs tb n fuel (s : @st Rops),
  length A = length B -> reachable (E := E) rhs (@ImplMS Rops A B Bn) fuelc o tb s -> dims n s -> n <> 1%nat ->
  keeps_dim n rhs -> solve_dim (E := E) ->
  match step (solver_of (E := E) (@ImplMS Rops A B Bn) fuelc o rhs tb) fuel None None s with
  | (Ret (ROne _ _), s') => now s' = now s + hstep s /\ length (state s') = n /\ rhs (now s') (state s') = Ret (deriv s') /\
      norm2 (lm_residual A B Bn s (state s') (deriv s')) <= 148 / 10000000000
  | (Ret (RMany _), _) => False
  | (Ret RNone, s') => s' = s /\ would_pass tb s
  | (Raise e, s') => s' = s /\ (e = RuntimeError \/ (exists t y, rhs t y = Raise e) \/ (exists J b, @np_solve Rops E J b = Raise e))
  | (Loop, s') => s' = s /\ ((exists t y, rhs t y = Loop) \/ (exists J b, @np_solve Rops E J b = Loop))
  end.
Proof. exact C34_lemma. Qed.
Print Assumptions C34.
(** AdamsMoulton3 on a system of three equations *)
Example C34_ex {E : @Env Rops} : let Ps := [[0; 1]; [5; -2; 3]; [1]] in
  exists s : @st Rops, reachable (E := E) (rhs_poly Ps) AM3 0 default_options PInf s /\ dims 3 s /\ keeps_dim 3 (rhs_poly Ps) /\
    length (A_of AM3) = length (B_of AM3) /\ AM3 = @ImplMS Rops (A_of AM3) (B_of AM3) (new_weight AM3).
Proof.
  intros Ps. assert (HP : Forall (degree_le 4) Ps) by (repeat constructor; unfold degree_le; cbn; lia).
  destruct (started_exists (E := E) AM3 Ps 3 (1/2) I ltac:(cbn; lia) HP) as (s & Hs).
  destruct (started_spec _ AM3 _ _ _ s I ltac:(cbn; lia) (rhs_poly_quad _) HP Hs) as (Bu & _ & _ & Tr & D).
  exists s. split; [now apply reach_built|]. split; [exact D|]. split; [intros t y f _ [= <-]; reflexivity|]. split; reflexivity.
Qed.

(** * C35  implicit steps on scalar affine problems *)
Theorem C35 {E : @Env Rops} : forall A B Bn fuelc o rhs tb (s s' : @st Rops) a b, length A = length B ->
  reachable (E := E) rhs (@ImplMS Rops A B Bn) fuelc o tb s -> dims 1 s -> affine1 rhs a b ->
  1 - hstep s * Bn * a (now s + hstep s) <> 0 ->
  took_step (solver_of (E := E) (@ImplMS Rops A B Bn) fuelc o rhs tb) s s' ->
  now s' = now s + hstep s /\ deriv s' = [a (now s') * cmp 0 (state s') + b (now s')] /\
  (forall z, lm_relation A B Bn s [z] [a (now s') * z + b (now s')] <-> state s' = [z]).
Proof.
  intros A B Bn fuelc o rhs tb s s' a b LAB G D Af Hne St.
  destruct (implicit_affine A B Bn fuelc o rhs tb s s' a b (proj1 (reach_good _ _ _ _ _ _ G)) LAB D Af Hne St) as (H1 & _ & _ & H2 & H3). auto.
Qed.
Print Assumptions C35.
(** and the step is always taken *)
Theorem C35_returns {E : @Env Rops} : forall A B Bn fuelc o rhs (s : @st Rops) a b, length A = length B ->
  reachable (E := E) rhs (@ImplMS Rops A B Bn) fuelc o PInf s -> dims 1 s -> affine1 rhs a b ->
  1 - hstep s * Bn * a (now s + hstep s) <> 0 ->
  exists s', took_step (solver_of (E := E) (@ImplMS Rops A B Bn) fuelc o rhs PInf) s s'.
Proof.
  intros A B Bn fuelc o rhs s a b LAB G D Af Hne.
  exact (implicit_affine_runs A B Bn fuelc o rhs s a b (proj1 (reach_good _ _ _ _ _ _ G)) LAB D Af Hne).
Qed.
Print Assumptions C35_returns.
(** BDF2 and BackwardEuler on y' = -3 y + t *)
Example C35_ex {E : @Env Rops} : let rhs : @rhs_t Rops := fun t y => Ret [-3 * cmp 0 y + t] in
  exists s : @st Rops, reachable (E := E) rhs BDF2 0 default_options PInf s /\ dims 1 s /\ affine1 rhs (fun _ => -3) (fun t => t) /\
    length (A_of BDF2) = length (B_of BDF2) /\ BDF2 = @ImplMS Rops (A_of BDF2) (B_of BDF2) (new_weight BDF2) /\
    1 - hstep s * new_weight BDF2 * -3 <> 0.
Proof.
  intros rhs.
  assert (Ex : exists s : @st Rops, init_ms (E := E) BDF2 (garb BDF2) rhs 0 [1] (Some 1) FSNone 0 = Ret s).
  { unfold init_ms. cbn [init_base obind rhs]. destruct (Nat.eqb _ 1); eauto. }
  destruct Ex as (s & Hs). assert (Bu : built (E := E) rhs BDF2 s) by (eapply built_ms; [exact I|apply garb_ok|exact Hs]).
  exists s. split; [now apply reach_built|].
  unfold init_ms in Hs. cbn in Hs. injection Hs as <-.
  split; [repeat constructor|]. split; [intros t y; reflexivity|]. split; [reflexivity|]. split; [reflexivity|].
  cbv [BDF2 bdf new_weight]. cbn [hstep]. rtidy. cbn. match goal with |- ?a <> _ => replace a with 3 by field end. lra.
Qed.
