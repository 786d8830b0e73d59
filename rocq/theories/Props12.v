(** Properties C72 and following. *)
From Coq Require Import List ZArith QArith Bool Arith Lia Reals Lra.
From Verif Require Import Base Scalar Vec MBuffer MZeros MSteps MApi MDop853 MClasses Laws Spec SpecInst SpecRK SpecMS PBound PVecR PHist PTop1 Ex
  SpecStab PStab PExStab SpecGlob PGlob PExGlob.
Import ListNotations.
Open Scope R_scope.

(** * C72  the linear test equation y' = lam y
    [factors], [implicit_factors]: class and factor R(z), z = h lam;
    [times c y]: c y *)
Theorem C72 {E : @Env Rops} : forall lam m f n fuelc o tb fuel cs (s0 s : @st Rops), In (m, f) factors -> is_fixed m = true ->
  built (E := E) (test_equation lam) m s0 -> dims n s0 ->
  s = session (E := E) (solver_of (E := E) m fuelc o (test_equation lam) tb) fuel cs s0 ->
  exists k, now s = now s0 + INR k * hstep s0 /\ state s = times (f (hstep s0 * lam) ^ k) (state s0).
Proof. exact C72_lemma. Qed.
Print Assumptions C72.
(** a single step, the variable step classes included *)
Theorem C72_step {E : @Env Rops} : forall lam m f n fuelc o tb (s s' : @st Rops), In (m, f) factors ->
  reachable (E := E) (test_equation lam) m fuelc o tb s -> dims n s ->
  took_step (solver_of (E := E) m fuelc o (test_equation lam) tb) s s' ->
  state s' = times (f ((now s' - now s) * lam)) (state s).
Proof. exact C72_step_lemma. Qed.
Print Assumptions C72_step.
Theorem C72_implicit {E : @Env Rops} : forall lam m w f fuelc o tb fuel cs (s0 s : @st Rops), In (m, w, f) implicit_factors ->
  built (E := E) (test_equation lam) m s0 -> dims 1 s0 -> w * (hstep s0 * lam) <> 1 ->
  s = session (E := E) (solver_of (E := E) m fuelc o (test_equation lam) tb) fuel cs s0 ->
  exists k, now s = now s0 + INR k * hstep s0 /\ state s = times (f (hstep s0 * lam) ^ k) (state s0).
Proof. exact C72_implicit_lemma. Qed.
Print Assumptions C72_implicit.
(** whatever the step, the one step implicit classes do not amplify decaying solutions *)
Theorem C72_A_stable {E : @Env Rops} : forall lam m w f fuelc o tb fuel cs (s0 s : @st Rops), In (m, w, f) implicit_factors ->
  built (E := E) (test_equation lam) m s0 -> dims 1 s0 -> hstep s0 * lam <= 0 ->
  s = session (E := E) (solver_of (E := E) m fuelc o (test_equation lam) tb) fuel cs s0 ->
  forall i, Rabs (cmp i (state s)) <= Rabs (cmp i (state s0)).
Proof. exact C72_A_stable_lemma. Qed.
Print Assumptions C72_A_stable.
(** the explicit ones do not for steps in the intervals of [stable_for] *)
Theorem C72_stable {E : @Env Rops} : forall lam m a n fuelc o tb fuel cs (s0 s : @st Rops), In (m, a) stable_for ->
  built (E := E) (test_equation lam) m s0 -> dims n s0 -> - a <= hstep s0 * lam <= 0 ->
  s = session (E := E) (solver_of (E := E) m fuelc o (test_equation lam) tb) fuel cs s0 ->
  forall i, Rabs (cmp i (state s)) <= Rabs (cmp i (state s0)).
Proof. exact C72_stable_lemma. Qed.
Print Assumptions C72_stable.
(** and grow without bound when |R(h lam)| > 1 *)
Theorem C72_unstable {E : @Env Rops} : forall lam m f n fuelc o (s0 : @st Rops) i, In (m, f) factors -> is_fixed m = true ->
  built (E := E) (test_equation lam) m s0 -> dims n s0 -> 1 < Rabs (f (hstep s0 * lam)) -> cmp i (state s0) <> 0 ->
  forall M, exists cs, M < Rabs (cmp i (state (session (E := E) (solver_of (E := E) m fuelc o (test_equation lam) PInf) 0 cs s0))).
Proof. exact C72_unstable_lemma. Qed.
Print Assumptions C72_unstable.
(** y' = -3 y, y(0) = 1 with step 1: ForwardEuler gives -2, BackwardEuler 1/4 *)
Example C72_ex {E : @Env Rops} :
  (exists s0 s, built (E := E) (test_equation (-3)) ForwardEuler s0 /\ dims 1 s0 /\ hstep s0 = 1 /\ state s0 = [1] /\
    1 < Rabs (1 + hstep s0 * -3) /\ took_step (solver_of (E := E) ForwardEuler 0 default_options (test_equation (-3)) PInf) s0 s /\ state s = [-2]) /\
  (exists s0 s, built (E := E) (test_equation (-3)) BackwardEuler s0 /\ dims 1 s0 /\ hstep s0 * -3 <= 0 /\
    took_step (solver_of (E := E) BackwardEuler 0 default_options (test_equation (-3)) PInf) s0 s /\ state s = [1 / 4]) /\
  (exists s0 s, built (E := E) (test_equation (-1)) RungeKutta4 s0 /\ dims 2 s0 /\ - (278 / 100) <= hstep s0 * -1 <= 0 /\
    took_step (solver_of (E := E) RungeKutta4 0 default_options (test_equation (-1)) PInf) s0 s /\ state s = [3 / 8; 3 / 4]).
Proof. split; [exact fe_ex|split; [exact be_ex|exact rk4_ex]]. Qed.

(** * C73  the order of the Adams classes over many steps
    Refuted for AdamsBashforth2 to 5 and AdamsMoulton4 and 5: on y' = 2t, started
    exactly, the error at some time before t0 + 1 exceeds K h^2, whatever K, for
    every small enough h. *)
Theorem C73_refuted {E : @Env Rops} : forall m D t0 K fuelc o, In (m, D) adams_defects -> exists h0, 0 < h0 /\ forall h, 0 < h < h0 ->
  exists (s0 : @st Rops) cs, let s := session (E := E) (solver_of (E := E) m fuelc o (rhs_poly [[0; 0; 1]]) PInf) 0 cs s0 in
    started_rk4 (E := E) (rhs_poly [[0; 0; 1]]) m t0 h [t0 ^ 2] s0 /\ t0 < now s < t0 + 1 /\ K * h ^ 2 < Rabs (cmp 0 (state s) - now s ^ 2).
Proof. exact C73_refuted_lemma. Qed.
Print Assumptions C73_refuted.
(** The error on any quadratic p = c0 + c1 t + c2 t^2, after any calls: exactly
    -D c2 h times the time since the start-up. *)
Theorem C73_drift {E : @Env Rops} : forall m D p rhs t0 h fuelc o tb fuel cs (s0 s : @st Rops), In (m, D) adams_defects -> degree_le 2 p ->
  quadrature rhs [p] -> started_rk4 (E := E) rhs m t0 h [peval p t0] s0 ->
  s = session (E := E) (solver_of (E := E) m fuelc o rhs tb) fuel cs s0 ->
  exists n, now s = t0 + INR (ms_order m - 1 + n) * h /\ state s = [peval p (now s) - D * nth 2 p 0 * h * (INR n * h)].
Proof. exact C73_lemma. Qed.
Print Assumptions C73_drift.
(** What holds: AdamsMoulton1 to 3 and BDF1 to 6 stay exact on polynomials of
    degree at most k, after any calls (scalar y' = a(t) y + b(t)). *)
Theorem C73_partial {E : @Env Rops} : forall k m p rhs a b fuelc o tb fuel cs (s0 s : @st Rops), In (k, m) (am_table ++ bdf_table) ->
  degree_le k p -> affine1 rhs a b -> solves rhs [p] -> built (E := E) rhs m s0 -> dims 1 s0 -> tracks (length (A_of m)) [p] s0 ->
  (forall t, 1 - hstep s0 * new_weight m * a t <> 0) ->
  s = session (E := E) (solver_of (E := E) m fuelc o rhs tb) fuel cs s0 ->
  state s = [peval p (now s)].
Proof. exact C73_exact_lemma. Qed.
Print Assumptions C73_partial.
Example C73_ex {E : @Env Rops} :
  (exists s0, started_rk4 (E := E) (rhs_poly [[0; 0; 1]]) AB3 0 (1 / 10) [peval [0; 0; 1] 0] s0 /\
    let s := session (E := E) (solver_of (E := E) AB3 0 default_options (rhs_poly [[0; 0; 1]]) PInf) 0 (repeat (CStep None None) 10) s0 in
    now s = 12 / 10 /\ state s = [84 / 100]) /\
  (let p := [1; -1; 0; 1] in exists s0, built (E := E) (rhs_poly [p]) BDF3 s0 /\ dims 1 s0 /\ hstep s0 = 1 / 4 /\
    tracks (length (A_of BDF3)) [p] s0 /\ affine1 (rhs_poly [p]) (fun _ => 0) (peval (pder p)) /\ solves (rhs_poly [p]) [p] /\ degree_le 3 p /\
    (forall t : R, 1 - hstep s0 * new_weight BDF3 * (fun _ => 0) t <> 0)).
Proof. exact (conj ab3_ex bdf3_ex). Qed.
