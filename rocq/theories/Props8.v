(** C31 - C33: order and convergence of the Runge-Kutta and Adams-Bashforth classes.

    [tree], [density], [weight], [has_order]: rooted trees, their density, the
    elementary weight of a tableau and the order conditions (SpecOrder). *)
From Coq Require Import List ZArith QArith Bool Arith Lia Reals Lra.
From Verif Require Import Base Scalar Vec MBuffer MZeros MSteps MApi MDop853 MClasses Laws Spec SpecInst SpecRK SpecMS
  PVecR PDim PTop1 PMS6 PMS7 Ex SpecOrder POrd3 POrd4.
Import ListNotations.
Open Scope R_scope.

(** * C31  order of the fixed step Runge-Kutta classes
    all order conditions up to p hold, exactly, and not those of order p + 1;
    stage i uses earlier stages only and node i is the sum of row i *)
Theorem C31 : forall m p, In (m, p) rk_table ->
  has_order p (A_rk m) (B_rk m) /\ ~ has_order (S p) (A_rk m) (B_rk m) /\ lower (A_rk m) /\ row_sums (A_rk m) (C_rk m).
Proof. exact C31_order_lemma. Qed.
Print Assumptions C31.
(** the four trees with four nodes, as RungeKutta4 sees them *)
Example C31_ex : map (fun t => (size t, density t)) [Node [Node []; Node []; Node []]; Node [Node []; Node [Node []]]; Node [Node [Node []; Node []]]; Node [Node [Node [Node []]]]]
  = [(4%nat, 4); (4%nat, 8); (4%nat, 12); (4%nat, 24)].
Proof. cbn. repeat (f_equal; try ring). Qed.
(** a step is exact when y' is a polynomial in t of degree less than p *)
Theorem C31_polynomials {E : @Env Rops} : forall m p rhs Ps fuelc o tb (s s' : @st Rops), In (m, p) rk_table ->
  reachable (E := E) rhs m fuelc o tb s -> dims (length Ps) s -> quadrature rhs Ps -> Forall (degree_le p) Ps ->
  took_step (solver_of (E := E) m fuelc o rhs tb) s s' ->
  now s' = now s + hstep s /\ length (state s') = length Ps /\
  forall i, (i < length Ps)%nat ->
    cmp i (state s') - cmp i (state s) = peval (nth i Ps []) (now s') - peval (nth i Ps []) (now s).
Proof. exact C31_poly_lemma. Qed.
Print Assumptions C31_polynomials.
Example C31_polynomials_ex {E : @Env Rops} : let Ps := [[0; 1; 0; 0; 2]; [1; -1]] in
  exists s s' : @st Rops, reachable (E := E) (rhs_poly Ps) RungeKutta4 0 default_options PInf s /\ dims 2 s /\
    quadrature (rhs_poly Ps) Ps /\ Forall (degree_le 4) Ps /\
    took_step (solver_of (E := E) RungeKutta4 0 default_options (rhs_poly Ps) PInf) s s'.
Proof.
  intros Ps. destruct (explicit_took (E := E) RungeKutta4 0 default_options (rhs_poly Ps) (rk4_at (E := E) Ps 1 (1/2)) (rhs_poly_total _) I) as (s' & H).
  exists (rk4_at (E := E) Ps 1 (1/2)), s'. split; [apply reach_built, rk4_at_built|]. split; [apply (rk4_at_props (E := E) Ps 1 (1/2))|].
  split; [apply rhs_poly_quad|]. split; [|exact H]. repeat constructor; unfold degree_le; cbn; lia.
Qed.
(** a step on y' = lam y multiplies y by the Taylor polynomial of exp(h lam);
    Runge3 (four stages, order three) has a further term (h lam)^4 / 12 *)
Theorem C31_exp {E : @Env Rops} : forall m p r rhs lam fuelc o tb (s s' : @st Rops), In (m, p, r) rk_lin_table ->
  reachable (E := E) rhs m fuelc o tb s -> linear rhs lam -> took_step (solver_of (E := E) m fuelc o rhs tb) s s' ->
  let z := hstep s * lam in
  now s' = now s + hstep s /\ state s' = @vscale Rops (taylor p z + r * z ^ S p) (state s).
Proof. exact C31_exp_lemma. Qed.
Print Assumptions C31_exp.
Example C31_exp_ex : linear rhs_exp 1 /\ reachable (E := ER) rhs_exp RungeKutta4 0 default_options PInf (r_rk4 1) /\
  exists s', took_step (solver_of (E := ER) RungeKutta4 0 default_options rhs_exp PInf) (r_rk4 1) s'.
Proof. split; [apply linear_exp|]. split; [apply r_rk4_reach|]. apply explicit_took; [apply total_exp|exact I]. Qed.

(** * C32  the embedded pairs
    the order p of the step, the order q of the formula whose difference from the
    step has the error weights (with rhs at the end of the step as last stage);
    q is the order in the step size controller *)
Theorem C32 : forall m p q, In (m, p, q) pair_table ->
  (has_order p (A_rk m) (B_rk m) /\ ~ has_order (S p) (A_rk m) (B_rk m) /\ lower (A_rk m) /\ row_sums (A_rk m) (C_rk m)) /\
  (has_order q (A_last m) (embedded m (err_weights m)) /\ ~ has_order (S q) (A_last m) (embedded m (err_weights m))) /\
  exponent_order m = Z.of_nat q.
Proof. exact C32_lemma. Qed.
Print Assumptions C32.
(** DOP853: the coefficients are decimal fractions of about 30 digits; all
    conditions up to order 8 hold within 1e-28, those of the two error formulas
    up to orders 5 and 3; some condition of the next order fails by far more *)
Theorem C32_dop853 : let m := DOP853 in
  sharper (1 / 10 ^ 28) (2 / 10 ^ 5) 8 (A_rk m) (B_rk m) /\ lower (A_rk m) /\ row_sums_within (1 / 10 ^ 28) (A_rk m) (C_rk m) /\
  sharper (1 / 10 ^ 27) (4 / 10 ^ 4) 5 (A_last m) (embedded m (err5_weights m)) /\
  sharper (1 / 10 ^ 28) (2 / 10 ^ 2) 3 (A_last m) (embedded m (err3_weights m)) /\
  exponent_order m = 7%Z.
Proof. exact C32_dop_lemma. Qed.
Print Assumptions C32_dop853.
(** exactly, not even the first condition, sum b_i = 1, holds *)
Theorem C32_refuted : ~ has_order 1 (A_rk DOP853) (B_rk DOP853).
Proof. exact C32_refuted_lemma. Qed.
Print Assumptions C32_refuted.
