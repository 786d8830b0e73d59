(** C81, and the floating point halves of C10, C12 and C63. *)
From Coq Require Import List ZArith QArith Bool Arith Lia Reals Lra SpecFloat.
From Verif Require Import Base Scalar Vec MBuffer MZeros MSteps MApi MDop853 MClasses Spec SpecInst PVecR SpecRK SpecConv SpecConv3 PConv8 PExVar Ex SpecFl PFl1 PFl4 PFl5 PFl6 PExFl.
Import ListNotations.
Open Scope R_scope.

(** * C81  Rounding errors of the fixed step Runge-Kutta classes *)
(** In floating point arithmetic of any precision and range (binary64: 53 and
    1024), with a right-hand side evaluated up to [eps] and a step neither too large
    nor too small, the states of every session stay finite and within
    K (h^p + eps/h) of the solution at the time the object reports; K depends on the
    problem and on the class only. *)
Theorem C81 : forall rhs n L X F t0 te y, tame rhs n L X F -> t0 <= te -> Rabs t0 <= X -> Rabs te <= X ->
  Ck_solution 5 rhs n t0 (te + 1) y -> smooth_along rhs n t0 (te + 1) y -> (forall t, t0 <= t <= te + 1 -> within X (y t)) ->
  forall m p, In (m, p) rk_classes -> exists K, 0 < K /\
  forall prec emax pw (E : @Env (SFops_at prec emax pw)) eps rhsF h tF yF g s0 fuelc o tb fuel cs s,
    roomy prec emax X F eps -> computed prec emax pw rhsF rhs n X eps ->
    fin prec emax h -> 0 < val h -> K * (val h + eps / val h) <= 1 ->
    fin prec emax tF -> val tF = t0 -> Forall (fin prec emax) yF -> near eps (map val yF) (y t0) ->
    garbage_ok (m (SFops_at prec emax pw)) g -> init_rk (m (SFops_at prec emax pw)) g rhsF tF yF (Some h) = Ret s0 ->
    s = session (E := E) (solver_of (E := E) (m (SFops_at prec emax pw)) fuelc o rhsF tb) fuel cs s0 ->
    fin prec emax (now s) -> val (now s) <= te ->
    Forall (fin prec emax) (state s) /\
    near (K * (val h ^ p + eps / val h)) (map val (state s)) (y (val (now s))).
Proof. exact C81_lemma. Qed.
Print Assumptions C81.
(** the arithmetic of the model's binary64 instance is the one with 53 and 1024 *)
Theorem C81_binary64 : forall pw, SFops_at 53 1024 pw = SFops pw.
Proof. reflexivity. Qed.
Print Assumptions C81_binary64.
(** y' = y, y(0) = 1 on [0, 1]; whatever K is, there are formats and steps it allows *)
Example C81_ex : tame (@rhs_exp Rops) 1 1 9 10 /\ Ck_solution 5 (@rhs_exp Rops) 1 0 (1 + 1) sol_exp /\ smooth_along (@rhs_exp Rops) 1 0 (1 + 1) sol_exp /\
  (forall t, 0 <= t <= 1 + 1 -> within 9 (sol_exp t)) /\
  (forall prec emax pw eps, 0 <= eps -> computed prec emax pw (@rhs_exp (SFops_at prec emax pw)) (@rhs_exp Rops) 1 9 eps) /\
  (forall K, 0 < K -> exists prec emax h, roomy prec emax 9 10 (uro prec) /\ fin prec emax h /\ 0 < val h /\ K * (val h + uro prec / val h) <= 1) /\
  roomy 53 1024 9 10 (uro 53) /\ fin 53 1024 sf_one /\ near 0 (map val [sf_one]) (sol_exp 0) /\
  forall pw h, exists s, init_rk (@RungeKutta4 (SFops_at 53 1024 pw)) (garb (@RungeKutta4 (SFops_at 53 1024 pw))) rhs_exp (S754_zero false) [sf_one] (Some h) = Ret s.
Proof.
  split; [exact exp_tame|]. split; [apply exp_Ck|]. split; [apply exp_smooth|]. split; [exact exp_in|]. split; [exact exp_computed|].
  split; [exact exp_room|]. split; [apply roomy_at; lia|]. split; [apply sf_one_ok|]. split.
  - cbn [map]. rewrite (proj2 sf_one_ok), sol_exp_0. split; [reflexivity|]. intros i Hi. rewrite Rminus_eq_0, Rabs_R0. lra.
  - intros pw h. eexists. reflexivity.
Qed.

(** * C10  The time in floating point: the repeated sum drifts from t + k h by at most
    one rounding per step *)
Theorem C10_rounding : forall prec emax pw (E : @Env (SFops_at prec emax pw)), (1 < prec)%Z -> (prec < emax)%Z ->
  forall (m : @meth (SFops_at prec emax pw)) fuelc o rhs tb b s l s',
  reachable (E := E) rhs m fuelc o tb s -> is_fixed m = true ->
  fin prec emax (hstep s) -> 0 <= val (hstep s) -> fin prec emax (now s) ->
  chain (solver_of (E := E) m fuelc o rhs tb) b s l s' -> fin prec emax (now s') ->
  val (now s) <= val (now s') /\
  Rabs (val (now s') - (val (now s) + INR (length l) * val (hstep s))) <= INR (length l) * (uro prec * Rmax (Rabs (val (now s))) (Rabs (val (now s')))).
Proof. intros prec emax pw E Hp He. exact (C10_float_lemma prec emax pw Hp He). Qed.
Print Assumptions C10_rounding.
Example C10_rounding_ex : forall pw (E : @Env (SFops_at 53 1024 pw)), let s := f_rk4 pw in
  reachable (E := E) rhs_exp RungeKutta4 0 default_options PInf s /\ fin 53 1024 (hstep s) /\ fin 53 1024 (now s) /\ 0 <= val (hstep s) /\
  exists s', chain (solver_of (E := E) RungeKutta4 0 default_options rhs_exp PInf) PInf s [s'] s' /\ fin 53 1024 (now s').
Proof.
  intros pw E s. subst s. destruct (f_rk4_data pw) as (D1 & D2). rewrite D1, D2. destruct sf_one_ok as (F1 & V1). destruct (zero_fin 53 1024) as (F0 & V0). rewrite V1.
  split; [exists (f_rk4 pw), 0%nat, []; split; [apply f_rk4_built|reflexivity]|]. split; [exact F1|]. split; [exact F0|]. split; [lra|].
  destruct (f_rk4_chain pw (E := E)) as (s' & C & N). exists s'. split; [exact C|]. rewrite N. exact F1.
Qed.

(** * C12  Every accepted step size makes progress: what holds in floating point *)
(** A step of at least 2 uro max(|t|, |x|) (binary64: 2^-52 times the larger of the
    two times) is not lost: step(upto_t=x) and skip(upto_t=x) return after at most
    2 (x - t)/h + 1 steps. With about half of that C12_refuted has a call that never returns. *)
Theorem C12_partial : forall prec emax pw (E : @Env (SFops_at prec emax pw)), (1 < prec)%Z -> (prec < emax)%Z ->
  forall (m : @meth (SFops_at prec emax pw)) fuelc o rhs tb s (x : spec_float),
  reachable (E := E) rhs m fuelc o tb s -> is_fixed m = true ->
  fin prec emax (hstep s) -> fin prec emax (now s) -> fin prec emax x ->
  0 < val (hstep s) -> val (now s) <= val x -> 2 * uro prec * Rmax (Rabs (val (now s))) (Rabs (val x)) <= val (hstep s) ->
  @gt_ext (SFops_at prec emax pw) x tb = false -> steps_return (solver_of (E := E) m fuelc o rhs tb) (@Fin (SFops_at prec emax pw) x) s ->
  exists (rows : list (@T (SFops_at prec emax pw) * @vec (SFops_at prec emax pw))) (s' : @st (SFops_at prec emax pw)),
  INR (length rows) <= 2 * ((val x - val (now s)) / val (hstep s)) + 1 /\ fin prec emax (now s') /\ val (now s) <= val (now s') <= val x /\
  forall fuel, (length rows < fuel)%nat ->
     step (solver_of (E := E) m fuelc o rhs tb) fuel None (Some (@Fin (SFops_at prec emax pw) x)) s = (Ret (RMany rows), s') /\
     skip (solver_of (E := E) m fuelc o rhs tb) fuel None (Some (@Fin (SFops_at prec emax pw) x)) s = (Ret tt, s').
Proof. intros prec emax pw E Hp He. exact (C12_float_lemma prec emax pw Hp He). Qed.
Print Assumptions C12_partial.
Example C12_partial_ex : forall pw (E : @Env (SFops_at 53 1024 pw)), let s := f_rk4 pw in
  reachable (E := E) rhs_exp RungeKutta4 0 default_options PInf s /\ fin 53 1024 (hstep s) /\ fin 53 1024 (now s) /\ fin 53 1024 sf_one /\
  0 < val (hstep s) /\ val (now s) <= val sf_one /\ 2 * uro 53 * Rmax (Rabs (val (now s))) (Rabs (val sf_one)) <= val (hstep s) /\
  steps_return (solver_of (E := E) RungeKutta4 0 default_options rhs_exp PInf) (@Fin (SFops_at 53 1024 pw) sf_one) s.
Proof.
  intros pw E s. subst s. destruct (f_rk4_data pw) as (D1 & D2). rewrite D1, D2. destruct sf_one_ok as (F1 & V1). destruct (zero_fin 53 1024) as (F0 & V0). rewrite V1, V0.
  split; [exists (f_rk4 pw), 0%nat, []; split; [apply f_rk4_built|reflexivity]|]. split; [exact F1|]. split; [exact F0|]. split; [exact F1|]. split; [lra|]. split; [lra|]. split; [|apply f_rk4_returns].
  rewrite Rabs_R0, (Rabs_pos_eq 1), Rmax_right by lra. pose proof uro_53. lra.
Qed.

(** * C63  bisect accepts every sign change in floating point: what holds *)
(** unless the product of the two values underflows; then the answer has a value
    within the tolerance or is an end of a bracket of a sign change whose length is
    (r - l)/2^n up to a few roundings *)
Theorem C63_partial : forall prec emax pw, (1 < prec)%Z -> (prec < emax)%Z ->
  forall St (Inv : St -> Prop) fn g l r tol rtol, fin prec emax l -> fin prec emax r ->
  Rabs (val l) <= powerRZ 2 (emax - 2) -> Rabs (val r) <= powerRZ 2 (emax - 2) -> fin prec emax tol -> 0 <= val tol -> fin prec emax rtol ->
  evaluatesF prec emax pw Inv fn g l r -> forall n s, n <> 0%nat -> Inv s -> val l < val r ->
  (val (g l) * val (g r) <= - tiny prec emax \/ val (g l) = 0 \/ val (g r) = 0 ->
    exists m s', @bisect (SFops_at prec emax pw) St fn l r tol rtol n s = (Ret m, s') /\ Inv s' /\ bis_resultF prec emax g (val tol) n l r m) /\
  (0 < val (g l) * val (g r) -> exists s', @bisect (SFops_at prec emax pw) St fn l r tol rtol n s = (Raise ValueError, s') /\ Inv s').
Proof. intros prec emax pw Hp He St. exact (C63_float_lemma prec emax Hp He pw). Qed.
Print Assumptions C63_partial.
Example C63_partial_ex : forall pw, evaluatesF 53 1024 pw (fun _ : unit => True) (fun t => ret t) (fun t => t) sf_mone sf_one /\
  fin 53 1024 sf_mone /\ fin 53 1024 sf_one /\ Rabs (val sf_mone) <= powerRZ 2 (1024 - 2) /\ Rabs (val sf_one) <= powerRZ 2 (1024 - 2) /\
  val sf_mone < val sf_one /\ val sf_mone * val sf_one <= - tiny 53 1024.
Proof.
  intros pw. destruct sf_one_ok as (F1 & V1). destruct sf_mone_ok as (F2 & V2). pose proof one_le_big. pose proof tiny_le. rewrite V1, V2, Rabs_R1.
  split; [intros t s Ft _ _; exists s; auto|]. split; auto. split; auto. split; [rewrite Rabs_left; lra|]. split; [lra|]. split; lra.
Qed.
