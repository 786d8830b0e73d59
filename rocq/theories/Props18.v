(** C83. *)
From Coq Require Import List ZArith QArith Bool Arith Lia Reals Lra.
From Verif Require Import Base Scalar Vec MBuffer MZeros MSteps MApi MClasses Laws Spec SpecInst
  PVecR SpecRK PTop1 Ex SpecMS SpecOrder SpecConv SpecConv3 SpecLmm SpecLive PConv1 PExHi PImpl5 PLmm4 PLmm8 PLive2 PLive3 PExLive.
Import ListNotations.
Open Scope R_scope.

(** * C83  The implicit steps complete
    AdamsMoulton1-5 and BDF1-6, one step from any reachable state.
    [defined_on n rhs]: the right-hand side returns for arguments of dimension n.
    [solves_regular n]: np.linalg.solve solves the regular n by n systems; needed
    from dimension 2 on.
    [lm_residual A B Bn s y f]: what the equation of the class leaves at y when f is
    the slope there; [lm_relation]: y solves it. *)
Theorem C83 {E : @Env Rops} : forall rhs n L m, lipschitz n L rhs -> defined_on n rhs -> In m (am_all ++ map snd bdf_table) -> (1 <= n)%nat ->
  n = 1%nat \/ solves_regular (E := E) n ->
  forall fuelc o tb (s : @st Rops) f0, reachable (E := E) rhs m fuelc o tb s -> dims n s ->
  Rabs (hstep s) * (L * Rabs (new_weight m)) * (3 * INR n + 2) <= 1 -> rhs (now s + hstep s) (state s) = Ret f0 ->
  (forall i, (i < n)%nat -> INR n * Rabs (cmp i (lm_residual (A_of m) (B_of m) (new_weight m) s (state s) f0)) <= 1000000 /\ INR n * Rabs (cmp i (state s)) <= 1000000) ->
  INR n <= 1000000 -> ~ would_pass tb s ->
  exists s', took_step (solver_of (E := E) m fuelc o rhs tb) s s' /\ length (state s') = n /\
    forall u fu, length u = n -> rhs (now s + hstep s) u = Ret fu -> lm_relation (A_of m) (B_of m) (new_weight m) s u fu -> near (1 / 10000000) (state s') u.
Proof. exact C83_class_lemma. Qed.
Print Assumptions C83.
(** along a solution: N calls of step() all return, and the state is where C79 puts
    it; [leaves_at_most] as in C79.  [am_table], [bdf_table]: AdamsMoulton1-3 and BDF1-6 with their order k. *)
Theorem C83_total {E : @Env Rops} : forall rhs n L t0 te y, lipschitz n L rhs -> defined_on n rhs -> t0 <= te ->
  forall k m, Ck_solution (k + 1) rhs n t0 te y -> In (k, m) (am_table ++ bdf_table) -> solve_dim (E := E) -> (1 <= n)%nat ->
  n = 1%nat \/ solves_regular (E := E) n ->
  exists K h0, 0 < h0 /\ forall h d rho fuelc o tb fuel s0 N, 0 < h <= h0 -> 0 <= d <= 1 -> 0 <= rho ->
    built (E := E) rhs m s0 -> dims n s0 -> hstep s0 = h -> recorded (ms_order m) rhs y t0 d s0 ->
    leaves_at_most rho te m (solver_of (E := E) m fuelc o rhs PInf) s0 ->
    now s0 + INR N * h <= te -> @gt_ext Rops te tb = false ->
    exists sn, returns (E := E) (solver_of (E := E) m fuelc o rhs tb) fuel (repeat (CStep None None) N) s0 sn /\
      now sn = now s0 + INR N * h /\ near (K * (h ^ k + d + rho / h)) (state sn) (y (now sn)).
Proof. exact C83_total_lemma. Qed.
Print Assumptions C83_total.
(** y' = sqrt(1 + y^2) in two components, AdamsMoulton1 at (0, 0) *)
Example C83_ex : lipschitz 2 1 rhs_cat /\ defined_on 2 rhs_cat /\ In (@AM1 Rops) (am_all ++ map snd bdf_table) /\ In (1%nat, @AM1 Rops) (am_table ++ bdf_table) /\
  solves_regular (E := cramer_env) 2 /\ solve_dim (E := cramer_env) /\ (forall k t0 te, Ck_solution k rhs_cat 2 t0 te sol_cat2) /\
  (forall h, 0 < h -> exists s0, built (E := cramer_env) rhs_cat AM1 s0 /\ dims 2 s0 /\ hstep s0 = h /\ now s0 = 0 /\ state s0 = [0; 0] /\
    lm_residual (A_of AM1) (B_of AM1) (new_weight AM1) s0 (state s0) [1; 1] = [- h; - h] /\ recorded (ms_order (OT := Rops) AM1) rhs_cat sol_cat2 0 0 s0) /\
  rhs_cat (0 + 1 / 100) [0; 0] = Ret [1; 1] /\ Rabs (1 / 100) * (1 * Rabs (new_weight (@AM1 Rops))) * (3 * INR 2 + 2) <= 1.
Proof.
  split; [apply cat_lipschitz_n|]. split; [apply cat_defined|]. split; [cbn; auto|]. split; [cbn; auto|]. split; [apply cramer_regular|]. split; [apply cramer_dim|].
  split; [intros; apply cat2_solution|]. split; [exact cat2_start|]. split.
  - unfold rhs_cat. cbn [map]. replace (1 + 0 * 0) with 1 by ring. rewrite sqrt_1. reflexivity.
  - cbn. unfold Q2R. cbn. rewrite !Rabs_pos_eq; lra.
Qed.
