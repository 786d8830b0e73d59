(** Properties C68 to C70: corresponding problems; C71: accuracy of the variable step classes. *)
From Coq Require Import List ZArith QArith Bool Arith Lia Reals Lra.
From Verif Require Import Base Scalar Vec MBuffer MZeros MSteps MApi MDop853 MClasses Laws Spec SpecInst SpecRK SpecInv SpecEqv SpecEqv2 PBound PVecR PHist PTop1 Ex PExInv PEqv6 PExEqv
  SpecMS SpecConv SpecConv3 SpecVar PVar3 PConv8 PConv9 PExVar SpecFive PFive3.
Import ListNotations.
Open Scope R_scope.

(** * C68  the origin of time does not matter
    [later c t] = t + c.  [twin]: instances built alike for the two problems;
    [corr_call]: the same calls with every time moved by c; [alike]: same
    histories, same step size, and every next call gives corresponding results. *)
Theorem C68 {E : @Env Rops} : forall c (rhs rhs' : @rhs_t Rops), (forall t y, rhs' (t + c) y = rhs t y) ->
  (forall l, @np_argsort Rops E (map (later c) l) = @np_argsort Rops E l) ->
  forall m s s' fuelc o tb fuel fuel' cs cs',
  twin (E := E) (later c : @T Rops -> @T Rops) same any any_class rhs rhs' m s s' ->
  Forall2 (corr_call (OT := Rops) (later c) same any) cs cs' ->
  alike (E := E) (later c : @T Rops -> @T Rops) same any
    (solver_of (E := E) m fuelc o rhs tb) (solver_of (E := E) m fuelc o rhs' (ext_map (OT := Rops) (later c) tb)) fuel'
    (session (E := E) (solver_of (E := E) m fuelc o rhs tb) fuel cs s)
    (session (E := E) (solver_of (E := E) m fuelc o rhs' (ext_map (OT := Rops) (later c) tb)) fuel cs' s').
Proof. exact later_alike. Qed.
Print Assumptions C68.
(** the constructors give twins *)
Theorem C68_init {E : @Env Rops} : forall c (rhs rhs' : @rhs_t Rops), (forall t y, rhs' (t + c) y = rhs t y) ->
  twins_built (E := E) (later c : @T Rops -> @T Rops) same any any_class rhs rhs'.
Proof. exact later_twins. Qed.
Print Assumptions C68_init.
(** y' = t y from y(0) = 1, and y' = (t - 5) y from y(5) = 1, with RungeKutta4 *)
Example C68_ex : (forall t y, ty5 (t + 5) y = ty t y) /\
  (forall l, @np_argsort Rops ER (map (later 5) l) = @np_argsort Rops ER l) /\
  twin (E := ER) (later 5 : @T Rops -> @T Rops) same any any_class ty ty5 RungeKutta4 (e_ty 1) (e_ty5 1) /\
  now (e_ty 1) = 0 /\ now (e_ty5 1) = 0 + 5 /\
  exists s, s_core (solver_of (E := ER) RungeKutta4 0 default_options ty PInf) (e_ty 1) = (Ret tt, s) /\ state s = [79/48].
Proof.
  split; [exact ty_corr|]. split; [intros l; exact (isort_map (OT := Rops) (later 5) (later_le 5) l)|].
  split; [apply ty_twin|]. split; [reflexivity|]. split; [reflexivity|apply ty_moves].
Qed.

(** * C69  explicit fixed step classes commute with linear maps
    [matvec A y]: the matrix with rows A applied to y *)
Theorem C69 {E : @Env Rops} : forall n A (rhs rhs' : @rhs_t Rops), keeps_dim (OT := Rops) n rhs ->
  (forall t y, length y = n -> rhs' t (matvec A y) = omap (matvec A) (rhs t y)) ->
  forall m s s' fuelc o tb fuel fuel' cs cs',
  twin (E := E) (OT := Rops) now_as_is (matvec A) (has_dim n) explicit rhs rhs' m s s' ->
  Forall2 (corr_call (OT := Rops) now_as_is (matvec A) (has_dim n)) cs cs' ->
  alike (OT := Rops) (E := E) now_as_is (matvec A) (has_dim n)
    (solver_of (E := E) m fuelc o rhs tb) (solver_of (E := E) m fuelc o rhs' tb) fuel'
    (session (E := E) (solver_of (E := E) m fuelc o rhs tb) fuel cs s)
    (session (E := E) (solver_of (E := E) m fuelc o rhs' tb) fuel cs' s').
Proof. exact mat_alike. Qed.
Print Assumptions C69.
Theorem C69_init {E : @Env Rops} : forall n A (rhs rhs' : @rhs_t Rops), keeps_dim (OT := Rops) n rhs ->
  (forall t y, length y = n -> rhs' t (matvec A y) = omap (matvec A) (rhs t y)) ->
  twins_built (E := E) (OT := Rops) now_as_is (matvec A) (has_dim n) explicit rhs rhs'.
Proof. exact mat_twins. Qed.
Print Assumptions C69_init.
(** the exchange between two reservoirs seen as sum and difference *)
Example C69_ex {E : @Env Rops} : keeps_dim (OT := Rops) 2 exchange /\
  (forall t y, length y = 2%nat -> sum_diff t (matvec SD y) = omap (matvec SD) (exchange t y)) /\
  twin (OT := Rops) (E := E) now_as_is (matvec SD) (has_dim 2) explicit exchange sum_diff RungeKutta4 (ex_rk4 1) (e_sd 1) /\
  exists s, s_core (solver_of (E := E) RungeKutta4 0 default_options exchange PInf) (ex_rk4 1) = (Ret tt, s) /\ state s = [2/3; 1/3].
Proof.
  split; [exact (proj1 (exchange_tangent 0))|]. split; [exact sd_corr|]. split; [apply sd_twin|apply ex_rk4_moves].
Qed.

(** * C70  explicit fixed step classes treat independent components independently
    [pick idx y]: the components of y with the indices idx.  For every scalar
    type, binary64 among them. *)
Theorem C70 {OT : Ops} {E : Env} : forall n idx rhs rhs', Forall (fun i => (i < n)%nat) idx -> keeps_dim n rhs ->
  (forall t y, length y = n -> rhs' t (pick idx y) = omap (pick idx) (rhs t y)) ->
  forall m s s' fuelc o tb fuel fuel' cs cs',
  twin now_as_is (pick idx) (has_dim n) explicit rhs rhs' m s s' ->
  Forall2 (corr_call now_as_is (pick idx) (has_dim n)) cs cs' ->
  alike now_as_is (pick idx) (has_dim n) (solver_of m fuelc o rhs tb) (solver_of m fuelc o rhs' tb) fuel'
    (session (solver_of m fuelc o rhs tb) fuel cs s) (session (solver_of m fuelc o rhs' tb) fuel cs' s').
Proof. exact (fun n idx rhs rhs' H => pick_alike n idx H rhs rhs'). Qed.
Print Assumptions C70.
Theorem C70_init {OT : Ops} {E : Env} : forall n idx rhs rhs', Forall (fun i => (i < n)%nat) idx -> keeps_dim n rhs ->
  (forall t y, length y = n -> rhs' t (pick idx y) = omap (pick idx) (rhs t y)) ->
  twins_built now_as_is (pick idx) (has_dim n) explicit rhs rhs'.
Proof. exact (fun n idx rhs rhs' H => pick_twins n idx H rhs rhs'). Qed.
Print Assumptions C70_init.
(** the second of two independent equations *)
Example C70_ex {OT : Ops} {E : Env} : keeps_dim 2 two_eqs /\
  (forall t y, length y = 2%nat -> second_eq t (pick [1%nat] y) = omap (pick [1%nat]) (two_eqs t y)) /\
  forall gb gb' t0 a b h, garbage_ok RungeKutta4 gb -> garbage_ok RungeKutta4 gb' ->
  exists s s', init_rk RungeKutta4 gb two_eqs t0 [a; b] h = Ret s /\ init_rk RungeKutta4 gb' second_eq t0 [b] h = Ret s' /\
    twin now_as_is (pick [1%nat]) (has_dim 2) explicit two_eqs second_eq RungeKutta4 s s'.
Proof. split; [exact two_dim|]. split; [exact two_corr|exact two_twin]. Qed.

(** * C71  order of convergence of the variable step classes in the largest step
    [var_table]: RungeKutta23 3, RungeKutta45 4.  [steps_at_most H te]: no step
    that ends before te is longer than H. *)
Theorem C71 {E : @Env Rops} : forall rhs n L t0 te y, lipschitz n L rhs -> t0 <= te ->
  Ck_solution 5 rhs n t0 te y -> smooth_along rhs n t0 te y ->
  forall m p, In (m, p) var_table ->
  exists K, forall H g o sel first s0 fuelc tb fuel cs s, 0 < H <= 1 -> sane o -> garbage_ok m g ->
    init_var m g rhs t0 (y t0) o sel first = Ret s0 -> 0 <= hstep s0 ->
    steps_at_most H te (solver_of (E := E) m fuelc o rhs tb) s0 ->
    s = session (E := E) (solver_of (E := E) m fuelc o rhs tb) fuel cs s0 -> now s <= te ->
    near (K * H ^ p) (state s) (y (now s)).
Proof. exact C71_lemma. Qed.
Print Assumptions C71.
(** the rows of run *)
Theorem C71_run {E : @Env Rops} : forall rhs n L t0 te y, lipschitz n L rhs -> t0 <= te ->
  Ck_solution 5 rhs n t0 te y -> smooth_along rhs n t0 te y ->
  forall m p, In (m, p) var_table ->
  exists K, forall H g o sel first s0 fuelc tb fuel cs s fuel' t rows s', 0 < H <= 1 -> sane o -> garbage_ok m g ->
    init_var m g rhs t0 (y t0) o sel first = Ret s0 -> 0 <= hstep s0 ->
    steps_at_most H te (solver_of (E := E) m fuelc o rhs tb) s0 ->
    returns (E := E) (solver_of (E := E) m fuelc o rhs tb) fuel cs s0 s ->
    is_sorted t = true -> run (E := E) (solver_of (E := E) m fuelc o rhs tb) fuel' t s = (Ret rows, s') -> now s' <= te ->
    Forall (fun r => near (K * H ^ p) (snd r) (y (fst r))) rows.
Proof. exact C71_run_lemma. Qed.
Print Assumptions C71_run.
(** y' = y, y(0) = 1 with RungeKutta23 and first step 1/10 *)
Example C71_ex : In (RungeKutta23 (OT := Rops), 3%nat) var_table /\ lipschitz 1 1 rhs_exp /\
  (forall te, Ck_solution 5 rhs_exp 1 0 te sol_exp /\ smooth_along rhs_exp 1 0 te sol_exp) /\ sane (@default_options Rops) /\
  init_var (RungeKutta23 (OT := Rops)) (garb RungeKutta23) rhs_exp 0 (sol_exp 0) default_options (fun _ _ _ => Ret one) (Some (1 / 10)) = Ret (r_rk23 (1 / 10)) /\
  (forall te, steps_at_most te te (solver_of (E := ER) RungeKutta23 1 default_options rhs_exp PInf) (r_rk23 (1 / 10))) /\
  exists s, took_step (solver_of (E := ER) RungeKutta23 1 default_options rhs_exp PInf) (r_rk23 (1 / 10)) s /\ now s = 1 / 10 /\ state s = [6631 / 6000].
Proof.
  split; [cbn; auto|]. split; [apply exp_lipschitz|]. split; [intros te; split; [apply exp_Ck|apply exp_smooth]|]. split; [apply default_sane|].
  split; [apply r_rk23_ok|]. split; [intros te; apply exp_steps; lra|exact exp_var_step].
Qed.

(** RungeKutta45: order five, the Jacobian along the solution being three times
    continuously differentiable ([smooth_along3]) *)
Theorem C71_five {E : @Env Rops} : forall rhs n L t0 te y, lipschitz n L rhs -> t0 <= te ->
  Ck_solution 6 rhs n t0 te y -> smooth_along3 rhs n t0 te y ->
  exists K, forall H g o sel first s0 fuelc tb fuel cs s, 0 < H <= 1 -> sane o -> garbage_ok RungeKutta45 g ->
    init_var RungeKutta45 g rhs t0 (y t0) o sel first = Ret s0 -> 0 <= hstep s0 ->
    steps_at_most H te (solver_of (E := E) RungeKutta45 fuelc o rhs tb) s0 ->
    s = session (E := E) (solver_of (E := E) RungeKutta45 fuelc o rhs tb) fuel cs s0 -> now s <= te ->
    near (K * H ^ 5) (state s) (y (now s)).
Proof. exact C71_five_lemma. Qed.
Print Assumptions C71_five.
Theorem C71_five_run {E : @Env Rops} : forall rhs n L t0 te y, lipschitz n L rhs -> t0 <= te ->
  Ck_solution 6 rhs n t0 te y -> smooth_along3 rhs n t0 te y ->
  exists K, forall H g o sel first s0 fuelc tb fuel cs s fuel' t rows s', 0 < H <= 1 -> sane o -> garbage_ok RungeKutta45 g ->
    init_var RungeKutta45 g rhs t0 (y t0) o sel first = Ret s0 -> 0 <= hstep s0 ->
    steps_at_most H te (solver_of (E := E) RungeKutta45 fuelc o rhs tb) s0 ->
    returns (E := E) (solver_of (E := E) RungeKutta45 fuelc o rhs tb) fuel cs s0 s ->
    is_sorted t = true -> run (E := E) (solver_of (E := E) RungeKutta45 fuelc o rhs tb) fuel' t s = (Ret rows, s') -> now s' <= te ->
    Forall (fun r => near (K * H ^ 5) (snd r) (y (fst r))) rows.
Proof. exact C71_five_run_lemma. Qed.
Print Assumptions C71_five_run.
(** y' = y, y(0) = 1 with RungeKutta45 and first step 1/10 *)
Example C71_five_ex : lipschitz 1 1 rhs_exp /\
  (forall te, Ck_solution 6 rhs_exp 1 0 te sol_exp /\ smooth_along3 rhs_exp 1 0 te sol_exp) /\ sane (@default_options Rops) /\
  init_var (RungeKutta45 (OT := Rops)) (garb RungeKutta45) rhs_exp 0 (sol_exp 0) default_options (fun _ _ _ => Ret one) (Some (1 / 10)) = Ret (r_rk45 (1 / 10)) /\
  (forall te, steps_at_most te te (solver_of (E := ER) RungeKutta45 1 default_options rhs_exp PInf) (r_rk45 (1 / 10))) /\
  exists s, took_step (solver_of (E := ER) RungeKutta45 1 default_options rhs_exp PInf) (r_rk45 (1 / 10)) s /\ now s = 1 / 10 /\ state s = [663102551 / 600000000].
Proof.
  split; [apply exp_lipschitz|]. split; [intros te; split; [apply exp_Ck|apply exp_smooth3]|]. split; [apply default_sane|].
  split; [apply r_rk45_ok|]. split; [intros te; apply exp_steps45; lra|exact exp_var_step45].
Qed.
