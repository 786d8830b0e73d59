(** C74 - C78: the Runge-Kutta families the package does not import. *)
From Coq Require Import List ZArith QArith Bool Arith Reals Lra.
From Verif Require Import Base Scalar Vec MBuffer MZeros MSteps MApi MDop853 MClasses MImplicit Spec SpecInst SpecRK PVecR SpecMS SpecOrder SpecStab SpecImpl
  PImpl1 PImpl2 PImpl3 PImpl4 PImpl5 PImpl6 PImpl7.
Import ListNotations.
Open Scope R_scope.

(** C74: RadauIA3 and RadauIIA3 have order 3, RadauIIA has order 5. *)
Theorem C74 : forall r, In r radau_table ->
  has_order (r_order r) (r_A r) (r_B r) /\ ~ has_order (S (r_order r)) (r_A r) (r_B r) /\ row_sums (r_A r) (r_C r).
Proof. exact C74_order_lemma. Qed.
Print Assumptions C74.
(** The step ends at t + h with the implicit Runge-Kutta formula, provided the
    root finder finds a root. *)
Theorem C74_step : forall r solver rhs n t y h K0 t' y', In r radau_table -> finds_roots solver -> keeps_dim (OT := Rops) n rhs -> length y = n ->
  shape (length (r_A r)) n K0 ->
  @firk_fixed_step Rops solver (r_A r) (r_B r) (r_C r) rhs t y h K0 = Ret (t', y') ->
  t' = t + h /\ exists K, implicit_stages rhs (r_A r) (r_C r) t y h K /\ y' = rk_combine (OT := Rops) y h (r_B r) K.
Proof. exact C74_step_lemma. Qed.
Print Assumptions C74_step.
(** The function handed to the root finder vanishes exactly at the stages. *)
Theorem C74_roots : forall r rhs n t y h K, In r radau_table -> keeps_dim (OT := Rops) n rhs -> length y = n -> shape (length (r_A r)) n K ->
  ((exists Z, @implicit_K Rops (r_A r) (r_C r) rhs t y h K = Ret Z /\ Forall (Forall (eq 0)) Z) <-> implicit_stages rhs (r_A r) (r_C r) t y h K).
Proof. exact C74_root_lemma. Qed.
Print Assumptions C74_roots.
(** Polynomial solutions of y' = f(t) up to the order are exact. *)
Theorem C74_quadrature : forall r solver rhs Ps t h K0 t' y', In r radau_table -> finds_roots solver -> quadrature rhs Ps -> Forall (degree_le (r_order r)) Ps ->
  shape (length (r_A r)) (length Ps) K0 ->
  @firk_fixed_step Rops solver (r_A r) (r_B r) (r_C r) rhs t (solution Ps t) h K0 = Ret (t', y') -> t' = t + h /\ y' = solution Ps (t + h).
Proof. exact C74_quad_lemma. Qed.
Print Assumptions C74_quadrature.
(** On y' = lam y the state is multiplied by the Pade approximation of exp(h lam). *)
Theorem C74_linear : forall r solver lam n t y h K0 t' y', In r radau_table -> finds_roots solver -> length y = n -> shape (length (r_A r)) n K0 ->
  r_den r (h * lam) <> 0 ->
  @firk_fixed_step Rops solver (r_A r) (r_B r) (r_C r) (test_equation lam) t y h K0 = Ret (t', y') ->
  t' = t + h /\ y' = times (r_num r (h * lam) / r_den r (h * lam)) y.
Proof. exact C74_linear_lemma. Qed.
Print Assumptions C74_linear.
(** No growth for h lam <= 0, and damping as h lam goes to minus infinity. *)
Theorem C74_stable : forall r z, In r radau_table -> z <= 0 ->
  0 < r_den r z /\ Rabs (r_num r z) <= r_den r z /\ Rabs (r_num r z) * - z <= 3 * r_den r z.
Proof. exact C74_stable_lemma. Qed.
Print Assumptions C74_stable.
Example C74_ex :
  (let r := nth 1 radau_table (nth 0 radau_table (mkradau [] [] [] 0 (fun x => x) (fun x => x))) in
   @firk_fixed_step Rops (knows [[-8/11]; [-4/11]]) (r_A r) (r_B r) (r_C r) (test_equation (-1)) 0 [1] 1 [[0]; [0]] = Ret (0 + 1, [4/11]) /\
   finds_roots (knows [[-8/11]; [-4/11]]) /\ r_den r (1 * -1) <> 0) /\
  (forall r (p : list R) (t h : R), In r radau_table -> degree_le (r_order r) p -> exists K K0, finds_roots (knows K) /\
   @firk_fixed_step Rops (knows K) (r_A r) (r_B r) (r_C r) (rhs_poly [p]) t (solution [p] t) h K0 = Ret (t + h, solution [p] (t + h))).
Proof. exact (conj C74_ex_linear C74_ex_quad). Qed.

(** C75: Fehlberg45 is documented as order 5 with an embedded formula of order 4:
    the step (weights B) has order 4 only. *)
Theorem C75_refuted : ~ has_order 5 (@Fehlberg45_A Rops) (@Fehlberg45_B Rops).
Proof. exact (proj1 (proj2 C75_lemma)). Qed.
Print Assumptions C75_refuted.
(** What holds: B has order 4, B2 has order 5. *)
Theorem C75_partial :
  has_order 4 (@Fehlberg45_A Rops) (@Fehlberg45_B Rops) /\ ~ has_order 5 (@Fehlberg45_A Rops) (@Fehlberg45_B Rops) /\
  has_order 5 (@Fehlberg45_A Rops) (@Fehlberg45_B2 Rops) /\ ~ has_order 6 (@Fehlberg45_A Rops) (@Fehlberg45_B2 Rops) /\
  lower (@Fehlberg45_A Rops) /\ row_sums (@Fehlberg45_A Rops) (@Fehlberg45_C Rops).
Proof. exact C75_lemma. Qed.
Print Assumptions C75_partial.

(** C76: jacobian of a linear right-hand side M y is not M. *)
Theorem C76_refuted : exists M t y, shape 2 2 M /\ length y = 2%nat /\ forall eps, eps <> 0 ->
  exists ft J, @li_jacobian Rops (linear_system M) t y eps = Ret (ft, J) /\ J <> M.
Proof. exact C76_ref_lemma. Qed.
Print Assumptions C76_refuted.
(** It is the transpose of M; the time derivative is 0. *)
Theorem C76_transposed : forall n M t y eps, shape n n M -> length y = n -> eps <> 0 ->
  @li_jacobian Rops (linear_system M) t y eps = Ret (repeat 0 n, map (fun i => map (fun row => nth i row 0) M) (seq 0 n)).
Proof. exact C76_jac_lemma. Qed.
Print Assumptions C76_transposed.
(** It is M exactly for symmetric M. *)
Theorem C76_partial : forall n M t y eps, shape n n M -> length y = n -> eps <> 0 ->
  ((exists ft, @li_jacobian Rops (linear_system M) t y eps = Ret (ft, M)) <-> symmetric n M).
Proof. exact C76_sym_lemma. Qed.
Print Assumptions C76_partial.
Example C76_ex : shape 2 2 [[1; 2]; [2; 3]] /\ symmetric 2 [[1; 2]; [2; 3]] /\ ~ symmetric 2 shear.
Proof. exact C76_ex_lemma. Qed.

(** C77: ROS3P is not of order 3 on linear systems: the error of a step is not
    even O(h^3). *)
Theorem C77_refuted : exists (M : list (list R)) (E : @Env Rops) inv Ps,
  @solves_systems E /\ inverse_of 3 (l_gamma (@ROS3P Rops)) (inv (l_gamma (@ROS3P Rops))) /\ solves (linear_system M) Ps /\
  forall C h0, 0 < h0 -> exists h t' y', 0 < h < h0 /\
    @slirk_fixed_step Rops E inv (@ROS3P_gamma Rops) (@ROS3P Rops) (linear_system M) 0 (solution Ps 0) h = Ret (t', y') /\
    exists i, C * h ^ 3 < Rabs (cmp i y' - cmp i (solution Ps h)).
Proof. exact C77_ref_lemma. Qed.
Print Assumptions C77_refuted.
(** The coefficients do satisfy the Rosenbrock order conditions: B of order 3, B2
    of order 2 (the class states an error estimator of order 3). *)
Theorem C77_conditions :
  ros_order 3 (l_alpha (@ROS3P Rops)) (l_gamma (@ROS3P Rops)) (l_B (@ROS3P Rops)) /\ ~ ros_order 4 (l_alpha (@ROS3P Rops)) (l_gamma (@ROS3P Rops)) (l_B (@ROS3P Rops)) /\
  ros_order 2 (l_alpha (@ROS3P Rops)) (l_gamma (@ROS3P Rops)) (@ROS3P_B2 Rops) /\ ~ ros_order 3 (l_alpha (@ROS3P Rops)) (l_gamma (@ROS3P Rops)) (@ROS3P_B2 Rops).
Proof. exact C77_order_lemma. Qed.
Print Assumptions C77_conditions.
(** The nodes of any linearly implicit class: c_i is the sum of the entries of row i
    of Alpha before the diagonal, the factor of the time derivative that of Gamma up
    to and including the diagonal. *)
Theorem C77_nodes : forall (c : @lirk Rops) i,
  ((i < length (l_alpha c))%nat -> nth i (l_Alphai c) 0 = fold_right Rplus 0 (map (fun j => nth j (nth i (l_alpha c) []) 0) (seq 0 i))) /\
  ((i < length (l_gamma c))%nat -> nth i (l_Gammai c) 0 = fold_right Rplus 0 (map (fun j => nth j (nth i (l_gamma c) []) 0) (seq 0 (S i)))).
Proof. exact C77_nodes_lemma. Qed.
Print Assumptions C77_nodes.
Example C77_nodes_ex : nth 1 (l_Alphai (@mklirk Rops [[1; 2]; [3; 4]] [[1; 2]; [3; 4]] [1; 1])) 0 = 3 /\ nth 1 (l_Gammai (@mklirk Rops [[1; 2]; [3; 4]] [[1; 2]; [3; 4]] [1; 1])) 0 = 7.
Proof. split; [refine (eq_trans (proj1 (C77_nodes _ 1) _) _)|refine (eq_trans (proj2 (C77_nodes _ 1) _) _)]; cbn; auto; lra. Qed.
(** y' = lam y for scalars: the factor is a third order approximation of
    exp(h lam), bounded by 1 for h lam <= 0. *)
Theorem C77_linear {E : @Env Rops} : @solves_systems E -> forall inv, inverse_of 3 (l_gamma (@ROS3P Rops)) (inv (l_gamma (@ROS3P Rops))) ->
  forall lam (t y0 h t' : R) y', h <> 0 -> 1 - ros_gamma * (h * lam) <> 0 ->
  @slirk_fixed_step Rops E inv (@ROS3P_gamma Rops) (@ROS3P Rops) (linear_system [[lam]]) t [y0] h = Ret (t', y') ->
  t' = t + h /\ y' = [ros_num (h * lam) / ros_den (h * lam) * y0].
Proof. exact C77_linear_lemma. Qed.
Print Assumptions C77_linear.
Theorem C77_stable : forall z, z <= 0 -> 0 < ros_den z /\ Rabs (ros_num z) <= ros_den z.
Proof. exact C77_stable_lemma. Qed.
Print Assumptions C77_stable.
(** scalar y' = f(t) with a cubic solution: exact *)
Theorem C77_partial {E : @Env Rops} : @solves_systems E -> forall inv, inverse_of 3 (l_gamma (@ROS3P Rops)) (inv (l_gamma (@ROS3P Rops))) ->
  forall p (t h t' : R) y' rhs, h <> 0 -> degree_le 3 p -> quadrature rhs [p] ->
  @slirk_fixed_step Rops E inv (@ROS3P_gamma Rops) (@ROS3P Rops) rhs t [peval p t] h = Ret (t', y') -> t' = t + h /\ y' = [peval p (t + h)].
Proof. exact C77_quad_lemma. Qed.
Print Assumptions C77_partial.
(** The two step functions agree when the diagonal of Gamma is gamma. *)
Theorem C77_same {OT : Ops} {E : Env} : forall inv c gamma rhs t y h, (forall i, (i < length (l_gamma c))%nat -> entry (l_gamma c) i i = gamma) ->
  lirk_fixed_step inv c rhs t y h = slirk_fixed_step inv gamma c rhs t y h.
Proof. exact C77_same_lemma. Qed.
Print Assumptions C77_same.
Example C77_ex :
  @solves_systems cramer_env /\ inverse_of 3 (l_gamma (@ROS3P Rops)) (ros_inverse (l_gamma (@ROS3P Rops))) /\
  (exists t' y', @slirk_fixed_step Rops cramer_env ros_inverse (@ROS3P_gamma Rops) (@ROS3P Rops) (linear_system [[-1]]) 0 [1] 1 = Ret (t', y') /\ 1 - ros_gamma * (1 * -1) <> 0) /\
  (exists t' y', @slirk_fixed_step Rops cramer_env ros_inverse (@ROS3P_gamma Rops) (@ROS3P Rops) (rhs_poly [[1; 0; 2; 1]]) 0 [peval [1; 0; 2; 1] 0] (1 / 2) = Ret (t', y') /\
    degree_le 3 [1; 0; 2; 1] /\ quadrature (rhs_poly [[1; 0; 2; 1]]) [[1; 0; 2; 1]]) /\
  (forall i, (i < 3)%nat -> entry (l_gamma (@ROS3P Rops)) i i = @ROS3P_gamma Rops).
Proof. exact C77_ex_lemma. Qed.

(** C78: the class properties. *)
Theorem C78 : forall m w, In (m, w) rk_sums -> @consistent Rops (B_rk m) = true /\ @firk_implicit Rops (A_rk m) = false.
Proof. exact C78_explicit_lemma. Qed.
Print Assumptions C78.
Theorem C78_radau : forall r, In r radau_table ->
  @consistent Rops (r_B r) = true /\ @firk_implicit Rops (r_A r) = true /\ @diagonally_implicit Rops (r_A r) = false.
Proof. exact C78_radau_lemma. Qed.
Print Assumptions C78_radau.
Theorem C78_others : @consistent Rops (@Fehlberg45_B Rops) = true /\ @consistent Rops (@Fehlberg45_B2 Rops) = true /\ @firk_implicit Rops (@Fehlberg45_A Rops) = false /\
  @consistent Rops (l_B (@ROS3P Rops)) = true /\ @consistent Rops (@ROS3P_B2 Rops) = true.
Proof. exact C78_others_lemma. Qed.
Print Assumptions C78_others.
(** What the properties mean, for any tableau. *)
Theorem C78_consistent : forall B : list R, @consistent Rops B = true <-> Rabs (fold_right Rplus 0 B - 1) <= / 100000000 + / 100000.
Proof. exact C78_consistent_lemma. Qed.
Print Assumptions C78_consistent.
Theorem C78_implicit : forall A : list (list R), @firk_implicit Rops A = false <-> lower A.
Proof. exact C78_implicit_lemma. Qed.
Print Assumptions C78_implicit.
Theorem C78_diagonally : forall A : list (list R), @diagonally_implicit Rops A = true <-> forall i j, (i < j)%nat -> nth j (nth i A []) 0 = 0.
Proof. exact C78_diag_lemma. Qed.
Print Assumptions C78_diagonally.
Theorem C78_singly : forall A : list (list R), @singly_diagonally_implicit Rops A = true <->
  A <> [] /\ exists g, forall i, (i < length A)%nat -> nth i (nth i A []) 0 = g.
Proof. exact C78_single_lemma. Qed.
Print Assumptions C78_singly.
Example C78_ex : In (DOP853, 1 + 33 / 5000000000000000000000000000000) rk_sums /\
  @singly_diagonally_implicit Rops [[1/2; 0]; [1/4; 1/2]] = true /\ @diagonally_implicit Rops [[1/2; 0]; [1/4; 1/2]] = true /\ @firk_implicit Rops [[1/2; 0]; [1/4; 1/2]] = true.
Proof. exact C78_ex_lemma. Qed.
