(** The class properties of the shipped classes; examples. *)
From Coq Require Import List ZArith QArith Bool Arith Lia Reals Lra Qreals.
From Verif Require Import Base Scalar Vec MBuffer MZeros MSteps MApi MDop853 MClasses MImplicit Laws Spec SpecInst
  PBound PVecR SpecRK SpecMS PMS PRK2 PMS5 PCore SpecOrder POrd1 POrd2 POrd3 SpecStab SpecImpl PImpl1 PImpl2 PImpl3 PImpl4 PImpl5 PImpl6.
Import ListNotations.
Open Scope R_scope.

Lemma rk_lower m w : In (m, w) rk_sums -> lower (A_rk m).
Proof.
  intros H. cbn [rk_sums In] in H.
  destruct H as [H|[H|[H|[H|[H|[H|[H|[H|[]]]]]]]]]; injection H as <- <-.
  - apply (C31_order_lemma Runge2 2). cbn; auto.
  - apply (C31_order_lemma Runge3 3). cbn; auto.
  - apply (C31_order_lemma Heun3 3). cbn; auto.
  - apply (C31_order_lemma RungeKutta4 4). cbn; auto.
  - apply (C31_order_lemma RungeKutta3_8 4). cbn; auto 6.
  - apply (C32_lemma RungeKutta23 3 2). cbn; auto.
  - apply (C32_lemma RungeKutta45 5 4). cbn; auto.
  - apply C32_dop_lemma.
Qed.
Lemma C78_explicit_lemma m w : In (m, w) rk_sums -> @consistent Rops (B_rk m) = true /\ @firk_implicit Rops (A_rk m) = false.
Proof.
  intros H. split; [|apply C78_implicit_lemma, (rk_lower m w H)].
  destruct (rk_sums_spec m w H) as (A & B & C & ED & _ & _ & _ & _ & _ & HS).
  assert (EB : B_rk m = B) by (destruct m; cbn in ED |- *; injection ED; auto). rewrite EB. apply C78_consistent_lemma. change (Rabs (sumR B - 1) <= / 100000000 + / 100000). rewrite HS. clear - H.
  cbn [rk_sums In] in H. destruct H as [H|[H|[H|[H|[H|[H|[H|[H|[]]]]]]]]]; injection H as _ <-; apply Rabs_le; lra.
Qed.
Lemma C78_radau_lemma r : In r radau_table -> @consistent Rops (r_B r) = true /\ @firk_implicit Rops (r_A r) = true /\ @diagonally_implicit Rops (r_A r) = false.
Proof.
  intros H. pose proof (C74_order_lemma r H) as (Ho & _). destruct (radau_shape r H) as (_ & LB & _).
  assert (O : exists p, r_order r = S p) by (cbn [radau_table In] in H; destruct H as [<-|[<-|[<-|[]]]]; eexists; reflexivity).
  destruct O as (p & O). rewrite O in Ho. split; [apply sum1_consistent, (order1_sum p (r_A r)); auto|].
  assert (N : nth 1 (nth 0 (r_A r) []) 0 <> 0).
  { clear - H. cbn [radau_table In] in H. destruct H as [<-|[<-|[<-|[]]]]; cbn [r_A].
    - rewrite IA3_A_ev. unfold ev, Q2R; cbn. lra.
    - rewrite IIA3_A_ev. unfold ev, Q2R; cbn. lra.
    - rewrite IIA_A_ev. unfold ev, Q2R; cbn. pose proof s6_sq as Hs. replace (Q2R 6) with 6 in Hs by (unfold Q2R; cbn; lra). assert (0 <= sqrt 6) by apply sqrt_pos. nra. }
  split.
  - destruct (@firk_implicit Rops (r_A r)) eqn:E; [reflexivity|]. apply C78_implicit_lemma in E. exfalso. apply N, E. lia.
  - destruct (@diagonally_implicit Rops (r_A r)) eqn:E; [|reflexivity]. apply C78_diag_lemma with (i := 0%nat) (j := 1%nat) in E; [|lia]. now apply N in E.
Qed.
Lemma C78_others_lemma : @consistent Rops (@Fehlberg45_B Rops) = true /\ @consistent Rops (@Fehlberg45_B2 Rops) = true /\ @firk_implicit Rops (@Fehlberg45_A Rops) = false /\
  @consistent Rops (l_B (@ROS3P Rops)) = true /\ @consistent Rops (@ROS3P_B2 Rops) = true.
Proof.
  pose proof C75_lemma as (H1 & _ & H2 & _ & H3 & _). split; [|split; [|split; [|split]]].
  - apply sum1_consistent, (order1_sum 3 _ _ H1). reflexivity.
  - apply sum1_consistent, (order1_sum 4 _ _ H2). reflexivity.
  - apply C78_implicit_lemma, H3.
  - rewrite ros_B_ev. apply sum1_consistent. unfold ev, Q2R. cbn. lra.
  - rewrite ros_B2_ev. apply sum1_consistent. unfold ev, Q2R. cbn. lra.
Qed.

(** ** examples *)
(** a root finder that knows one root *)
Definition knows (K : list (list R)) (f : list (list R) -> outcome (list (list R))) (K0 : list (list R)) : outcome (list (list R)) :=
  if list_eq_dec Nat.eq_dec (map (@length R) K0) (map (@length R) K) then
    match f K with Ret Z => if forallb (forallb (fun x => Reqb x 0)) Z then Ret K else Raise RuntimeError | _ => Raise RuntimeError end
  else Raise RuntimeError.
Lemma knows_ok K : finds_roots (knows K).
Proof.
  intros f K0 K' n m (L & F) H. unfold knows in H. destruct (list_eq_dec _ _ _) as [El|]; try discriminate.
  destruct (f K) as [Z| |] eqn:EZ; try discriminate. destruct (forallb _ Z) eqn:Ez; try discriminate. injection H as <-. split.
  - split; [apply (f_equal (@length nat)) in El; rewrite !map_length in El; congruence|].
    assert (F' : Forall (fun l => l = m) (map (@length R) K0)) by now apply Forall_map. rewrite El in F'. now apply Forall_map in F'.
  - exists Z. split; [exact EZ|]. apply Forall_forall. intros z Hz. apply Forall_forall. intros x Hx. rewrite forallb_forall in Ez. specialize (Ez z Hz). rewrite forallb_forall in Ez. symmetry. now apply Reqb_true, Ez.
Qed.
Lemma knows_runs rhs n A B C t y h K K0 : keeps_dim (OT := Rops) n rhs -> length y = n -> length C = length A -> shape (length A) n K -> shape (length A) n K0 ->
  implicit_stages rhs A C t y h K -> @firk_fixed_step Rops (knows K) A B C rhs t y h K0 = Ret (t + h, rk_combine (OT := Rops) y h B K).
Proof.
  intros Kd Ly LC SK S0 HK. unfold firk_fixed_step, knows.
  destruct (list_eq_dec _ _ _) as [El|Ne].
  - destruct (proj2 (impl_root rhs n A C t y h K Kd Ly LC SK) HK) as (Z & EZ & FZ). rewrite EZ.
    assert (b : forallb (forallb (fun x => Reqb x 0)) Z = true).
    { apply forallb_forall. intros z Hz. rewrite Forall_forall in FZ. specialize (FZ z Hz). apply forallb_forall. intros x Hx. rewrite Forall_forall in FZ. apply Reqb_true. symmetry. now apply FZ. }
    rewrite b. reflexivity.
  - exfalso. apply Ne. destruct SK as (L1 & F1), S0 as (L2 & F2). transitivity (repeat n (length A)); [|symmetry].
    + rewrite <- L2. clear - F2. induction F2; cbn; [reflexivity|]. now rewrite IHF2, H.
    + rewrite <- L1. clear - F1. induction F1; cbn; [reflexivity|]. now rewrite IHF1, H.
Qed.
Lemma C74_ex_linear : let r := nth 1 radau_table (nth 0 radau_table (mkradau [] [] [] 0 (fun x => x) (fun x => x))) in
  @firk_fixed_step Rops (knows [[-8/11]; [-4/11]]) (r_A r) (r_B r) (r_C r) (test_equation (-1)) 0 [1] 1 [[0]; [0]] = Ret (0 + 1, [4/11]) /\
  finds_roots (knows [[-8/11]; [-4/11]]) /\ r_den r (1 * -1) <> 0.
Proof.
  cbn zeta. cbn [nth radau_table r_A r_B r_C r_den].
  assert (EA : @RadauIIA3_A Rops = [[5/12;-1/12];[3/4;1/4]]) by tabs'. assert (EB : @RadauIIA3_B Rops = [3/4;1/4]) by tabs'.
  split; [|split; [apply knows_ok|lra]].
  rewrite (knows_runs (test_equation (-1)) 1).
  - f_equal. f_equal. rewrite EB. unfold rk_combine, lincomb. cbn. change (@T Rops) with R. f_equal. unfold Q2R. cbn. lra.
  - apply keeps_test.
  - reflexivity.
  - reflexivity.
  - split; [reflexivity|repeat constructor].
  - split; [reflexivity|repeat constructor].
  - split; [reflexivity|]. intros [|[|i]] Hi; [| |cbn in Hi; lia]; rewrite EA; unfold test_equation, lincomb; cbn; change (@T Rops) with R; f_equal; f_equal; unfold Q2R; cbn; lra.
Qed.
Lemma C74_ex_quad r (p : list R) (t h : R) : In r radau_table -> degree_le (r_order r) p -> exists K K0,
  finds_roots (knows K) /\ @firk_fixed_step Rops (knows K) (r_A r) (r_B r) (r_C r) (rhs_poly [p]) t (solution [p] t) h K0 = Ret (t + h, solution [p] (t + h)).
Proof.
  intros H Hp. destruct (radau_shape r H) as (LC & LB & Sq). set (K := map (fun c => slope [p] (t + h * c)) (r_C r)).
  assert (SK : shape (length (r_A r)) 1 K) by (split; [unfold K; now rewrite map_length|apply Forall_map, Forall_forall; reflexivity]).
  assert (IK : implicit_stages (rhs_poly [p]) (r_A r) (r_C r) t (solution [p] t) h K).
  { split; [unfold K; now rewrite map_length|]. intros i Hi. unfold rhs_poly. f_equal. unfold K. rewrite (nth_indep _ [] (slope [p] (t + h * 0))) by (rewrite map_length; lia). now rewrite (map_nth (fun c => slope [p] (t + h * c))). }
  assert (Qu : quadrature (rhs_poly [p]) [p]) by (intros ? ?; reflexivity).
  exists K, K. split; [apply knows_ok|]. rewrite (knows_runs (rhs_poly [p]) 1); auto; [|exact (keeps_quad _ _ Qu)].
  apply f_equal, f_equal2; [reflexivity|]. pose proof (C74_order_lemma r H) as (Ho & _ & Hr).
  apply (quad_stages (r_order r) (rhs_poly [p]) (r_A r) (r_B r) (r_C r)); auto. cbn [radau_table In] in H. destruct H as [<-|[<-|[<-|[]]]]; cbn; lia.
Qed.
Lemma scalar_returns rhs (F : R -> R -> R) (t y0 h ft J : R) : (forall t y, rhs t [y] = Ret [F t y]) ->
  @li_jacobian Rops rhs t [y0] (@li_eps Rops) = Ret ([ft], [[J]]) -> 1 / h / ros_gamma - J <> 0 ->
  exists t' y', @slirk_fixed_step Rops cramer_env ros_inverse (@ROS3P_gamma Rops) (@ROS3P Rops) rhs t [y0] h = Ret (t', y').
Proof.
  intros HF HJ Hd. unfold slirk_fixed_step. rewrite HJ. cbn [obind].
  assert (K : forall A C nodes i us, exists U, @li_stages Rops cramer_env (fun _ => @li_matrix Rops 1 h ros_gamma [[J]]) A C rhs t [y0] [ft] h i nodes (sing us) = Ret (sing U)).
  { intros A C nodes. induction nodes as [|(al, gm) nodes IH]; intros i us; cbn [li_stages]; [now exists us|].
    change (length [y0]) with 1%nat. unfold sing at 1 2. rewrite firstn_map. fold (sing (firstn i us)). rewrite !lincomb_sing. cbn [vadd map2]. rewrite HF.
    cbn [obind map vscale vadd map2].
    assert (Em : @transpose Rops 1 (@li_matrix Rops 1 h ros_gamma [[J]]) = [[1 / h / ros_gamma - J]]).
    { unfold li_matrix, transpose, eye. cbn. change (@T Rops) with R. repeat apply (f_equal2 (@cons _)); try reflexivity. unfold Q2R; cbn. replace (1 / 1) with 1 by lra. reflexivity. }
    rewrite Em. cbn [np_solve cramer_env cramer].
    match goal with |- context [Reqb ?x 0] => assert (D : Reqb x 0 = false) by (apply Reqb_false; exact Hd) end.
    rewrite D. cbn [obind]. match goal with |- context [sing us ++ [[?u]]] => destruct (IH (i + 1)%nat (us ++ [u])) as (U & HU); exists U; rewrite <- HU; unfold sing; rewrite map_app; reflexivity end. }
  rewrite gamma_R. match goal with |- context [@li_stages _ _ _ ?A ?C _ _ _ _ _ ?i ?nodes _] => destruct (K A C nodes i []) as (U & HU) end.
  change (length [y0]) with 1%nat. change (@nil (@vec Rops)) with (sing []). rewrite HU. cbn [obind]. do 2 eexists. reflexivity.
Qed.
Lemma C77_ex_linear : exists t' y', @slirk_fixed_step Rops cramer_env ros_inverse (@ROS3P_gamma Rops) (@ROS3P Rops) (linear_system [[-1]]) 0 [1] 1 = Ret (t', y') /\ 1 - ros_gamma * (1 * -1) <> 0.
Proof.
  pose proof g_lo. destruct (scalar_returns (linear_system [[-1]]) (fun _ y => -1 * y + 0) 0 1 1 0 (-1)) as (t' & y' & E).
  - reflexivity.
  - apply (C76_jac_lemma 1 [[-1]] 0 [1]); [split; [reflexivity|repeat constructor]|reflexivity|apply eps_ne].
  - assert (0 < / ros_gamma) by (apply Rinv_0_lt_compat; lra). unfold Rdiv. rewrite Rinv_1. lra.
  - exists t', y'. split; [exact E|lra].
Qed.
Lemma C77_ex_quad : exists t' y', @slirk_fixed_step Rops cramer_env ros_inverse (@ROS3P_gamma Rops) (@ROS3P Rops) (rhs_poly [[1; 0; 2; 1]]) 0 [peval [1; 0; 2; 1] 0] (1 / 2) = Ret (t', y') /\
  degree_le 3 [1; 0; 2; 1] /\ quadrature (rhs_poly [[1; 0; 2; 1]]) [[1; 0; 2; 1]].
Proof.
  pose proof g_lo. set (p := [1; 0; 2; 1]). assert (Hp : degree_le 3 p) by (unfold degree_le, p; cbn; lia). assert (Qu : quadrature (rhs_poly [p]) [p]) by (intros ? ?; reflexivity).
  destruct (scalar_returns (rhs_poly [p]) (fun t _ => peval (pder p) t) 0 (peval p 0) (1 / 2) (peval (pder (pder p)) 0) 0) as (t' & y' & E).
  - reflexivity.
  - now apply quad_jac.
  - assert (0 < / ros_gamma) by (apply Rinv_0_lt_compat; lra). unfold Rdiv. rewrite !Rmult_1_l, Rinv_inv. lra.
  - exists t', y'. auto.
Qed.
Lemma C77_ex_lemma :
  @solves_systems cramer_env /\ inverse_of 3 (l_gamma (@ROS3P Rops)) (ros_inverse (l_gamma (@ROS3P Rops))) /\
  (exists t' y', @slirk_fixed_step Rops cramer_env ros_inverse (@ROS3P_gamma Rops) (@ROS3P Rops) (linear_system [[-1]]) 0 [1] 1 = Ret (t', y') /\ 1 - ros_gamma * (1 * -1) <> 0) /\
  (exists t' y', @slirk_fixed_step Rops cramer_env ros_inverse (@ROS3P_gamma Rops) (@ROS3P Rops) (rhs_poly [[1; 0; 2; 1]]) 0 [peval [1; 0; 2; 1] 0] (1 / 2) = Ret (t', y') /\
    degree_le 3 [1; 0; 2; 1] /\ quadrature (rhs_poly [[1; 0; 2; 1]]) [[1; 0; 2; 1]]) /\
  (forall i, (i < 3)%nat -> entry (l_gamma (@ROS3P Rops)) i i = @ROS3P_gamma Rops).
Proof.
  refine (conj cramer_solves (conj ros_inverse_ok (conj C77_ex_linear (conj C77_ex_quad _)))). intros [|[|[|i]]] Hi; try reflexivity. lia.
Qed.
Lemma C76_ref_lemma : exists M t y, shape 2 2 M /\ length y = 2%nat /\ forall eps, eps <> 0 ->
  exists ft J, @li_jacobian Rops (linear_system M) t y eps = Ret (ft, J) /\ J <> M.
Proof.
  exists shear, 0, [0; 1]. assert (S : shape 2 2 shear) by (split; [reflexivity|repeat constructor]). split; [exact S|]. split; [reflexivity|]. intros eps He.
  rewrite (C76_jac_lemma 2 shear 0 [0; 1] eps S) by auto. do 2 eexists. split; [reflexivity|]. intros H. cbn in H. injection H as H1 H2. lra.
Qed.
Lemma C76_ex_lemma : shape 2 2 [[1; 2]; [2; 3]] /\ symmetric 2 [[1; 2]; [2; 3]] /\ ~ symmetric 2 shear.
Proof.
  split; [split; [reflexivity|repeat constructor]|]. split.
  - intros [|[|i]] [|[|j]] Hi Hj; try lia; reflexivity.
  - intros H. specialize (H 0 1 ltac:(lia) ltac:(lia))%nat. cbn in H. lra.
Qed.
Lemma C78_ex_lemma : In (DOP853, 1 + 33 / 5000000000000000000000000000000) rk_sums /\
  @singly_diagonally_implicit Rops [[1/2; 0]; [1/4; 1/2]] = true /\ @diagonally_implicit Rops [[1/2; 0]; [1/4; 1/2]] = true /\ @firk_implicit Rops [[1/2; 0]; [1/4; 1/2]] = true.
Proof.
  split; [|split; [|split]].
  - unfold rk_sums. do 7 right. left. reflexivity.
  - apply C78_single_lemma. split; [discriminate|]. exists (1/2). intros [|[|i]] Hi; try reflexivity. cbn in Hi. lia.
  - apply C78_diag_lemma. intros [|[|[|i]]] [|[|[|j]]] Hij; try lia; reflexivity.
  - destruct (@firk_implicit Rops [[1/2; 0]; [1/4; 1/2]]) eqn:E; [reflexivity|]. apply C78_implicit_lemma in E. specialize (E 0%nat 0%nat ltac:(lia)). cbn in E. lra.
Qed.
