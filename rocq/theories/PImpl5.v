(** ROS3P on scalar problems and on a linear system. *)
From Coq Require Import List ZArith QArith Bool Arith Lia Reals Lra.
From Verif Require Import Base Scalar Vec MBuffer MZeros MSteps MApi MDop853 MClasses MImplicit Laws
  PBound PVecR SpecRK SpecMS PMS PRK2 PCore SpecOrder POrd1 POrd2 POrd3 SpecStab SpecImpl PImpl1 PImpl2 PImpl3 PImpl4.
Import ListNotations.
Open Scope R_scope.

Lemma g_ne : ros_gamma <> 0. Proof. pose proof g_lo. lra. Qed.
Lemma eps_ne : @li_eps Rops <> 0. Proof. unfold li_eps. rewrite lit_R. cbn [Qnum Qden]. lra. Qed.
Lemma quad_jac p (t : R) rhs : degree_le 3 p -> quadrature rhs [p] ->
  @li_jacobian Rops rhs t [peval p t] (@li_eps Rops) = Ret ([peval (pder (pder p)) t], [[0]]).
Proof.
  intros Hp Qu. pose proof eps_ne as He. set (e := @li_eps Rops) in *. clearbody e. unfold li_jacobian. rewrite !Qu. cbn [obind length seq omapM]. rewrite !Qu. cbn [obind slope map]. unfold vsub. cbn [map2 map].
    apply f_equal, f_equal2; repeat apply (f_equal2 (@cons _)); try reflexivity.
    - rewrite two_R. change (@sub Rops) with Rminus. change (@add Rops) with Rplus. change (@mul Rops) with Rmult. change (@div Rops) with Rdiv. change (@T Rops) with R in *.
      unfold degree_le in Hp. destruct p as [|a0 [|a1 [|a2 [|a3 [|a4 p]]]]]; try (exfalso; cbn in Hp; lia); cbn [pder pder_from peval]; field; exact He.
    - rewrite two_R. change (@sub Rops) with Rminus. change (@mul Rops) with Rmult. change (@div Rops) with Rdiv. unfold Rdiv. rewrite Rminus_diag_eq by reflexivity. apply Rmult_0_l.
Qed.
Section Steps.
Context {E : @Env Rops}.
Hypothesis Hs : @solves_systems E.
Variable inv : list (list R) -> list (list R).
Hypothesis Hi : inverse_of 3 (l_gamma (@ROS3P Rops)) (inv (l_gamma (@ROS3P Rops))).
Lemma inv_N : inv (l_gamma (ros_c ros_gamma)) = ros_N ros_gamma.
Proof. rewrite ROS3P_R in Hi. apply ros_inv; [apply g_ne|exact Hi]. Qed.
Notation step := (@slirk_fixed_step Rops E inv (@ROS3P_gamma Rops) (@ROS3P Rops)).
Lemma C77_linear_lemma lam (t y0 h t' : R) y' : h <> 0 -> 1 - ros_gamma * (h * lam) <> 0 ->
  step (linear_system [[lam]]) t [y0] h = Ret (t', y') -> t' = t + h /\ y' = [ros_num (h * lam) / ros_den (h * lam) * y0].
Proof.
  intros Hh Hd Es. rewrite ROS3P_R, gamma_R in Es.
  destruct (ros_scalar Hs ros_gamma inv (linear_system [[lam]]) (fun _ y => lam * y + 0) t y0 h 0 lam t' y' g_ne inv_N) as (H & u1 & u2 & u3 & H1 & H2 & H3 & H4); auto.
  { apply (C76_jac_lemma 1 [[lam]] t [y0]); [split; [reflexivity|repeat constructor]|reflexivity|apply eps_ne]. }
  split; [exact H|]. rewrite H4. f_equal. clear H H4 Es. unfold ros_num, ros_den.
  pose proof g_ne as Hg. pose proof g_sq as Sq. set (g := ros_gamma) in *. clearbody g. clear Hi Hs.
  set (d := 1 - g * (h * lam)) in *.
  assert (X : forall u w, u * (1 / h / g - lam) = w -> u = w * (h * g) / d).
  { intros u w <-. unfold d. field. repeat split; auto. }
  apply X in H1. apply X in H2. apply X in H3. clear X.
  assert (E1 : u1 = h * lam * y0 * g / d) by (rewrite H1; field; exact Hd). clear H1.
  assert (E2 : u2 = (h * lam * y0 * g + h * lam * u1 - u1 / g) / d) by (rewrite H2; field; auto). clear H2.
  assert (E3 : u3 = (h * lam * y0 * g + h * lam * u1 + ((1/2-2*g)/(g*g) - 1) * u1 + (1/2-2*g)/g * u2) / d) by (rewrite H3; field; auto). clear H3.
  set (z := h * lam) in *. rewrite E3, E2, E1. clear E1 E2 E3 u1 u2 u3. clearbody z.
  assert (Hd' : 1 - g * z <> 0) by exact Hd. unfold d. clear d Hd.
  apply Rminus_diag_uniq.
  match goal with |- ?a - ?b = 0 => replace (a - b) with ((a - b) * (1 - g * z) ^ 3 * g ^ 2 / ((1 - g * z) ^ 3 * g ^ 2)) by (field; auto) end.
  match goal with |- ?a / _ = 0 => replace a with 0; [unfold Rdiv; apply Rmult_0_l|] end.
  transitivity ((324 * z ^ 2 - 108 * (g - 1) * z ^ 3) * y0 * g ^ 2 * (g * g - (g - 1 / 6)) / 108); [rewrite Sq; field|]. field; auto.
Qed.
Lemma C77_quad_lemma p (t h t' : R) y' rhs : h <> 0 -> degree_le 3 p -> quadrature rhs [p] ->
  step rhs t [peval p t] h = Ret (t', y') -> t' = t + h /\ y' = [peval p (t + h)].
Proof.
  intros Hh Hp Qu Es. rewrite ROS3P_R, gamma_R in Es.
  pose proof (quad_jac p t rhs Hp Qu) as HJ.
  destruct (ros_scalar Hs ros_gamma inv rhs (fun t _ => peval (pder p) t) t (peval p t) h (peval (pder (pder p)) t) 0 t' y' g_ne inv_N) as (H & u1 & u2 & u3 & H1 & H2 & H3 & H4); auto; [intros; apply Qu|].
  split; [exact H|]. rewrite H4. f_equal. clear H H4 Es HJ.
  pose proof g_ne as Hg. pose proof g_sq as Sq. set (g := ros_gamma) in *. clearbody g. clear Hi Hs.
  assert (X : forall u w, u * (1 / h / g - 0) = w -> u = w * (h * g)).
  { intros u w <-. field. auto. }
  apply X in H1. apply X in H2. apply X in H3. clear X. rewrite H3, H2, H1. clear H1 H2 H3.
  unfold degree_le in Hp. destruct p as [|a0 [|a1 [|a2 [|a3 [|a4 p]]]]]; try (exfalso; cbn in Hp; lia); cbn [pder pder_from peval]; field; auto.
Qed.

(** y1' = y2, y2' = 0 *)
Definition shear : list (list R) := [[0; 1]; [0; 0]].
Lemma solve2 a b c d p q x : np_solve (Env := E) [[a; b]; [c; d]] [p; q] = Ret x -> exists u v, x = [u; v] /\ u * a + v * c = p /\ u * b + v * d = q.
Proof.
  intros H. apply Hs in H as (L & H). destruct x as [|u [|v [|]]]; try discriminate. exists u, v. split; [reflexivity|].
  pose proof (H 0%nat ltac:(cbn; lia)) as H0. pose proof (H 1%nat ltac:(cbn; lia)) as H1. cbn in H0, H1. lra.
Qed.
Definition prs (us : list (R * R)) : list (list R) := map (fun u => [fst u; snd u]) us.
Lemma lincomb_prs c us : @lincomb Rops 2 c (prs us) = [dot c (map fst us); dot c (map snd us)].
Proof.
  assert (F : Forall (fun k : list R => length k = 2%nat) (prs us)) by (apply Forall_map, Forall_forall; reflexivity).
  apply (vec_ext 2); [now apply lincomb_len|reflexivity|]. intros i Hj. rewrite lincomb_cmp by auto. destruct i as [|[|]]; [| |lia]; cbn [nth]; f_equal; unfold prs; rewrite map_map; reflexivity.
Qed.
Lemma stage2 (h g t a b : R) A C i al gm nodes us U' :
  @li_stages Rops E (fun _ => @li_matrix Rops 2 h g [[0; 0]; [1; 0]]) A C (linear_system shear) t [a; b] [0; 0] h i ((al, gm) :: nodes) (prs us) = Ret U' ->
  exists u v : R, u * (1 / h / g) = b + dot (firstn i (nth i A [])) (map snd (firstn i us)) + dot (firstn i (nth i C [])) (map fst (firstn i us)) / h /\
    v * (1 / h / g) - u = dot (firstn i (nth i C [])) (map snd (firstn i us)) / h /\
    @li_stages Rops E (fun _ => @li_matrix Rops 2 h g [[0; 0]; [1; 0]]) A C (linear_system shear) t [a; b] [0; 0] h (i + 1) nodes (prs (us ++ [(u, v)])) = Ret U'.
Proof.
  intros H. cbn [li_stages] in H. change (length [a; b]) with 2%nat in H. unfold prs in H. rewrite firstn_map in H. fold (prs (firstn i us)) in H.
  rewrite !lincomb_prs in H. set (X := dot (firstn i (nth i A [])) (map snd (firstn i us))) in *. set (Y := dot (firstn i (nth i C [])) (map fst (firstn i us))) in *.
  set (Z := dot (firstn i (nth i C [])) (map snd (firstn i us))) in *. unfold linear_system at 1 in H. cbn [obind map vscale vadd map2 shear dot] in H.
  assert (Em : @transpose Rops 2 (@li_matrix Rops 2 h g [[0; 0]; [1; 0]]) = [[1 / h / g; -1]; [0; 1 / h / g]]).
  { unfold li_matrix, transpose, eye. cbn. change (@T Rops) with R. repeat apply (f_equal2 (@cons (list R))); try reflexivity; repeat apply (f_equal2 (@cons R)); try reflexivity; unfold Q2R, Rdiv; cbn; rewrite ?Rinv_1; ring. }
  rewrite Em in H.
  match type of H with context [np_solve _ ?v] => destruct (np_solve _ v) as [x1| |] eqn:E1 end; cbn [obind] in H; try discriminate.
  apply solve2 in E1 as (u & v & -> & Hu & Hv). exists u, v. change (@T Rops) with R in *. change (@add Rops) with Rplus in *. change (@mul Rops) with Rmult in *. change (@div Rops) with Rdiv in *. split; [|split].
  - replace (u * (1 / h / g)) with (u * (1 / h / g) + v * 0) by ring. rewrite Hu. ring.
  - replace (v * (1 / h / g) - u) with (u * -1 + v * (1 / h / g)) by ring. rewrite Hv. ring.
  - unfold prs. rewrite map_app. exact H.
Qed.
Lemma C77_shear_lemma (t h a b t' : R) y' : h <> 0 -> step (linear_system shear) t [a; b] h = Ret (t', y') ->
  t' = t + h /\ y' = [a + h * b + ros_gamma / 3 * h ^ 3 * b; b + h ^ 2 / 6 * b + ros_gamma * (1 / 2 - ros_gamma) / 3 * h ^ 4 * b].
Proof.
  intros Hh Es. rewrite ROS3P_R, gamma_R in Es. pose proof g_ne as Hg. pose proof g_sq as Sq. pose proof inv_N as HN. set (g := ros_gamma) in *. clearbody g.
  unfold slirk_fixed_step in Es.
  rewrite (C76_jac_lemma 2 shear t [a; b]) in Es; [|split; [reflexivity|repeat constructor]|reflexivity|apply eps_ne]. cbn [obind] in Es.
  rewrite (ros_A g Hg inv HN) in Es. rewrite (ros_C g Hg inv HN) in Es. rewrite (ros_M g Hg inv HN) in Es. rewrite ros_Al, ros_Ga in Es.
  cbn [combine repeat seq map shear nth] in Es. change (length [a; b]) with 2%nat in Es.
  destruct (li_stages _ _ _ _ _ _ _ _ _ _ _) as [U| |] eqn:EU; cbn [obind] in Es; try discriminate. injection Es as <- <-.
  split; [reflexivity|]. change (@nil (@vec Rops)) with (prs []) in EU.
  apply stage2 in EU as (u1 & v1 & H1 & K1 & EU). cbn [app Nat.add] in EU.
  apply stage2 in EU as (u2 & v2 & H2 & K2 & EU). cbn [app Nat.add] in EU.
  apply stage2 in EU as (u3 & v3 & H3 & K3 & EU). cbn [app Nat.add] in EU. cbn [li_stages] in EU. injection EU as <-.
  cbn [firstn nth map dot fst snd] in H1, H2, H3, K1, K2, K3.
  etransitivity; [apply (f_equal (@vadd Rops [a; b])); exact (lincomb_prs _ [(u1, v1); (u2, v2); (u3, v3)])|].
  cbn [vadd map2 dot map fst snd]. change (@add Rops) with Rplus.
  assert (X : forall u w, u * (1 / h / g) = w -> u = w * (h * g)) by (intros u w <-; field; auto).
  assert (X' : forall v u w, v * (1 / h / g) - u = w -> v = (u + w) * (h * g)) by (intros v u w <-; field; auto).
  apply X in H1. apply X in H2. apply X in H3. apply X' in K1. apply X' in K2. apply X' in K3. clear X X'.
  rewrite K3, K2, K1, H3, H2. rewrite K1, H1. clear H1 H2 H3 K1 K2 K3 Hs Hi HN.
  repeat apply (f_equal2 (@cons R)); try reflexivity; field; auto.
Qed.
End Steps.

(** ** a solver of small systems *)
Definition cramer (cols : list (list R)) (b : list R) : outcome (list R) :=
  match cols, b with
  | [[a]], [p] => if Reqb a 0 then Raise LinAlgError else Ret [p / a]
  | [[a; b]; [c; d]], [p; q] => if Reqb (a * d - b * c) 0 then Raise LinAlgError else Ret [(p * d - q * c) / (a * d - b * c); (a * q - b * p) / (a * d - b * c)]
  | _, _ => Raise LinAlgError
  end.
Definition cramer_env : @Env Rops := @Build_Env Rops false cramer (fun l => seq 0 (length l)).
Lemma cramer_solves : @solves_systems cramer_env.
Proof.
  intros cols b x H. cbn [np_solve cramer_env] in H. unfold cramer in H.
  destruct cols as [|[|a [|a' [|]]] [|[|c [|d [|]]] [|]]]; try discriminate; destruct b as [|p [|q [|]]]; try discriminate.
  - destruct (Reqb a 0) eqn:Ea; try discriminate. injection H as <-. apply Reqb_false in Ea. split; [reflexivity|]. intros [|i] Hi; [|cbn in Hi; lia]. cbn. field. exact Ea.
  - destruct (Reqb _ 0) eqn:Ea; try discriminate. injection H as <-. apply Reqb_false in Ea. split; [reflexivity|]. intros [|[|i]] Hi; [| |cbn in Hi; lia]; cbn; field; exact Ea.
Qed.
Definition ros_inverse : list (list R) -> list (list R) := fun _ => ros_N ros_gamma.
Lemma ros_inverse_ok : inverse_of 3 (l_gamma (@ROS3P Rops)) (ros_inverse (l_gamma (@ROS3P Rops))).
Proof.
  rewrite ROS3P_R. unfold ros_inverse. pose proof g_ne as Hg. set (g := ros_gamma) in *. clearbody g. split; [split; [reflexivity|repeat constructor]|].
  intros [|[|[|i]]] [|[|[|j]]] Hi Hj; try lia; cbn; field; exact Hg.
Qed.
Lemma shear_returns (t a b h : R) : h <> 0 -> exists t' y', @slirk_fixed_step Rops cramer_env ros_inverse (@ROS3P_gamma Rops) (@ROS3P Rops) (linear_system shear) t [a; b] h = Ret (t', y').
Proof.
  intros Hh. unfold slirk_fixed_step. rewrite (C76_jac_lemma 2 shear t [a; b]); [|split; [reflexivity|repeat constructor]|reflexivity|apply eps_ne]. cbn [obind].
  assert (K : forall A C nodes i us, exists U, @li_stages Rops cramer_env (fun _ => @li_matrix Rops 2 h ros_gamma [[0; 0]; [1; 0]]) A C (linear_system shear) t [a; b] [0; 0] h i nodes (prs us) = Ret (prs U)).
  { intros A C nodes. induction nodes as [|(al, gm) nodes IH]; intros i us; cbn [li_stages]; [now exists us|].
    change (length [a; b]) with 2%nat. unfold prs at 1 2. rewrite firstn_map. fold (prs (firstn i us)). rewrite !lincomb_prs. 
    unfold linear_system at 1. cbn [obind map vscale vadd map2 shear dot].
    assert (Em : @transpose Rops 2 (@li_matrix Rops 2 h ros_gamma [[0; 0]; [1; 0]]) = [[1 / h / ros_gamma; -1]; [0; 1 / h / ros_gamma]]).
    { unfold li_matrix, transpose, eye. cbn. change (@T Rops) with R. repeat apply (f_equal2 (@cons (list R))); try reflexivity; repeat apply (f_equal2 (@cons R)); try reflexivity; unfold Q2R, Rdiv; cbn; rewrite ?Rinv_1; ring. }
    rewrite Em. cbn [np_solve cramer_env cramer].
    match goal with |- context [Reqb ?x 0] => assert (D : Reqb x 0 = false) end.
    { change (Reqb (1 / h / ros_gamma * (1 / h / ros_gamma) - -1 * 0) 0 = false). apply Reqb_false.
      assert (Hq : 1 / h / ros_gamma * (1 / h / ros_gamma) - -1 * 0 = / (h * ros_gamma) * / (h * ros_gamma)) by (field; split; [apply g_ne|exact Hh]).
      assert (Hn : / (h * ros_gamma) <> 0) by (apply Rinv_neq_0_compat, Rmult_integral_contrapositive_currified; [exact Hh|apply g_ne]).
      intros H0. rewrite Hq in H0. revert H0. now apply Rmult_integral_contrapositive_currified. }
    rewrite D. cbn [obind]. match goal with |- context [prs us ++ [[?u; ?v]]] => destruct (IH (i + 1)%nat (us ++ [(u, v)])) as (U & HU); exists U; rewrite <- HU; unfold prs; rewrite map_app; reflexivity end. }
  rewrite gamma_R. match goal with |- context [@li_stages _ _ _ ?A ?C _ _ _ _ _ ?i ?nodes _] => destruct (K A C nodes i []) as (U & HU) end.
  cbn [repeat seq map shear nth] in *. change (length [a; b]) with 2%nat. change (@nil (@vec Rops)) with (prs []). 
  match type of HU with ?l = _ => match goal with |- context [obind ?r _] => change r with l end end. rewrite HU. cbn [obind]. do 2 eexists. reflexivity.
Qed.
Lemma C77_ref_lemma : exists (M : list (list R)) (E : @Env Rops) inv Ps,
  @solves_systems E /\ inverse_of 3 (l_gamma (@ROS3P Rops)) (inv (l_gamma (@ROS3P Rops))) /\ solves (linear_system M) Ps /\
  forall C h0, 0 < h0 -> exists h t' y', 0 < h < h0 /\
    @slirk_fixed_step Rops E inv (@ROS3P_gamma Rops) (@ROS3P Rops) (linear_system M) 0 (solution Ps 0) h = Ret (t', y') /\
    exists i, C * h ^ 3 < Rabs (cmp i y' - cmp i (solution Ps h)).
Proof.
  exists shear, cramer_env, ros_inverse, [[0; 1]; [1]]. split; [apply cramer_solves|]. split; [apply ros_inverse_ok|]. split.
  { intros t. unfold linear_system, shear, solution, slope. cbn [map peval pder pder_from dot]. f_equal. f_equal; [ring|]. f_equal. ring. }
  intros C h0 H0. set (D := Rmax C 1). assert (HD : 1 <= D) by apply Rmax_r. assert (HC : C <= D) by apply Rmax_l.
  set (h := Rmin (h0 / 2) (/ (12 * D))). assert (Hh : 0 < h) by (apply Rmin_glb_lt; [lra|apply Rinv_0_lt_compat; lra]).
  assert (Hh0 : h <= h0 / 2) by apply Rmin_l. assert (HhD : h <= / (12 * D)) by apply Rmin_r.
  destruct (shear_returns 0 0 1 h ltac:(lra)) as (t' & y' & Es). exists h, t', y'. split; [lra|].
  assert (Ei : solution [[0; 1]; [1]] 0 = [0; 1]) by (cbn; f_equal; [ring|f_equal; ring]). split; [rewrite Ei; exact Es|]. exists 1%nat.
  apply (C77_shear_lemma cramer_solves ros_inverse ros_inverse_ok) in Es as (_ & ->); [|lra].
  cbn [nth solution map peval].
  assert (Q : D * h <= 1 / 12). { apply (Rmult_le_compat_l D) in HhD; [|lra]. replace (D * / (12 * D)) with (1 / 12) in HhD by (field; lra). exact HhD. }
  pose proof g_lo. pose proof g_hi. assert (h <= 1 / 12) by nra.
  match goal with |- _ < Rabs ?x => assert (Ex : x = h ^ 2 * (1 / 6 + ros_gamma * (1 / 2 - ros_gamma) / 3 * (h * h))) end.
  { change (@T Rops) with R. field. }
  rewrite Ex.
  assert (P : 1 / 8 <= 1 / 6 + ros_gamma * (1 / 2 - ros_gamma) / 3 * (h * h)).
  { rewrite Rmult_minus_distr_l, g_sq. assert (0 <= h * h <= 1 / 144) by nra. nra. }
  rewrite Rabs_right; [|apply Rle_ge, Rmult_le_pos; [apply pow_le; lra|lra]].
  assert (h2 : 0 < h ^ 2) by (apply pow_lt; lra).
  apply (Rle_lt_trans _ (h ^ 2 * (1 / 12))); [|nra]. replace (C * h ^ 3) with (h ^ 2 * (C * h)) by ring. apply Rmult_le_compat_l; [lra|]. nra.
Qed.
