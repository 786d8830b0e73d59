(** ROS3P. *)
From Coq Require Import List ZArith QArith Bool Arith Lia Reals Lra.
From Verif Require Import Base Scalar Vec MBuffer MZeros MSteps MApi MDop853 MClasses MImplicit Laws
  PBound PVecR SpecRK SpecMS PMS PRK2 PCore SpecOrder POrd1 POrd2 POrd3 SpecStab SpecImpl PImpl1 PImpl2 PImpl3.
Import ListNotations.
Open Scope R_scope.

Lemma s3_sq : sqrt 3 * sqrt 3 = 3. Proof. apply sqrt_sqrt. lra. Qed.
Lemma g_sq : ros_gamma * ros_gamma = ros_gamma - 1 / 6.
Proof. unfold ros_gamma. pose proof s3_sq as H. set (s := sqrt 3) in *. clearbody s. field [H]. Qed.
Lemma g_lo : 78 / 100 < ros_gamma. Proof. pose proof g_sq. assert (H0 : 0 <= sqrt 3) by apply sqrt_pos. assert (1/2 <= ros_gamma) by (unfold ros_gamma; lra). nra. Qed.
Lemma g_hi : ros_gamma < 79 / 100. Proof. pose proof g_sq. pose proof g_lo. nra. Qed.
Lemma gamma_R : @ROS3P_gamma Rops = ros_gamma.
Proof. unfold ROS3P_gamma, ros_gamma. cbn [lit sqrtT add div Rops]. unfold Q2R. cbn [Qnum Qden]. change (@T Rops) with R. replace (3 / 1) with 3 by lra. replace (6 / 1) with 6 by lra. reflexivity. Qed.
Definition ros_c (g : R) : @lirk Rops := @mklirk Rops [[0;0;0];[1;0;0];[1;0;0]] [[g;0;0];[-1;g;0];[-g;1/2-2*g;g]] [2/3;0;1/3].
Lemma ROS3P_R : @ROS3P Rops = ros_c ros_gamma.
Proof.
  unfold ROS3P, ros_c. rewrite gamma_R. unfold litm. rewrite ?Rops_over. cbn [map]. rewrite ?Rops_lits. cbn [map]. rewrite !lit_R.
  change (@T Rops) with R. change (@opp Rops) with Ropp. change (@sub Rops) with Rminus. change (@mul Rops) with Rmult. change (@div Rops) with Rdiv. unfold Q2R. cbn [Qnum Qden].
  f_equal; repeat apply (f_equal2 (@cons (list R))); try reflexivity; repeat apply (f_equal2 (@cons R)); try reflexivity; field.
Qed.
Definition ros_N (g : R) : list (list R) := [[/g;0;0];[/(g*g);/g;0];[/g - (1/2-2*g)/(g*g*g); - (1/2-2*g)/(g*g); /g]].
Lemma ros_inv g N : g <> 0 -> inverse_of 3 (l_gamma (ros_c g)) N -> N = ros_N g.
Proof.
  intros Hg ((LN & FN) & H).
  destruct N as [|r1 [|r2 [|r3 [|]]]]; try discriminate. inversion FN as [|? ? F1 F']; subst. inversion F' as [|? ? F2 F'']; subst. inversion F'' as [|? ? F3 _]; subst.
  destruct r1 as [|a1 [|b1 [|c1 [|]]]]; try discriminate. destruct r2 as [|a2 [|b2 [|c2 [|]]]]; try discriminate. destruct r3 as [|a3 [|b3 [|c3 [|]]]]; try discriminate.
  pose proof (fun i j Hi Hj => H i j Hi Hj) as H'. 
  pose proof (H 0 0 ltac:(lia) ltac:(lia))%nat as E00. pose proof (H 0 1 ltac:(lia) ltac:(lia))%nat as E01. pose proof (H 0 2 ltac:(lia) ltac:(lia))%nat as E02.
  pose proof (H 1 0 ltac:(lia) ltac:(lia))%nat as E10. pose proof (H 1 1 ltac:(lia) ltac:(lia))%nat as E11. pose proof (H 1 2 ltac:(lia) ltac:(lia))%nat as E12.
  pose proof (H 2 0 ltac:(lia) ltac:(lia))%nat as E20. pose proof (H 2 1 ltac:(lia) ltac:(lia))%nat as E21. pose proof (H 2 2 ltac:(lia) ltac:(lia))%nat as E22.
  clear H H'. cbn [l_gamma ros_c nth map dot Nat.eqb] in *. change (@T Rops) with R in *.
  assert (a1 = / g). { apply (Rmult_eq_reg_l g); [|exact Hg]. rewrite Rinv_r by exact Hg. lra. }
  assert (b1 = 0). { apply (Rmult_eq_reg_l g); [|exact Hg]. lra. }
  assert (c1 = 0). { apply (Rmult_eq_reg_l g); [|exact Hg]. lra. } subst.
  assert (a2 = / (g * g)). { apply (Rmult_eq_reg_l g); [|exact Hg]. replace (g * / (g * g)) with (/ g) by (field; exact Hg). lra. }
  assert (b2 = / g). { apply (Rmult_eq_reg_l g); [|exact Hg]. rewrite Rinv_r by exact Hg. lra. }
  assert (c2 = 0). { apply (Rmult_eq_reg_l g); [|exact Hg]. lra. } subst.
  unfold ros_N. repeat apply (f_equal2 (@cons (list R))); try reflexivity. repeat apply (f_equal2 (@cons R)); try reflexivity; apply (Rmult_eq_reg_l g); try exact Hg.
  - transitivity (g * / g - (1/2-2*g) * / (g*g)); [lra|field; exact Hg].
  - transitivity (- ((1/2-2*g) * / g)); [lra|field; exact Hg].
  - rewrite Rinv_r by exact Hg. lra.
Qed.
Section Coeffs.
Variable g : R. Hypothesis Hg : g <> 0.
Variable inv : list (list R) -> list (list R).
Hypothesis Hinv : inv (l_gamma (ros_c g)) = ros_N g.
Ltac lists := change (@T Rops) with R; repeat apply (f_equal2 (@cons (list R))); try reflexivity; repeat apply (f_equal2 (@cons R)); try reflexivity.
Lemma ros_A : @l_A Rops inv (ros_c g) = [[0;0;0];[/g;0;0];[/g;0;0]].
Proof. unfold l_A. rewrite Hinv. unfold matmat, vecmat, lincomb, ros_N. cbn. rewrite ?zero_R. lists; field; try exact Hg. Qed.
Lemma ros_M : @l_M Rops inv (ros_c g) = [2/3/g + 1/3*(/g - (1/2-2*g)/(g*g*g)); -1/3*((1/2-2*g)/(g*g)); 1/3/g].
Proof. unfold l_M. rewrite Hinv. unfold vecmat, lincomb, ros_N. cbn. rewrite ?zero_R. lists; field; try exact Hg. Qed.
Lemma ros_C : @l_C Rops inv (ros_c g) = [[0;0;0];[- / (g*g);0;0];[(1/2-2*g)/(g*g*g) - /g; (1/2-2*g)/(g*g); 0]].
Proof. unfold l_C. rewrite Hinv. unfold ros_N, entry. cbn. rewrite ?zero_R, ?one_R. lists; field; try exact Hg. Qed.
Lemma ros_Al : @l_Alphai Rops (ros_c g) = [0;1;1].
Proof. unfold l_Alphai, tril_sums. cbn. rewrite ?zero_R. lists; field; try exact Hg. Qed.
Lemma ros_Ga : @l_Gammai Rops (ros_c g) = [g;g-1;1/2-2*g].
Proof. unfold l_Gammai, tril_sums. cbn. rewrite ?zero_R. lists; field; try exact Hg. Qed.
End Coeffs.
Section Step1.
Context {E : @Env Rops}.
Hypothesis Hs : @solves_systems E.
Lemma solve1 a b x : np_solve (Env := E) [[a]] [b] = Ret x -> exists u, x = [u] /\ u * a = b.
Proof.
  intros H. apply Hs in H as (L & H). destruct x as [|u [|]]; try discriminate. exists u. split; [reflexivity|].
  specialize (H 0%nat ltac:(cbn; lia)). cbn in H. lra.
Qed.
Definition sing (us : list R) : list (list R) := map (fun u => [u]) us.
Lemma lincomb_sing c us : @lincomb Rops 1 c (sing us) = [dot c us].
Proof.
  assert (F : Forall (fun k : list R => length k = 1%nat) (sing us)) by (apply Forall_map, Forall_forall; reflexivity).
  apply (vec_ext 1); [now apply lincomb_len|reflexivity|]. intros i Hi. rewrite lincomb_cmp by auto. destruct i; [|lia]. cbn [nth]. f_equal. unfold sing. rewrite map_map. cbn. apply map_id.
Qed.
Lemma stage1 lhs (J h g : R) A C rhs (F : R -> R -> R) (t y0 ft : R) i (a gm : R) nodes us U' : (forall i, lhs i = @li_matrix Rops 1 h g [[J]]) ->
  (forall t y, rhs t [y] = Ret [F t y]) ->
  @li_stages Rops E lhs A C rhs t [y0] [ft] h i ((a, gm) :: nodes) (sing us) = Ret U' ->
  exists u, u * (1 / h / g - J) = F (t + h * a) (y0 + dot (firstn i (nth i A [])) (firstn i us)) + dot (firstn i (nth i C [])) (firstn i us) / h + gm * h * ft /\
    @li_stages Rops E lhs A C rhs t [y0] [ft] h (i + 1) nodes (sing (us ++ [u])) = Ret U'.
Proof.
  intros HL HF H. cbn [li_stages] in H. change (length [y0]) with 1%nat in H. unfold sing in H. rewrite firstn_map in H. fold (sing (firstn i us)) in H.
  rewrite !lincomb_sing in H. cbn [vadd map2] in H. 
  match type of H with context [rhs ?b [?z]] => change (rhs b [z]) with (rhs (t + h * a) [y0 + dot (firstn i (nth i A [])) (firstn i us)]) in H end.
  rewrite HF in H. cbn [obind map vscale vadd map2] in H. rewrite HL in H.
  assert (Em : @transpose Rops 1 (@li_matrix Rops 1 h g [[J]]) = [[1 / h / g - J]]).
  { unfold li_matrix, transpose, eye. cbn. change (@T Rops) with R. repeat apply (f_equal2 (@cons _)); try reflexivity. unfold Q2R; cbn. replace (1 / 1) with 1 by lra. reflexivity. }
  rewrite Em in H.
  match type of H with context [np_solve _ ?v] => destruct (np_solve _ v) as [x1| |] eqn:E1 end; cbn [obind] in H; try discriminate.
  apply solve1 in E1 as (u & -> & Hu). exists u. split; [exact Hu|]. unfold sing. rewrite map_app. exact H.
Qed.
Lemma ros_scalar g inv rhs (F : R -> R -> R) (t y0 h ft J t' : R) (y' : list R) : g <> 0 -> inv (l_gamma (ros_c g)) = ros_N g ->
  (forall t y, rhs t [y] = Ret [F t y]) -> @li_jacobian Rops rhs t [y0] (@li_eps Rops) = Ret ([ft], [[J]]) ->
  @slirk_fixed_step Rops E inv g (ros_c g) rhs t [y0] h = Ret (t', y') ->
  t' = t + h /\ exists u1 u2 u3 : R,
    u1 * (1 / h / g - J) = F t y0 + g * h * ft /\
    u2 * (1 / h / g - J) = F (t + h) (y0 + u1 / g) + (- / (g * g)) * u1 / h + (g - 1) * h * ft /\
    u3 * (1 / h / g - J) = F (t + h) (y0 + u1 / g) + (((1/2-2*g)/(g*g*g) - /g) * u1 + (1/2-2*g)/(g*g) * u2) / h + (1/2-2*g) * h * ft /\
    y' = [y0 + ((2/3/g + 1/3*(/g - (1/2-2*g)/(g*g*g))) * u1 + (-1/3*((1/2-2*g)/(g*g))) * u2 + 1/3/g * u3)].
Proof.
  intros Hg Hi HF HJ Es. unfold slirk_fixed_step in Es. rewrite HJ in Es. cbn [obind] in Es.
  rewrite (ros_A g Hg inv Hi) in Es. rewrite (ros_C g Hg inv Hi) in Es. rewrite (ros_M g Hg inv Hi) in Es. rewrite ros_Al, ros_Ga in Es.
  cbn [combine] in Es. destruct (li_stages _ _ _ _ _ _ _ _ _ _ _) as [U| |] eqn:EU; cbn [obind] in Es; try discriminate. injection Es as <- <-.
  split; [reflexivity|]. change (@nil (@vec Rops)) with (sing []) in EU.
  apply (stage1 _ J h g _ _ rhs F) in EU as (u1 & H1 & EU); auto. cbn [app Nat.add] in EU.
  apply (stage1 _ J h g _ _ rhs F) in EU as (u2 & H2 & EU); auto. cbn [app Nat.add] in EU.
  apply (stage1 _ J h g _ _ rhs F) in EU as (u3 & H3 & EU); auto. cbn [app Nat.add] in EU. cbn [li_stages] in EU. injection EU as <-.
  cbn [firstn nth dot] in H1, H2, H3. exists u1, u2, u3.
  replace (t + h * 0) with t in H1 by ring. replace (y0 + 0) with y0 in H1 by ring. replace (t + h * 1) with (t + h) in H2, H3 by ring.
  replace (y0 + (/ g * u1 + 0)) with (y0 + u1 / g) in H2 by (field; exact Hg). replace (y0 + (/ g * u1 + (0 * u2 + 0))) with (y0 + u1 / g) in H3 by (field; exact Hg).
  split; [rewrite H1; unfold Rdiv; ring|]. split; [rewrite H2; unfold Rdiv; ring|]. split; [rewrite H3; unfold Rdiv; ring|].
  etransitivity; [apply (f_equal (@vadd Rops [y0])); exact (lincomb_sing _ [u1; u2; u3])|]. cbn [vadd map2 dot]. change (@add Rops) with Rplus. f_equal. change (@T Rops) with R. unfold Rdiv. ring.
Qed.
End Step1.
