(** Rosenbrock order conditions of ROS3P; properties of the classes. *)
From Coq Require Import List ZArith QArith Bool Arith Lia Reals Lra Qreals.
From Verif Require Import Base Scalar Vec MBuffer MZeros MSteps MApi MDop853 MClasses MImplicit Laws
  PBound PVecR SpecRK SpecMS PMS PRK2 PCore SpecOrder POrd1 POrd2 POrd3 SpecStab SpecImpl PImpl1 PImpl2 PImpl3 PImpl4 PImpl5.
Import ListNotations.
Open Scope R_scope.

Section RosD.
Variable d : Q. Variable s : R.
Hypothesis Hs : s * s = Q2R d.
Notation ev := (ev s). Notation muld := (muld d). Notation dotd := (dotd d).
Fixpoint rosd (Al Be : list (list qd)) (t : tree) : list qd :=
  match t with Node ts =>
    map2 (fun a b => match ts with
                     | [c] => dotd b (rosd Al Be c)
                     | _ => fold_right (fun c x => muld (dotd a (rosd Al Be c)) x) (1, 0)%Q ts
                     end) Al Be end.
Lemma map2_map {A B C A' B' C'} (f : A -> B -> C) (f' : A' -> B' -> C') (p : A -> A') (q : B -> B') (r : C -> C') :
  (forall a b, f' (p a) (q b) = r (f a b)) -> forall la lb, map2 f' (map p la) (map q lb) = map r (map2 f la lb).
Proof. intros H. induction la as [|a la IH]; intros [|b lb]; cbn [map map2]; try reflexivity. now rewrite H, IH. Qed.
Lemma rosd_ev Al Be t : ros_weights (map (map ev) Al) (map (map ev) Be) t = map ev (rosd Al Be t).
Proof.
  induction t as [ts IH] using tree_ind'. cbn [ros_weights rosd]. apply map2_map. intros a b.
  assert (K : fold_right (fun c x => dot (map ev a) (ros_weights (map (map ev) Al) (map (map ev) Be) c) * x) 1 ts = ev (fold_right (fun c x => muld (dotd a (rosd Al Be c)) x) (1, 0)%Q ts)).
  { clear b. induction IH as [|c ts Hc _ IHl]; cbn [fold_right]; [symmetry; apply ev_1|]. rewrite Hc, (dotd_ev d s Hs), IHl, (muld_ev d s Hs). reflexivity. }
  destruct ts as [|c [|c' ts]]; [exact K| |exact K]. inversion IH as [|? ? Hc _]; subst. rewrite Hc. apply (dotd_ev d s Hs).
Qed.
Lemma ros_order_d p Al Ga Be B : map2 (map2 Rplus) (map (map ev) Al) Ga = map (map ev) Be ->
  forallb (fun t => equald (dotd B (rosd Al Be t)) (inv_density t)) (trees p) = true -> ros_order p (map (map ev) Al) Ga (map ev B).
Proof.
  intros EB H t Ht. rewrite forallb_forall in H. specialize (H t (trees_all p t Ht)). apply (equald_ev s) in H.
  rewrite EB, rosd_ev, (dotd_ev d s Hs), H. apply inv_density_ev.
Qed.
Lemma ros_not_order_d p Al Ga Be B t : map2 (map2 Rplus) (map (map ev) Al) Ga = map (map ev) Be ->
  (size t <= p)%nat -> ev (dotd B (rosd Al Be t)) <> / density t -> ~ ros_order p (map (map ev) Al) Ga (map ev B).
Proof. intros EB Hp Hn Ho. apply Hn. rewrite <- (Ho t Hp), EB, rosd_ev, (dotd_ev d s Hs). reflexivity. Qed.
End RosD.

Lemma s3_q : sqrt 3 * sqrt 3 = Q2R 3. Proof. rewrite s3_sq. unfold Q2R. cbn. lra. Qed.
Definition ros_Al_d : list (list qd) := [[(0,0);(0,0);(0,0)];[(1,0);(0,0);(0,0)];[(1,0);(0,0);(0,0)]]%Q.
Definition ros_Be_d : list (list qd) := [[(1#2,1#6);(0,0);(0,0)];[(0,0);(1#2,1#6);(0,0)];[(1#2,-1#6);(-1#2,-1#3);(1#2,1#6)]]%Q.
Definition ros_B_d : list qd := [(2#3,0);(0,0);(1#3,0)]%Q.
Definition ros_B2_d : list qd := [(1#3,0);(1#3,0);(1#3,0)]%Q.
Ltac qlists := unfold ev, Q2R; cbn [map map2 fst snd Qnum Qden];
  repeat apply (f_equal2 (@cons (list R))); try reflexivity; repeat apply (f_equal2 (@cons R)); try reflexivity; try field.
Lemma ros_Al_ev : l_alpha (@ROS3P Rops) = map (map (ev (sqrt 3))) ros_Al_d.
Proof. rewrite ROS3P_R. cbn [l_alpha ros_c]. change (@T Rops) with R. unfold ros_Al_d. qlists. Qed.
Lemma ros_B_ev : l_B (@ROS3P Rops) = map (ev (sqrt 3)) ros_B_d.
Proof. rewrite ROS3P_R. cbn [l_B ros_c]. change (@T Rops) with R. unfold ros_B_d. qlists. Qed.
Lemma ros_B2_ev : @ROS3P_B2 Rops = map (ev (sqrt 3)) ros_B2_d.
Proof. unfold ROS3P_B2. rewrite Rops_over. cbn [map]. change (@T Rops) with R. unfold ros_B2_d. qlists. Qed.
Lemma ros_Be_ev : map2 (map2 Rplus) (map (map (ev (sqrt 3))) ros_Al_d) (l_gamma (@ROS3P Rops)) = map (map (ev (sqrt 3))) ros_Be_d.
Proof. rewrite ROS3P_R. cbn [l_gamma ros_c]. change (@T Rops) with R. unfold ros_Al_d, ros_Be_d, ros_gamma. qlists. Qed.
Lemma C77_order_lemma :
  ros_order 3 (l_alpha (@ROS3P Rops)) (l_gamma (@ROS3P Rops)) (l_B (@ROS3P Rops)) /\ ~ ros_order 4 (l_alpha (@ROS3P Rops)) (l_gamma (@ROS3P Rops)) (l_B (@ROS3P Rops)) /\
  ros_order 2 (l_alpha (@ROS3P Rops)) (l_gamma (@ROS3P Rops)) (@ROS3P_B2 Rops) /\ ~ ros_order 3 (l_alpha (@ROS3P Rops)) (l_gamma (@ROS3P Rops)) (@ROS3P_B2 Rops).
Proof.
  rewrite ros_Al_ev, ros_B_ev, ros_B2_ev. split; [|split; [|split]].
  - apply (ros_order_d 3 _ s3_q _ _ _ _ _ ros_Be_ev). vm_compute. reflexivity.
  - apply (ros_not_order_d 3 _ s3_q _ _ _ _ _ (bush 3) ros_Be_ev); [cbn; lia|].
    match goal with |- ev _ ?x <> _ => let y := eval vm_compute in x in change x with y end. unfold ev, Q2R. cbn. lra.
  - apply (ros_order_d 3 _ s3_q _ _ _ _ _ ros_Be_ev). vm_compute. reflexivity.
  - apply (ros_not_order_d 3 _ s3_q _ _ _ _ _ (bush 2) ros_Be_ev); [cbn; lia|].
    match goal with |- ev _ ?x <> _ => let y := eval vm_compute in x in change x with y end. unfold ev, Q2R. cbn. lra.
Qed.

(** ** one matrix for all stages *)
Section Same.
Context {OT : Ops} {E : Env}.
Lemma stages_ext lhs lhs' A C rhs t y ft h nodes : forall i U, (forall k, (i <= k < i + length nodes)%nat -> lhs k = lhs' k) ->
  li_stages lhs A C rhs t y ft h i nodes U = li_stages lhs' A C rhs t y ft h i nodes U.
Proof.
  induction nodes as [|(a, g) nodes IH]; intros i U H; [reflexivity|]. cbn [li_stages]. rewrite (H i) by (cbn; lia).
  destruct (rhs _ _); [|reflexivity|reflexivity]. cbn [obind]. destruct (np_solve _ _); [|reflexivity|reflexivity]. cbn [obind]. apply IH. intros k Hk. apply H. cbn. lia.
Qed.
Lemma C77_same_lemma inv c gamma rhs t y h : (forall i, (i < length (l_gamma c))%nat -> entry (l_gamma c) i i = gamma) ->
  lirk_fixed_step inv c rhs t y h = slirk_fixed_step inv gamma c rhs t y h.
Proof.
  intros H. unfold lirk_fixed_step, slirk_fixed_step. destruct (li_jacobian _ _ _ _) as [(ft, J)| |]; [|reflexivity|reflexivity]. cbn [obind].
  erewrite (stages_ext _ (fun _ => li_matrix (length y) h gamma J)); [reflexivity|]. intros k Hk. cbn beta. rewrite H; [reflexivity|].
  rewrite combine_length in Hk. unfold l_Gammai, tril_sums in Hk. rewrite map_length, combine_length, seq_length in Hk. lia.
Qed.
End Same.
Lemma C77_stable_lemma z : z <= 0 -> 0 < ros_den z /\ Rabs (ros_num z) <= ros_den z.
Proof.
  intros Hz. unfold ros_den, ros_num. pose proof g_lo as G1. pose proof g_hi as G2. pose proof g_sq as Sq. set (g := ros_gamma) in *. clearbody g.
  set (w := - z). assert (W : 0 <= w) by (unfold w; lra). replace z with (- w) by (unfold w; lra). clearbody w. clear z Hz.
  assert (P : 0 <= g * w) by (apply Rmult_le_pos; lra).
  assert (E : (1 - g * - w) ^ 3 = 1 + 3 * g * w + (3 * g - 1/2) * w ^ 2 + (5 / 6 * g - 1 / 6) * w ^ 3).
  { transitivity (1 + 3 * g * w + 3 * (g * g) * w ^ 2 + g * (g * g) * w ^ 3); [ring|]. rewrite Sq. rewrite (Rmult_minus_distr_l g), Sq. field. }
  rewrite E. pose proof (pow_le w 2 W) as W2. pose proof (pow_le w 3 W) as W3.
  assert (Q1 : 0 <= g * w ^ 2) by (apply Rmult_le_pos; lra). assert (Q2 : 0 <= (g - 78/100) * w ^ 2) by (apply Rmult_le_pos; lra). assert (Q3 : 0 <= (g - 78/100) * w ^ 3) by (apply Rmult_le_pos; lra).
  assert (Q4 : 0 <= (g - 78/100) * w) by (apply Rmult_le_pos; lra). assert (Q5 : 0 <= (79/100 - g) * w) by (apply Rmult_le_pos; lra).
  split; [lra|]. apply Rabs_le. replace ((- w) ^ 3) with (- w ^ 3) by ring. split; lra.
Qed.

(** ** the class properties *)
Lemma sum_fold v : forall a, fold_left Rplus v a = a + fold_right Rplus 0 v.
Proof. induction v as [|x v IH]; intros a; cbn [fold_left fold_right]; [lra|]. rewrite IH. lra. Qed.
Lemma C78_consistent_lemma (B : list R) : @consistent Rops B = true <-> Rabs (fold_right Rplus 0 B - 1) <= / 100000000 + / 100000.
Proof.
  unfold consistent, isclose, vsum. change (@leb Rops) with Rleb. rewrite Rleb_true. change (@add Rops) with Rplus. rewrite sum_fold. rewrite zero_R, one_R, !lit_R.
  change (@absT Rops) with Rabs. change (@mul Rops) with Rmult. change (@sub Rops) with Rminus. change (@T Rops) with R. cbn [Qnum Qden]. rewrite Rabs_R1.
  replace (0 + fold_right Rplus 0 B) with (fold_right Rplus 0 B) by lra. split; intros H; lra.
Qed.
Lemma skipn_all0 (a : list R) k : forallb (fun x => Reqb x 0) (skipn k a) = true <-> forall j, (k <= j)%nat -> nth j a 0 = 0.
Proof.
  rewrite forallb_forall. split.
  - intros H j Hj. destruct (le_lt_dec (length a) j) as [l|l]; [now apply nth_overflow|]. apply Reqb_true, H.
    rewrite (POrd2.skipn_nth 0 k a j Hj). apply nth_In. rewrite skipn_length. lia.
  - intros H x Hx. apply Reqb_true. apply (In_nth _ _ 0) in Hx as (i & Hi & <-). rewrite skipn_length in Hi.
    specialize (H (k + i)%nat ltac:(lia)). rewrite (POrd2.skipn_nth 0 k a (k + i) ltac:(lia)) in H. replace (k + i - k)%nat with i in H by lia. exact H.
Qed.
Lemma rows_all (P : nat -> list R -> bool) (A : list (list R)) : forall b,
  forallb (fun p => P (fst p) (snd p)) (combine (seq b (length A)) A) = true <-> forall i, (i < length A)%nat -> P (b + i)%nat (nth i A []) = true.
Proof.
  induction A as [|a A IH]; intros b; cbn [length seq combine forallb].
  - split; [intros _ i Hi; lia|reflexivity].
  - rewrite andb_true_iff, IH. cbn [fst snd]. split.
    + intros (H1 & H2) [|i] Hi; cbn [nth]; [now rewrite Nat.add_0_r|]. rewrite <- Nat.add_succ_comm. apply H2. lia.
    + intros H. split; [specialize (H 0%nat ltac:(lia)); now rewrite Nat.add_0_r in H|]. intros i Hi. specialize (H (S i) ltac:(lia)). now rewrite <- Nat.add_succ_comm in H.
Qed.
Lemma existsb_negb {A} (f : A -> bool) l : existsb (fun x => negb (f x)) l = negb (forallb f l).
Proof. induction l as [|a l IH]; [reflexivity|]. cbn. rewrite IH. now destruct (f a). Qed.
Lemma C78_implicit_lemma (A : list (list R)) : @firk_implicit Rops A = false <-> lower A.
Proof.
  assert (E : @firk_implicit Rops A = negb (forallb (fun p => forallb (fun x => Reqb x 0) (skipn (fst p) (snd p))) (combine (seq 0 (length A)) A))).
  { unfold firk_implicit. rewrite zero_R. change (@eqb Rops) with Reqb. change (@T Rops) with R. generalize (combine (seq 0 (length A)) A). intros l. induction l as [|a l IH]; [reflexivity|].
    cbn [existsb forallb]. rewrite negb_andb, <- IH. now rewrite <- existsb_negb. }
  rewrite E, negb_false_iff, (rows_all (fun i a => forallb (fun x => Reqb x 0) (skipn i a))). unfold lower. split.
  - intros H i j Hij. destruct (le_lt_dec (length A) i) as [l|l]; [rewrite (nth_overflow A) by auto; now destruct j|].
    specialize (H i l). cbn [Nat.add] in H. rewrite skipn_all0 in H. auto.
  - intros H i Hi. apply skipn_all0. intros j Hj. apply H. lia.
Qed.
Lemma C78_diag_lemma (A : list (list R)) : @diagonally_implicit Rops A = true <-> forall i j, (i < j)%nat -> nth j (nth i A []) 0 = 0.
Proof.
  unfold diagonally_implicit. rewrite zero_R. change (@eqb Rops) with Reqb. etransitivity; [apply (rows_all (fun i a => forallb (fun x => Reqb x 0) (skipn (S i) a)))|]. split.
  - intros H i j Hij. destruct (le_lt_dec (length A) i) as [l|l]; [rewrite (nth_overflow A) by auto; now destruct j|].
    specialize (H i l). cbn [Nat.add] in H. rewrite skipn_all0 in H. apply H. lia.
  - intros H i Hi. apply skipn_all0. intros j Hj. apply H. lia.
Qed.
Lemma diag_map (A : list (list R)) : map (fun p => nth (fst p) (snd p) 0) (combine (seq 0 (length A)) A) = map (fun i => nth i (nth i A []) 0) (seq 0 (length A)).
Proof.
  assert (K : forall b, map (fun p : nat * list R => nth (fst p) (snd p) 0) (combine (seq b (length A)) A) = map (fun i => nth (b + i) (nth i A []) 0) (seq 0 (length A))); [|exact (K 0%nat)].
  induction A as [|a A IH]; intros b; [reflexivity|]. cbn [length seq combine map fst snd nth]. f_equal; [now rewrite Nat.add_0_r|]. rewrite IH, <- seq_shift, map_map. apply map_ext. intros i. now rewrite Nat.add_succ_comm.
Qed.
Lemma C78_single_lemma (A : list (list R)) : @singly_diagonally_implicit Rops A = true <->
  A <> [] /\ exists g, forall i, (i < length A)%nat -> nth i (nth i A []) 0 = g.
Proof.
  unfold singly_diagonally_implicit. rewrite zero_R. change (@T Rops) with R. change (@eqb Rops) with Reqb. rewrite diag_map. destruct A as [|a A].
  - cbn. split; [discriminate|intros (H & _); now contradiction H].
  - cbn [length seq map]. rewrite forallb_forall. split.
    + intros H. split; [discriminate|]. exists (nth 0 (nth 0 (a :: A) []) 0). intros [|i] Hi; [reflexivity|].
      apply Reqb_true. apply H. apply in_map_iff. exists (S i). split; [reflexivity|]. apply in_seq. cbn in Hi. lia.
    + intros (_ & g & H) x Hx. apply in_map_iff in Hx as (i & <- & Hi). apply in_seq in Hi. apply Reqb_true. rewrite !H; [reflexivity|cbn; lia|cbn; lia].
Qed.
Lemma order1_sum p A B : has_order (S p) A B -> length B = length A -> fold_right Rplus 0 B = 1.
Proof.
  intros H L. specialize (H (Node []) ltac:(cbn; lia)). unfold weight in H. cbn [stage_weights fold_right] in H. rewrite dot_ones in H by exact L. rewrite H. cbn. lra.
Qed.
Lemma sum1_consistent (B : list R) : fold_right Rplus 0 B = 1 -> @consistent Rops B = true.
Proof. intros H. apply C78_consistent_lemma. rewrite H, Rminus_diag_eq, Rabs_R0 by reflexivity. lra. Qed.
(** nodes of the linearly implicit classes *)
Lemma firstn_sum (r : list R) k : fold_right Rplus 0 (firstn k r) = fold_right Rplus 0 (map (fun j => nth j r 0) (seq 0 k)).
Proof.
  revert k. induction r as [|a r IH]; intros [|k]; cbn [firstn fold_right seq map nth]; try reflexivity.
  - assert (G : forall l : list nat, fold_right Rplus 0 (map (fun j => match j with O => 0 | S _ => 0 end) l) = 0).
    { induction l as [|[|x] l IHl]; cbn [map fold_right]; [reflexivity|rewrite IHl; ring|rewrite IHl; ring]. }
    rewrite G. ring.
  - rewrite IH, <- seq_shift, map_map. reflexivity.
Qed.
Lemma C77_nodes_lemma (c : @lirk Rops) i : 
  ((i < length (l_alpha c))%nat -> nth i (l_Alphai c) 0 = fold_right Rplus 0 (map (fun j => nth j (nth i (l_alpha c) []) 0) (seq 0 i))) /\
  ((i < length (l_gamma c))%nat -> nth i (l_Gammai c) 0 = fold_right Rplus 0 (map (fun j => nth j (nth i (l_gamma c) []) 0) (seq 0 (S i)))).
Proof.
  assert (G : forall strict (M : list (list R)), (i < length M)%nat ->
    nth i (@tril_sums Rops strict M) 0 = @vsum Rops (firstn (if strict then i else S i) (nth i M []))).
  { intros strict M Hi. unfold tril_sums. set (f := fun p => @vsum Rops _).
    rewrite (nth_indep _ 0 (f (0%nat, [])) ltac:(rewrite map_length, combine_length, seq_length; change (@vec Rops) with (list R); rewrite Nat.min_id; exact Hi)).
    rewrite map_nth, combine_nth by apply seq_length. unfold f. cbn [fst snd]. now rewrite seq_nth by exact Hi. }
  split; intros Hi; unfold l_Alphai, l_Gammai.
  - refine (eq_trans (G true _ Hi) _). rewrite <- firstn_sum. unfold vsum. change (@add Rops) with Rplus. rewrite sum_fold, zero_R. exact (Rplus_0_l _).
  - refine (eq_trans (G false _ Hi) _). rewrite <- firstn_sum. unfold vsum. change (@add Rops) with Rplus. rewrite sum_fold, zero_R. exact (Rplus_0_l _).
Qed.
