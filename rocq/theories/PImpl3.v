(** The linearly implicit methods. *)
From Coq Require Import List ZArith QArith Bool Arith Lia Reals Lra.
From Verif Require Import Base Scalar Vec MBuffer MZeros MSteps MApi MDop853 MClasses MImplicit Laws
  PBound PVecR SpecRK SpecMS PMS PRK2 PCore SpecOrder POrd1 POrd2 POrd3 SpecStab SpecImpl PImpl1 PImpl2.
Import ListNotations.
Open Scope R_scope.

Lemma omapM_ret {A B} (f : A -> outcome B) g l : (forall a, In a l -> f a = Ret (g a)) -> omapM f l = Ret (map g l).
Proof.
  induction l as [|a l IH]; intros H; [reflexivity|]. cbn [omapM map]. rewrite (H a) by (left; reflexivity). cbn [obind].
  rewrite IH by (intros; apply H; now right). reflexivity.
Qed.
Lemma dot_set row : forall (y : list R) i e, length row = length y -> (i < length y)%nat ->
  dot row (list_set y i (nth i y 0 + e)) = dot row y + nth i row 0 * e.
Proof.
  induction row as [|r row IH]; intros [|x y] i e L Hi; try discriminate; [cbn in Hi; lia|].
  destruct i as [|i]; cbn [list_set nth dot]; [lra|]. rewrite IH by (cbn in *; lia). lra.
Qed.
Lemma vsub_map {A} (f g : A -> R) l : @vsub Rops (map f l) (map g l) = map (fun x => f x - g x) l.
Proof. induction l as [|x l IH]; [reflexivity|]. cbn [map]. change (@vsub Rops (f x :: map f l) (g x :: map g l)) with (f x - g x :: @vsub Rops (map f l) (map g l)). now rewrite IH. Qed.

Lemma C76_jac_lemma n M t y eps : shape n n M -> length y = n -> eps <> 0 ->
  @li_jacobian Rops (linear_system M) t y eps = Ret (repeat 0 n, map (fun i => map (fun row => nth i row 0) M) (seq 0 n)).
Proof.
  intros (LM & FM) Ly He. subst n. unfold li_jacobian, linear_system. cbn [obind]. rewrite vsub_map, map_map.
  rewrite (omapM_ret _ (fun i => map (fun row : list R => nth i row 0) M)).
  - cbn [obind]. f_equal. apply f_equal2; [|now rewrite Ly].
    clear. change (@T Rops) with R. induction M as [|r M IH]; [reflexivity|]. cbn [map length repeat]. f_equal; [|exact IH]. cbn. unfold Rdiv. rewrite Rminus_diag_eq by reflexivity. apply Rmult_0_l.
  - intros i Hi. apply in_seq in Hi. f_equal. rewrite vsub_map, map_map. apply map_ext_in. intros row Hr.
    rewrite Forall_forall in FM. specialize (FM row Hr).
    change (@T Rops) with R in *. assert (Li : (i < @length R y)%nat) by (destruct Hi as (_ & Hi); exact Hi). assert (Lr : @length R row = @length R y) by congruence.
    pose proof (dot_set row y i eps Lr Li) as H1. pose proof (dot_set row y i (- eps) Lr Li) as H2.
    change (@div Rops) with Rdiv. change (@mul Rops) with Rmult. change (@add Rops) with Rplus. change (@sub Rops) with Rminus. rewrite zero_R, two_R.
    unfold Rminus at 2. rewrite H1, H2. field. exact He.
Qed.
Lemma list_nth_map {A} (d : A) l : l = map (fun i => nth i l d) (seq 0 (length l)).
Proof. induction l as [|x l IH]; [reflexivity|]. cbn [length seq map nth]. f_equal. rewrite <- seq_shift, map_map. exact IH. Qed.
Lemma C76_sym_lemma n M t y eps : shape n n M -> length y = n -> eps <> 0 ->
  ((exists ft, @li_jacobian Rops (linear_system M) t y eps = Ret (ft, M)) <-> symmetric n M).
Proof.
  intros S Ly He. rewrite (C76_jac_lemma n) by auto. destruct S as (LM & FM). 
  assert (Ec : forall i, (i < n)%nat -> map (fun row => nth i row 0) M = map (fun j => nth i (nth j M []) 0) (seq 0 n)).
  { intros i Hi. rewrite (list_nth_map [] M) at 1. rewrite map_map, LM. reflexivity. }
  assert (Er : forall i, (i < n)%nat -> nth i M [] = map (fun j => nth j (nth i M []) 0) (seq 0 n)).
  { intros i Hi. rewrite (list_nth_map 0 (nth i M [])) at 1. rewrite Forall_forall in FM. rewrite (FM (nth i M [])) by (apply nth_In; lia). reflexivity. }
  split.
  - intros (ft & H) i j Hi Hj. injection H as _ H.
    pose proof (f_equal (fun Q => nth j (nth i Q []) 0) H) as X. cbn beta in X. rewrite <- X.
    rewrite (nth_indep _ [] ((fun i => map (fun row : list R => nth i row 0) M) 0%nat)) by (rewrite map_length, seq_length; lia).
    rewrite (map_nth (fun i => map (fun row : list R => nth i row 0) M)). rewrite seq_nth by lia. cbn [Nat.add]. rewrite Ec by auto.
    rewrite (nth_indep _ 0 ((fun j => nth i (nth j M []) 0) 0%nat)) by (rewrite map_length, seq_length; lia).
    rewrite (map_nth (fun j => nth i (nth j M []) 0)), seq_nth by lia. reflexivity.
  - intros H. exists (repeat 0 n). apply f_equal, f_equal2; [reflexivity|]. refine (eq_trans _ (eq_sym (list_nth_map [] M))). rewrite LM. apply map_ext_in. intros i Hi. apply in_seq in Hi.
    rewrite Ec, Er by lia. apply map_ext_in. intros j Hj. apply in_seq in Hj. symmetry. apply H; lia.
Qed.
