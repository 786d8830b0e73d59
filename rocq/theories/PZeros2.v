(** newton_hd over the reals. *)
From Coq Require Import List ZArith QArith Bool Arith Lia Reals Lra.
From Verif Require Import Base Scalar Vec MBuffer MZeros Laws PBound PVecR SpecZeros PZeros.
Import ListNotations.
Open Scope R_scope.

Lemma fold_left_Rplus l : forall a, fold_left Rplus l a = a + fold_right Rplus 0 l.
Proof. induction l as [|x l IH]; intros a; cbn; [lra|]. rewrite IH. lra. Qed.
Lemma vnorm2_R (v : list R) : @vnorm2 Rops v = norm2 v.
Proof.
  unfold vnorm2, norm2, vsum. change (@sqrtT Rops) with sqrt. f_equal. change (@add Rops) with Rplus. change (@mul Rops) with Rmult.
  replace (@zero Rops) with 0 by (symmetry; apply zero_R). 
  match goal with |- fold_left Rplus ?l ?a = _ => transitivity (a + fold_right Rplus 0 l); [exact (fold_left_Rplus l a)|] end.
  rewrite Rplus_0_l. induction v as [|x v IH]; [reflexivity|]. cbn [map fold_right] in *. apply (f_equal (Rplus (x * x))). exact IH.
Qed.
Lemma norm2_pos v : 0 <= norm2 v.
Proof. apply sqrt_pos. Qed.
Lemma vnorm2_close (v : list R) (atol rtol : R) : @isclose Rops (@vnorm2 Rops v) zero atol rtol = true <-> norm2 v <= atol.
Proof. rewrite isclose_zero, vnorm2_R, Rabs_right by (apply Rle_ge, norm2_pos). reflexivity. Qed.
Lemma vnorm2_far (v : list R) (atol rtol : R) : @isclose Rops (@vnorm2 Rops v) zero atol rtol = false <-> atol < norm2 v.
Proof. rewrite isclose_zero_false, vnorm2_R, Rabs_right by (apply Rle_ge, norm2_pos). reflexivity. Qed.

Lemma map2_combine {A B C} (f : A -> B -> C) a : forall b, map2 f a b = map (fun p => f (fst p) (snd p)) (combine a b).
Proof. induction a; intros [|? b]; cbn; auto. now rewrite IHa. Qed.
Lemma nth_map_sq {A} (f : nat -> A) n i d : (i < n)%nat -> nth i (map f (seq 0 n)) d = f i.
Proof.
  intros H. rewrite nth_indep with (d' := f 0%nat) by (now rewrite map_length, seq_length).
  now rewrite map_nth, seq_nth.
Qed.
Lemma nth_map_lt {A B} (f : A -> B) l k d d' : (k < length l)%nat -> nth k (map f l) d' = f (nth k l d).
Proof. intros H. rewrite nth_indep with (d' := f d) by (now rewrite map_length). apply map_nth. Qed.
Lemma list_set_shifted (y : list R) i d : (i < length y)%nat -> list_set y i (nth i y 0 + d) = shifted y i d.
Proof.
  unfold shifted. intros H. apply (nth_ext _ _ 0 0).
  - rewrite map_length, seq_length.
    assert (LL : forall l j (x : R), length (list_set l j x) = length l) by (induction l; intros [|j] x; cbn; auto). auto.
  - assert (LL : forall l j (x : R), length (list_set l j x) = length l) by (induction l; intros [|j] x; cbn; auto).
    rewrite LL. intros k Hk.
    assert (N : nth k (map (fun j => if Nat.eqb j i then nth j y 0 + d else nth j y 0) (seq 0 (length y))) 0
       = if Nat.eqb k i then nth k y 0 + d else nth k y 0).
    { now rewrite nth_map_sq. }
    rewrite N. clear N LL.
    assert (G : forall l j m (x : R), (j < length l)%nat -> nth m (list_set l j x) 0 = if Nat.eqb m j then x else nth m l 0).
    { induction l as [|z l IHl]; intros [|j] [|m] x Hj; cbn in *; try lia; auto. apply IHl. lia. }
    rewrite G by auto. destruct (Nat.eqb k i) eqn:e; auto. apply Nat.eqb_eq in e. now subst.
Qed.

Lemma shifted_len y i d : length (shifted y i d) = length y.
Proof. unfold shifted. now rewrite map_length, seq_length. Qed.

Section HD.
Context {E : @Env Rops}.
Variable func : list R -> outcome (list R).

Lemma jac_eps_R : @jac_eps Rops = eps_jac.
Proof. unfold jac_eps, eps_jac. rewrite lit_R. cbn [Qnum Qden]. reflexivity. Qed.

Lemma omapM_spec {A B} (f : A -> outcome B) l : match omapM f l with
  | Ret bs => length bs = length l /\ forall i a, nth_error l i = Some a -> exists b, nth_error bs i = Some b /\ f a = Ret b
  | Raise e => exists a, In a l /\ f a = Raise e
  | Loop => exists a, In a l /\ f a = Loop
  end.
Proof.
  induction l as [|a l IH]; cbn.
  - split; auto. intros [|i] a; discriminate.
  - destruct (f a) as [b|e|] eqn:ef; cbn; try (exists a; auto; fail).
    destruct (omapM f l) as [bs|e|]; cbn.
    + destruct IH as (L & IH). split; [cbn; auto|]. intros [|i] a' H; cbn in H.
      * injection H as <-. exists b; auto.
      * apply IH in H. auto.
    + destruct IH as (a' & H & K). exists a'; auto.
    + destruct IH as (a' & H & K). exists a'; auto.
Qed.

Lemma jacobian_R y : match @jacobian Rops func y with
  | Ret J => diff_quotients func y J
  | Raise e => exists x, length x = length y /\ func x = Raise e
  | Loop => exists x, length x = length y /\ func x = Loop
  end.
Proof.
  unfold jacobian. match goal with |- match omapM ?f ?l with _ => _ end => pose proof (omapM_spec f l) as K; set (F := f) in * end.
  assert (BP : forall i d, (i < length y)%nat -> @bump Rops y i d = shifted y i d).
  { intros i d Hi. unfold bump. rewrite <- list_set_shifted by auto.
    replace (@nth (@T Rops) i y zero) with (nth i y 0); [reflexivity|]. apply nth_indep. auto. }
  destruct (omapM F (seq 0 (length y))) as [J|e|].
  - destruct K as (L & K). rewrite seq_length in L. split; auto. intros i Hi.
    assert (Ni : nth_error (seq 0 (length y)) i = Some i).
    { rewrite (nth_error_nth' _ 0%nat) by (now rewrite seq_length). now rewrite seq_nth. }
    destruct (K i i Ni) as (b & Hb & Hf). unfold F in Hf. rewrite !BP, jac_eps_R in Hf by auto.
    change (@opp Rops eps_jac) with (- eps_jac) in Hf.
    destruct (func (shifted y i eps_jac)) as [f1|?|] eqn:e1; try discriminate. cbn [obind] in Hf.
    destruct (func (shifted y i (- eps_jac))) as [f2|?|] eqn:e2; try discriminate. cbn [obind] in Hf.
    exists f1, f2. split; auto. split; auto. transitivity b; [exact (nth_error_nth _ _ [] Hb)|]. injection Hf as <-.
    unfold vsub. rewrite map2_combine, map_map. apply map_ext. intros [u v]. cbn [fst snd].
    change (@div Rops) with Rdiv. change (@mul Rops) with Rmult. change (@sub Rops) with Rminus.
    now replace (2 / 1) with 2 by lra.
  - destruct K as (i & Hi & K). apply in_seq in Hi. unfold F in K. rewrite !BP in K by lia. destruct (func (shifted y i (@jac_eps Rops))) as [f1|?|] eqn:e1; cbn [obind] in K; try discriminate.
    + destruct (func (shifted y i (@opp Rops jac_eps))) as [f2|?|] eqn:e2; cbn [obind] in K; try discriminate.
      injection K as <-. eauto using shifted_len.
    + injection K as <-. eauto using shifted_len.
  - destruct K as (i & Hi & K). apply in_seq in Hi. unfold F in K. rewrite !BP in K by lia. destruct (func (shifted y i (@jac_eps Rops))) as [f1|?|] eqn:e1; cbn [obind] in K; try discriminate.
    + destruct (func (shifted y i (@opp Rops jac_eps))) as [f2|?|] eqn:e2; cbn [obind] in K; try discriminate. eauto using shifted_len.
    + eauto using shifted_len.
Qed.

Definition hd_end (atol : R) (y0 : list R) (maxiter : nat) (o : outcome (list R * nflag)) : Prop :=
  match o with
  | Ret (y, OK) => exists k v, hd_iter func atol y0 k y /\ (k <= maxiter)%nat /\ func y = Ret v /\ norm2 v <= atol
  | Ret (y, NOT_CONVERGED) => hd_iter func atol y0 (maxiter + 1) y
  | Ret _ => False
  | Raise e => (exists x, func x = Raise e) \/ (exists J b, @np_solve Rops E J b = Raise e)
  | Loop => (exists x, func x = Loop) \/ (exists J b, @np_solve Rops E J b = Loop)
  end.

Lemma hd_loop_R (atol rtol : R) y0 todo : forall k y v, hd_iter func atol y0 k y -> func y = Ret v ->
  (todo <> 0)%nat -> hd_end atol y0 (k + todo - 1) (@hd_loop Rops E func atol rtol todo y v).
Proof.
  induction todo as [|todo IH]; intros k y v Hk Hv Ht; [congruence|]. cbn [hd_loop].
  destruct (@isclose Rops (@vnorm2 Rops v) zero atol rtol) eqn:ec.
  { apply vnorm2_close in ec. cbn. exists k, v. repeat split; auto. lia. }
  apply vnorm2_far in ec. pose proof (jacobian_R y) as KJ.
  destruct (@jacobian Rops func y) as [J|e|]; cbn [obind]; [|left; destruct KJ as (x & _ & KJ); eauto|left; destruct KJ as (x & _ & KJ); eauto].
  change (@vopp Rops v) with (map Ropp v).
  destruct (@np_solve Rops E J (map Ropp v)) as [d|e|] eqn:es; cbn [obind]; [|right; eauto|right; eauto].
  unfold vadd. rewrite map2_combine. change (@add Rops) with Rplus.
  assert (HS : hd_iter func atol y0 (S k) (map (fun p => fst p + snd p) (combine y d))) by (econstructor; eauto).
  set (y' := map (fun p => fst p + snd p) (combine y d)) in *.
  match goal with |- context [func ?z] => change z with y' end.
  destruct (func y') as [v'|e|] eqn:ev; cbn [obind]; [|left; eauto|left; eauto].
  destruct todo as [|todo].
  - cbn. replace (k + 1 - 1 + 1)%nat with (S k) by lia. exact HS.
  - replace (k + S (S todo) - 1)%nat with (S k + S todo - 1)%nat by lia. apply IH; auto.
Qed.

Lemma newton_hd_R (atol rtol : R) y0 maxiter : match @newton_hd Rops E func y0 atol rtol maxiter with
  | Ret y => exists k v, hd_iter func atol y0 k y /\ (k <= maxiter)%nat /\ func y = Ret v /\ norm2 v <= atol
  | Raise e => (e = RuntimeError /\ exists y, hd_iter func atol y0 (maxiter + 1) y) \/
               (exists x, func x = Raise e) \/ (exists J b, @np_solve Rops E J b = Raise e)
  | Loop => (exists x, func x = Loop) \/ (exists J b, @np_solve Rops E J b = Loop)
  end.
Proof.
  unfold newton_hd, newton_hd_impl. destruct (func y0) as [v|e|] eqn:e0; cbn [obind]; [|right; left; eauto|left; eauto].
  pose proof (hd_loop_R atol rtol y0 (maxiter + 1) 0 y0 v (hdi_O _ _ _) e0 ltac:(lia)) as K.
  replace (0 + (maxiter + 1) - 1)%nat with maxiter in K by lia.
  destruct (@hd_loop Rops E func atol rtol (maxiter + 1) y0 v) as [[y fl]|e|]; cbn [obind hd_end snd fst] in *.
  - destruct fl; try contradiction; auto. left. eauto.
  - auto.
  - auto.
Qed.
End HD.

(** affine maps *)
Lemma row_dot_sum n : forall r y, length r = n -> length y = n ->
  row_dot r y = fold_right Rplus 0 (map (fun j => nth j y 0 * nth j r 0) (seq 0 n)).
Proof.
  induction n as [|n IH]; intros [|a r] [|b y] Hr Hy; cbn in Hr, Hy; try lia; try reflexivity.
  injection Hr as Hr. injection Hy as Hy. change (row_dot (a :: r) (b :: y)) with (a * b + row_dot r y).
  rewrite (IH r y Hr Hy). cbn [seq map fold_right nth]. rewrite <- seq_shift, map_map. cbn [nth]. lra.
Qed.
Lemma sum_ext (f g : nat -> R) l : (forall j, In j l -> f j = g j) -> fold_right Rplus 0 (map f l) = fold_right Rplus 0 (map g l).
Proof. intros H. f_equal. now apply map_ext_in. Qed.
Lemma sum_plus (f g : nat -> R) l : fold_right Rplus 0 (map (fun j => f j + g j) l) = fold_right Rplus 0 (map f l) + fold_right Rplus 0 (map g l).
Proof. induction l; cbn; lra. Qed.
Lemma sum_single (a : nat -> R) i n : (i < n)%nat -> fold_right Rplus 0 (map (fun j => if Nat.eqb j i then a j else 0) (seq 0 n)) = a i.
Proof.
  intros H. replace n with (i + S (n - i - 1))%nat by lia. rewrite seq_app, map_app, fold_right_app. cbn [seq map fold_right].
  rewrite Nat.add_0_l, Nat.eqb_refl.
  assert (Z1 : forall l x, (forall j, In j l -> j <> i) -> fold_right Rplus x (map (fun j => if Nat.eqb j i then a j else 0) l) = x).
  { induction l as [|j l IH]; intros x Hl; cbn; auto. rewrite IH by (intros; apply Hl; now right).
    rewrite (proj2 (Nat.eqb_neq j i)) by (apply Hl; now left). lra. }
  rewrite (Z1 (seq (S i) (n - i - 1))) by (intros j Hj; apply in_seq in Hj; lia).
  rewrite Z1 by (intros j Hj; apply in_seq in Hj; lia). lra.
Qed.
Lemma row_dot_shift n r y i d : length r = n -> length y = n -> (i < n)%nat ->
  row_dot r (shifted y i d) = row_dot r y + nth i r 0 * d.
Proof.
  intros Hr Hy Hi. rewrite !(row_dot_sum n) by (rewrite ?shifted_len; auto).
  rewrite <- (sum_single (fun j => nth j r 0 * d) i n Hi), <- sum_plus. apply sum_ext. intros j Hj. apply in_seq in Hj.
  unfold shifted. rewrite nth_map_sq by lia. destruct (Nat.eqb j i); lra.
Qed.
Lemma row_dot_add n r y d : length r = n -> length y = n -> length d = n ->
  row_dot r (map (fun p => fst p + snd p) (combine y d)) = row_dot r y + row_dot r d.
Proof.
  intros Hr Hy Hd. revert r y d Hr Hy Hd. induction n as [|n IH]; intros [|a r] [|b y] [|c d] Hr Hy Hd; cbn in *; try lia.
  - unfold row_dot. cbn. lra.
  - change (a * (b + c) + row_dot r (map (fun p => fst p + snd p) (combine y d)) = (a * b + row_dot r y) + (a * c + row_dot r d)).
    rewrite IH by lia. lra.
Qed.
Lemma norm2_zero n : norm2 (map (fun _ => 0) (seq 0 n)) = 0.
Proof.
  unfold norm2. replace (fold_right _ 0 _) with 0; [apply sqrt_0|]. generalize 0%nat.
  induction n as [|n IH]; intros k; cbn; auto. rewrite <- IH. lra.
Qed.

Section Affine.
Context {E : @Env Rops}.
Variables (n : nat) (func : list R -> outcome (list R)) (M : list (list R)) (b : list R).
Hypothesis AF : affine_map n func M b.
Hypothesis SS : solves_systems.
Local Notation columns := (SpecZeros.columns n M).

Lemma affine_jac y J : length y = n -> diff_quotients func y J -> J = columns.
Proof.
  intros Hy (HJ & D). destruct AF as (LM & Lb & FM & Ff). apply (nth_ext _ _ [] []).
  - unfold columns. rewrite map_length, seq_length. congruence.
  - intros i Hi. rewrite HJ in Hi. destruct (D i Hi) as (f1 & f2 & E1 & E2 & ->).
    rewrite Ff in E1, E2 by (now rewrite shifted_len). injection E1 as <-. injection E2 as <-.
    unfold columns. rewrite nth_map_sq by lia. apply (nth_ext _ _ 0 0).
    + rewrite !map_length, combine_length, !map_length, seq_length. lia.
    + rewrite map_length, combine_length, !map_length, seq_length. intros k Hk.
      rewrite <- LM in Hk. rewrite Nat.min_id in Hk.
      rewrite (nth_map_lt _ _ _ (0, 0)) by (rewrite combine_length, !map_length, seq_length; lia).
      rewrite combine_nth by (now rewrite !map_length).
      rewrite !nth_map_sq by lia. cbn [fst snd].
      rewrite (nth_map_lt _ M k []) by lia. set (r := nth k M []). assert (Lr : length r = n) by (apply (proj1 (Forall_forall _ _) FM), nth_In; lia).
      rewrite !(row_dot_shift n) by (auto; lia). unfold eps_jac. field.
Qed.
Lemma affine_zero y d : length y = n ->
  @np_solve Rops E columns (map Ropp (map (fun i => row_dot (nth i M []) y + nth i b 0) (seq 0 n))) = Ret d ->
  length d = n /\
  map (fun i => row_dot (nth i M []) (map (fun p => fst p + snd p) (combine y d)) + nth i b 0) (seq 0 n) = map (fun _ => 0) (seq 0 n).
Proof.
  intros Hy Hs. destruct AF as (LM & Lb & FM & Ff). destruct (SS _ _ _ Hs) as (L1 & L2 & K).
  rewrite !map_length, seq_length in L1. split; auto. apply map_ext_in. intros i Hi. apply in_seq in Hi.
  assert (Lr : length (nth i M []) = n) by (apply (proj1 (Forall_forall _ _) FM), nth_In; lia).
  rewrite (row_dot_add n) by auto. specialize (K i). rewrite !map_length, seq_length in K.
  specialize (K ltac:(lia)).
  rewrite L1 in K.
  assert (Hn : nth i (map Ropp (map (fun i => row_dot (nth i M []) y + nth i b 0) (seq 0 n))) 0 = - (row_dot (nth i M []) y + nth i b 0)).
  { rewrite map_map. now rewrite nth_map_sq by lia. }
  rewrite Hn in K.
  assert (K' : row_dot (nth i M []) d = - (row_dot (nth i M []) y + nth i b 0)).
  { rewrite <- K. rewrite (row_dot_sum n) by auto. apply sum_ext. intros j Hj. apply in_seq in Hj. f_equal. unfold columns. rewrite nth_map_sq by lia.
    now rewrite (nth_map_lt _ M i []) by lia. }
  rewrite K'. lra.
Qed.

Lemma newton_hd_affine (atol rtol : R) y0 maxiter : length y0 = n -> 0 <= atol -> (0 < maxiter)%nat ->
  (forall v, length v = n -> exists d, @np_solve Rops E columns v = Ret d) ->
  exists y, @newton_hd Rops E func y0 atol rtol maxiter = Ret y /\ length y = n /\
    ((y = y0 /\ exists v, func y0 = Ret v /\ norm2 v <= atol) \/ func y = Ret (map (fun _ => 0) (seq 0 n))).
Proof.
  intros Hy Ha Hm Hsol. pose proof AF as (LM & Lb & FM & Ff). unfold newton_hd, newton_hd_impl.
  rewrite (Ff y0 Hy). cbn [obind]. set (v := map (fun i => row_dot (nth i M []) y0 + nth i b 0) (seq 0 n)).
  destruct maxiter as [|mi]; [lia|]. replace (S mi + 1)%nat with (S (S mi)) by lia. cbn [hd_loop].
  destruct (@isclose Rops (@vnorm2 Rops v) zero atol rtol) eqn:ec.
  - apply vnorm2_close in ec. cbn [obind snd fst]. exists y0. split; auto. split; auto. left. split; auto. exists v. split; auto.
  - pose proof (jacobian_R func y0) as KJ. destruct (@jacobian Rops func y0) as [J|e|].
    + apply affine_jac in KJ; auto. subst J. cbn [obind]. change (@vopp Rops v) with (map Ropp v).
      destruct (Hsol (map Ropp v)) as (d & Hd). { unfold v. now rewrite !map_length, seq_length. }
      rewrite Hd. cbn [obind]. destruct (affine_zero y0 d Hy Hd) as (Ld & Hz).
      unfold vadd. rewrite map2_combine. change (@add Rops) with Rplus.
      set (y' := map (fun p => fst p + snd p) (combine y0 d)) in *.
      match goal with |- context [func ?z] => change z with y' end.
      assert (Ly : length y' = n) by (unfold y'; rewrite map_length, combine_length; lia).
      assert (Fz : func y' = Ret (map (fun _ => 0) (seq 0 n))) by (rewrite (Ff y' Ly); now f_equal).
      rewrite Fz. cbn [obind].
      assert (ec' : @isclose Rops (@vnorm2 Rops (map (fun _ => 0) (seq 0 n))) zero atol rtol = true)
        by (apply vnorm2_close; now rewrite norm2_zero).
      match goal with |- context [@isclose Rops ?a ?b ?c ?d] => replace (@isclose Rops a b c d) with true by (symmetry; exact ec') end.
      cbn. exists y'. auto.
    + destruct KJ as (x & Lx & KJ). rewrite Ff in KJ by congruence. discriminate.
    + destruct KJ as (x & Lx & KJ). rewrite Ff in KJ by congruence. discriminate.
Qed.
End Affine.

(** ** the public wrapper *)
Lemma newton_wrap (func : R -> outcome R) x0 fp fp2 x1 (tol rtol : R) (maxiter : Z) r : 0 < tol -> (1 <= maxiter)%Z ->
  @newton_ Rops func x0 fp fp2 x1 tol rtol (Z.to_nat maxiter) = Ret r ->
  @newton Rops func x0 fp fp2 x1 tol rtol maxiter true = (match snd r with OK => Ret (fst r) | _ => Raise RuntimeError end) /\
  @newton Rops func x0 fp fp2 x1 tol rtol maxiter false = Ret (fst r) /\
  @j_newton Rops func x0 fp fp2 x1 tol rtol (Z.to_nat maxiter) = (match snd r with OK => Ret (root (fst r)) | _ => Raise RuntimeError end).
Proof.
  intros Ht Hm H. unfold newton, j_newton.
  change (@leb Rops tol zero) with (Rleb tol (@zero Rops)). rewrite zero_R. rewrite (proj2 (Rleb_false tol 0) Ht).
  rewrite (proj2 (Z.ltb_ge maxiter 1) Hm). rewrite H. cbn [obind]. destruct (snd r); auto.
Qed.
Lemma newton_args (func : R -> outcome R) x0 fp fp2 x1 (tol rtol : R) (maxiter : Z) disp : tol <= 0 \/ (maxiter < 1)%Z ->
  @newton Rops func x0 fp fp2 x1 tol rtol maxiter disp = Raise ValueError.
Proof.
  intros H. unfold newton. change (@leb Rops tol zero) with (Rleb tol (@zero Rops)). rewrite zero_R.
  destruct (Rleb tol 0) eqn:e; auto. apply Rleb_false in e. destruct H as [H|H]; [lra|]. now rewrite (proj2 (Z.ltb_lt maxiter 1) H).
Qed.
