(** The fully implicit Runge-Kutta step. *)
From Coq Require Import List ZArith QArith Bool Arith Lia Reals Lra.
From Verif Require Import Base Scalar Vec MBuffer MZeros MSteps MApi MDop853 MClasses MImplicit Laws
  PVecR SpecRK SpecMS PMS PRK2 SpecOrder POrd1 POrd2 POrd3 SpecStab SpecImpl PImpl1.
Import ListNotations.
Open Scope R_scope.

Lemma vsub_zero n (a b : list R) : length a = n -> length b = n -> (Forall (eq 0) (@vsub Rops a b) <-> b = a).
Proof.
  revert a b. induction n as [|n IH]; intros [|x a] [|y b] La Lb; try discriminate; [split; auto; constructor|].
  cbn [vsub map2]. cbn in La, Lb. injection La as La. injection Lb as Lb. specialize (IH a b La Lb). split.
  - intros H. inversion H as [|u v H1 H2]; subst. apply IH in H2. cbn in H1. rewrite H2. f_equal. lra.
  - intros H. injection H as -> ->. constructor; [cbn; lra|]. now apply IH.
Qed.
Lemma roots_gen n (g : list R -> R -> outcome (list R)) A : forall C K', length C = length A -> length K' = length A ->
  Forall (fun k => length k = n) K' -> (forall a c f, g a c = Ret f -> length f = n) ->
  ((exists Z, omapM (fun row : (list R * R) * list R => let '(a, c, k) := row in let! f := g a c in Ret (@vsub Rops k f))
      (combine (combine A C) K') = Ret Z /\ Forall (Forall (eq 0)) Z) <->
   forall i, (i < length A)%nat -> g (nth i A []) (nth i C 0) = Ret (nth i K' [])).
Proof.
  induction A as [|a A IH]; intros [|c C] [|k K] LC LK HK Hg; try discriminate.
  - split; [cbn; lia|]. intros _. exists []. split; [reflexivity|constructor].
  - inversion HK as [|u v Hk HK']; subst. cbn [combine omapM]. cbn in LC, LK. injection LC as LC. injection LK as LK.
    destruct (IH C K LC LK HK' Hg) as (I1 & I2). split.
    + intros (Z & E & F). destruct (g a c) as [f| |] eqn:Eg; try discriminate. cbn [obind] in E.
      destruct (omapM _ _) as [bs| |] eqn:Eo; try discriminate. cbn in E. injection E as <-. inversion F as [|p q F1 F2]; subst.
      apply (vsub_zero (length k)) in F1; [|reflexivity|now apply (Hg a c)]. subst f.
      intros [|i] Hi; cbn [nth]; [exact Eg|]. apply I1; [|cbn in Hi; lia]. exists bs. split; [reflexivity|exact F2].
    + intros H. destruct I2 as (Z & E & F). { intros i Hi. apply (H (S i)). cbn. lia. }
      exists (@vsub Rops k k :: Z). pose proof (H O ltac:(cbn; lia)) as H0. cbn [nth] in H0. rewrite H0. cbn [obind]. rewrite E. cbn [obind].
      split; [reflexivity|]. constructor; [|exact F]. now apply (vsub_zero (length k)).
Qed.
Lemma impl_root rhs n A C t y h K : keeps_dim n rhs -> length y = n -> length C = length A -> shape (length A) n K ->
  ((exists Z, @implicit_K Rops A C rhs t y h K = Ret Z /\ Forall (Forall (eq 0)) Z) <-> implicit_stages rhs A C t y h K).
Proof.
  intros Kd Ly LC (LK & HK). unfold implicit_K, implicit_stages.
  pose proof (roots_gen n (fun a c => rhs (t + h * c) (@vadd Rops y (@lincomb Rops (length y) (map (Rmult h) a) K))) A C K LC LK HK) as H.
  assert (G : forall a c f, rhs (t + h * c) (@vadd Rops y (@lincomb Rops (length y) (map (Rmult h) a) K)) = Ret f -> length f = n).
  { intros a c f. apply Kd. rewrite Ly. apply vadd_len; [exact Ly|]. apply lincomb_len. exact HK. }
  specialize (H G). split; [intros X; split; [exact LK|]; apply H, X|]. intros (_ & X). apply H, X.
Qed.
Lemma firk_step solver rhs n A B C t y h K0 t' y' : finds_roots solver -> keeps_dim n rhs -> length y = n -> length C = length A -> shape (length A) n K0 ->
  @firk_fixed_step Rops solver A B C rhs t y h K0 = Ret (t', y') ->
  t' = t + h /\ exists K, shape (length A) n K /\ implicit_stages rhs A C t y h K /\ y' = rk_combine (OT := Rops) y h B K.
Proof.
  intros Fr Kd Ly LC Sh E. unfold firk_fixed_step in E. destruct (solver _ K0) as [K| |] eqn:Es; try discriminate. cbn [obind] in E.
  injection E as <- <-. split; [reflexivity|]. destruct (Fr _ _ _ _ _ Sh Es) as (S1 & Z & E1 & E2). exists K. split; [exact S1|]. split; [|reflexivity].
  apply (impl_root rhs n); auto. exists Z. auto.
Qed.
Lemma radau_shape r : In r radau_table -> length (r_C r) = length (r_A r) /\ length (r_B r) = length (r_A r) /\ Forall (fun a => length a = length (r_A r)) (r_A r).
Proof.
  intros H. cbn [radau_table In] in H. destruct H as [<-|[<-|[<-|[]]]]; (split; [reflexivity|]); (split; [reflexivity|]); repeat constructor.
Qed.

(** ** quadrature problems *)
Lemma dot_ones a : forall (A : list (list R)), length a = length A -> dot a (map (fun _ => 1) A) = fold_right Rplus 0 a.
Proof. induction a as [|x a IH]; intros [|b A] L; try discriminate; [reflexivity|]. cbn [map dot fold_right]. rewrite IH by (cbn in L; lia). lra. Qed.
Lemma bush_weights A k : Forall (fun a => length a = length A) A -> stage_weights A (bush k) = map (fun a => (fold_right Rplus 0 a) ^ k) A.
Proof.
  intros F. unfold bush. cbn [stage_weights]. apply map_ext_in. intros a Ha. rewrite Forall_forall in F.
  assert (E : dot a (stage_weights A (Node [])) = fold_right Rplus 0 a) by (cbn [stage_weights fold_right]; apply dot_ones, F, Ha).
  induction k as [|k IH]; [reflexivity|]. cbn [repeat fold_right pow]. now rewrite IH, E.
Qed.
Lemma bush_size k : size (bush k) = S k.
Proof. unfold bush. cbn [size]. f_equal. induction k as [|k IH]; [reflexivity|]. cbn [repeat fold_right]. rewrite IH. reflexivity. Qed.
Lemma bush_density k : density (bush k) = INR (S k).
Proof.
  change (density (bush k)) with (INR (size (bush k)) * fold_right (fun c d => density c * d) 1 (repeat (Node []) k)). rewrite bush_size.
  assert (E : fold_right (fun c d => density c * d) 1 (repeat (Node []) k) = 1); [|rewrite E; ring].
  induction k as [|k IH]; [reflexivity|]. cbn [repeat fold_right]. rewrite IH. cbn [density fold_right size]. cbn. lra.
Qed.
Lemma moments p A B C k : has_order p A B -> row_sums A C -> Forall (fun a => length a = length A) A -> (k < p)%nat ->
  dot B (map (fun c => c ^ k) C) = / INR (S k).
Proof.
  intros Ho -> F Hk. rewrite map_map, <- (bush_weights A k F), <- bush_density. apply (Ho (bush k)). rewrite bush_size. lia.
Qed.
(** sum of d_k / (k0 + k) *)
Fixpoint integ (k0 : nat) (d : list R) : R := match d with [] => 0 | x :: d' => x / INR k0 + integ (S k0) d' end.
Lemma dot_lin B C : forall x (f : R -> R), dot B (map (fun c => x + f c) C) = x * dot B (map (fun _ => 1) C) + dot B (map f C).
Proof. revert C. induction B as [|b B IH]; intros [|c C] x f; cbn [map dot]; try lra. rewrite IH. lra. Qed.
Lemma dot_poly p B C d : (forall k, (k < p)%nat -> dot B (map (fun c => c ^ k) C) = / INR (S k)) -> forall j, (length d + j <= p)%nat ->
  dot B (map (fun c => c ^ j * peval d c) C) = integ (S j) d.
Proof.
  intros M. induction d as [|x d IH]; intros j Hj; cbn [peval integ].
  - rewrite (map_ext _ (fun _ => 0)) by (intros; lra). clear. revert C. induction B as [|b B IH]; intros [|c C]; cbn [map dot]; try lra. rewrite IH. lra.
  - rewrite <- (IH (S j)) by (cbn in Hj; lia). cbn in Hj. unfold Rdiv. rewrite <- (M j) by lia. clear. revert C. induction B as [|b B IH]; intros [|c C]; cbn [map dot]; try lra.
    rewrite IH. cbn [pow]. ring.
Qed.
Definition quad_poly (p : list R) (t h : R) : list R :=
  [nth 1 p 0 + 2 * nth 2 p 0 * t + 3 * nth 3 p 0 * t ^ 2 + 4 * nth 4 p 0 * t ^ 3 + 5 * nth 5 p 0 * t ^ 4;
   (2 * nth 2 p 0 + 6 * nth 3 p 0 * t + 12 * nth 4 p 0 * t ^ 2 + 20 * nth 5 p 0 * t ^ 3) * h;
   (3 * nth 3 p 0 + 12 * nth 4 p 0 * t + 30 * nth 5 p 0 * t ^ 2) * h ^ 2;
   (4 * nth 4 p 0 + 20 * nth 5 p 0 * t) * h ^ 3; 5 * nth 5 p 0 * h ^ 4].
Lemma quad_exact q B C p t h : (q <= 5)%nat -> (forall k, (k < q)%nat -> dot B (map (fun c => c ^ k) C) = / INR (S k)) -> degree_le q p ->
  peval p t + h * dot B (map (fun c => peval (pder p) (t + h * c)) C) = peval p (t + h).
Proof.
  intros Hq M Hp. unfold degree_le in Hp.
  assert (E : exists d, (length d <= q)%nat /\ (forall c, peval (pder p) (t + h * c) = peval d c) /\ peval p t + h * integ 1 d = peval p (t + h)).
  { exists (firstn (length p - 1) (quad_poly p t h)).
    destruct p as [|a0 [|a1 [|a2 [|a3 [|a4 [|a5 [|a6 p]]]]]]]; try (exfalso; cbn in Hp; lia);
      cbn [length Nat.sub quad_poly firstn] in *; (split; [cbn; lia|]); (split; [intros c|]); cbn [nth peval pder pder_from integ INR]; try field; ring. }
  destruct E as (d & L & H1 & H2). rewrite (map_ext _ _ H1). rewrite (map_ext _ (fun c => c ^ 0 * peval d c)) by (intros; cbn; lra).
  rewrite (dot_poly q B C d M 0) by lia. exact H2.
Qed.
Lemma dot_scale (h : R) B : forall l, dot (map (Rmult h) B) l = h * dot B l.
Proof. induction B as [|b B IH]; intros [|x l]; cbn [map dot]; try lra. rewrite IH. lra. Qed.
Lemma nth_solution Ps t i : (i < length Ps)%nat -> cmp i (solution Ps t) = peval (nth i Ps []) t.
Proof. intros H. unfold solution. rewrite (nth_indep _ 0 (peval [] t)) by now rewrite map_length. apply (map_nth (fun p => peval p t)). Qed.
Lemma nth_slope Ps t i : (i < length Ps)%nat -> cmp i (slope Ps t) = peval (pder (nth i Ps [])) t.
Proof. intros H. unfold slope. rewrite (nth_indep _ 0 (peval (pder []) t)) by now rewrite map_length. apply (map_nth (fun p => peval (pder p) t)). Qed.
Lemma map_nth_seq (l : list R) : l = map (fun i => nth i l 0) (seq 0 (length l)).
Proof. induction l as [|x l IH]; [reflexivity|]. cbn [length seq map nth]. f_equal. rewrite <- seq_shift, map_map. exact IH. Qed.
Lemma quad_stages q rhs A B C t h Ps K : (q <= 5)%nat -> has_order q A B -> row_sums A C -> Forall (fun a => length a = length A) A ->
  quadrature rhs Ps -> Forall (degree_le q) Ps -> implicit_stages rhs A C t (solution Ps t) h K ->
  rk_combine (OT := Rops) (solution Ps t) h B K = solution Ps (t + h).
Proof.
  intros Hq Ho Hr Sq Qu Hd (LK & HK).
  assert (LC : length C = length A) by (rewrite Hr; apply map_length).
  assert (EK : K = map (fun c => slope Ps (t + h * c)) C).
  { apply nth_ext with (d := []) (d' := slope Ps (t + h * 0)); [now rewrite map_length, LK, LC|]. intros i Hi. rewrite LK in Hi.
    specialize (HK i Hi). rewrite Qu in HK. injection HK as <-. now rewrite (map_nth (fun c => slope Ps (t + h * c))). }
  assert (FK : Forall (fun k : list R => length k = length Ps) K).
  { rewrite EK. apply Forall_map, Forall_forall. intros c _. unfold slope. apply map_length. }
  assert (LS : forall t, length (solution Ps t) = length Ps) by (intros; apply map_length).
  unfold rk_combine. rewrite LS. apply (vec_ext (length Ps)); [apply vadd_len; [apply LS|now apply lincomb_len]|apply LS|].
  intros i Hi. rewrite (vadd_cmp (length Ps)); [|apply LS|now apply lincomb_len|exact Hi].
  rewrite lincomb_cmp by auto. change (@mul Rops h) with (Rmult h). rewrite dot_scale, !nth_solution by auto. rewrite EK, map_map.
  rewrite (map_ext _ (fun c => peval (pder (nth i Ps [])) (t + h * c))) by (intros; now apply nth_slope).
  apply (quad_exact q); auto.
  - intros k Hk. now apply (moments q A B C k).
  - rewrite Forall_forall in Hd. apply Hd. now apply nth_In.
Qed.

(** ** the linear test equation *)
Definition small_ok (A : list (list R)) (B : list R) (num den : R -> R) : Prop :=
  forall z y u, length u = length A -> (forall i, (i < length A)%nat -> cmp i u = z * (y + dot (nth i A []) u)) ->
  den z * (y + dot B u) = num z * y.
Ltac tabs' := unfold RadauIA3_A, RadauIA3_B, RadauIIA3_A, RadauIIA3_B, RadauIIA_A, RadauIIA_B, over, s6, Q2R;
  cbn [map lit sqrtT mul sub add div opp Rops Qnum Qden]; change (@T Rops) with R; replace (6 / 1) with 6 by lra;
  repeat apply (f_equal2 (@cons (list R))); try reflexivity; repeat apply (f_equal2 (@cons R)); try reflexivity; field.
Ltac small := intros z y u Lu H; cbn [length] in *;
  repeat (destruct u as [|? u]; try discriminate Lu); 
  pose proof (H 0%nat ltac:(lia)) as H0; pose proof (H 1%nat ltac:(lia)) as H1; cbn [nth dot] in H0, H1.
Lemma IA3_small : small_ok (@RadauIA3_A Rops) (@RadauIA3_B Rops) (fun z => 1 + z / 3) (fun z => 1 - 2 * z / 3 + z ^ 2 / 6).
Proof.
  assert (EA : @RadauIA3_A Rops = [[1/4;-1/4];[1/4;5/12]]) by tabs'. assert (EB : @RadauIA3_B Rops = [1/4;3/4]) by tabs'.
  rewrite EA, EB. clear EA EB. small. set (a := r) in *; set (b := r0) in *; clearbody a b. cbn [dot].
  assert (F : (1/4 * (1 - z * (5/12)) + 3/4 * (z * (1/4))) * (a - z * (y + (1/4 * a + (-1/4 * b + 0)))) + (1/4 * (z * (-1/4)) + 3/4 * (1 - z * (1/4))) * (b - z * (y + (1/4 * a + (5/12 * b + 0)))) = 0).
  { rewrite <- H0, <- H1. ring. }
  apply Rminus_diag_uniq. refine (eq_trans _ F). field.
Qed.
Lemma IIA3_small : small_ok (@RadauIIA3_A Rops) (@RadauIIA3_B Rops) (fun z => 1 + z / 3) (fun z => 1 - 2 * z / 3 + z ^ 2 / 6).
Proof.
  assert (EA : @RadauIIA3_A Rops = [[5/12;-1/12];[3/4;1/4]]) by tabs'. assert (EB : @RadauIIA3_B Rops = [3/4;1/4]) by tabs'.
  rewrite EA, EB. clear EA EB. small. set (a := r) in *; set (b := r0) in *; clearbody a b. cbn [dot].
  assert (F : (3/4 * (1 - z * (1/4)) + 1/4 * (z * (3/4))) * (a - z * (y + (5/12 * a + (-1/12 * b + 0)))) + (3/4 * (z * (-1/12)) + 1/4 * (1 - z * (5/12))) * (b - z * (y + (3/4 * a + (1/4 * b + 0)))) = 0).
  { rewrite <- H0, <- H1. ring. }
  apply Rminus_diag_uniq. refine (eq_trans _ F). field.
Qed.

Lemma IIA_small : small_ok (@RadauIIA_A Rops) (@RadauIIA_B Rops) (fun z => 1 + 2 * z / 5 + z ^ 2 / 20) (fun z => 1 - 3 * z / 5 + 3 * z ^ 2 / 20 - z ^ 3 / 60).
Proof.
  pose proof s6_sq as Hs. replace (Q2R 6) with 6 in Hs by (unfold Q2R; cbn; lra). set (s := sqrt 6) in *.
  assert (EA : @RadauIIA_A Rops = [[(88-7*s)/360;(296-169*s)/1800;(-2+3*s)/225];[(296+169*s)/1800;(88+7*s)/360;(-2-3*s)/225];[(16-s)/36;(16+s)/36;1/9]]) by (unfold s; tabs').
  assert (EB : @RadauIIA_B Rops = [(16-s)/36;(16+s)/36;1/9]) by (unfold s; tabs').
  rewrite EA, EB. clear EA EB. clearbody s. small. pose proof (H 2%nat ltac:(lia)) as H2. cbn [nth dot] in H2.
  rename r into a. rename r0 into b. rename r1 into c. cbn [dot].
  set (a11 := (88-7*s)/360) in *. set (a12 := (296-169*s)/1800) in *. set (a13 := (-2+3*s)/225) in *.
  set (a21 := (296+169*s)/1800) in *. set (a22 := (88+7*s)/360) in *. set (a23 := (-2-3*s)/225) in *.
  set (b1 := (16-s)/36) in *. set (b2 := (16+s)/36) in *.
  (* row of b times the adjoint of I - zA *)
  set (q1 := b1 * ((1 - z*a22)*(1 - z/9) - z*a23*(z*b2)) + b2 * (z*a21*(1 - z/9) + z*a23*(z*b1)) + 1/9 * (z*a21*(z*b2) + (1 - z*a22)*(z*b1))).
  set (q2 := b1 * (z*a12*(1 - z/9) + z*a13*(z*b2)) + b2 * ((1 - z*a11)*(1 - z/9) - z*a13*(z*b1)) + 1/9 * ((1 - z*a11)*(z*b2) + z*a12*(z*b1))).
  set (q3 := b1 * (z*a12*(z*a23) + z*a13*(1 - z*a22)) + b2 * ((1 - z*a11)*(z*a23) + z*a13*(z*a21)) + 1/9 * ((1 - z*a11)*(1 - z*a22) - z*a12*(z*a21))).
  assert (F : q1 * (a - z * (y + (a11 * a + (a12 * b + (a13 * c + 0))))) + q2 * (b - z * (y + (a21 * a + (a22 * b + (a23 * c + 0))))) + q3 * (c - z * (y + (b1 * a + (b2 * b + (1/9 * c + 0))))) = 0).
  { rewrite <- H0, <- H1, <- H2. ring. }
  apply Rminus_diag_uniq. refine (eq_trans _ F). unfold q1, q2, q3, a11, a12, a13, a21, a22, a23, b1, b2. clear - Hs. field [Hs].
Qed.

Lemma test_stages lam A B C num den t y h K n : small_ok A B num den -> length y = n -> shape (length A) n K ->
  implicit_stages (test_equation lam) A C t y h K -> den (h * lam) <> 0 ->
  rk_combine (OT := Rops) y h B K = times (num (h * lam) / den (h * lam)) y.
Proof.
  intros Sm Ly (LK & FK) (_ & HK) Hd. unfold rk_combine. change (@length (@T Rops) y) with (@length R y). rewrite Ly.
  apply (vec_ext n); [apply vadd_len; [exact Ly|now apply lincomb_len]|unfold times; now rewrite map_length|].
  intros j Hj. rewrite (vadd_cmp n); [|exact Ly|now apply lincomb_len|exact Hj]. rewrite lincomb_cmp by auto.
  change (@mul Rops h) with (Rmult h). rewrite dot_scale.
  assert (Et : cmp j (times (num (h * lam) / den (h * lam)) y) = num (h * lam) / den (h * lam) * cmp j y).
  { exact (vscale_cmp (num (h * lam) / den (h * lam)) y j). }
  refine (eq_trans _ (eq_sym Et)). clear Et. change (@T Rops) with R in *. set (kk := map (fun k : list R => cmp j k) K).
  assert (Eu : forall a, dot a (map (Rmult h) kk) = h * dot a kk).
  { intros a. generalize kk. induction a as [|x a IH]; intros [|k l]; cbn [map dot]; try lra. rewrite IH. lra. }
  specialize (Sm (h * lam) (cmp j y) (map (Rmult h) kk)). rewrite Eu in Sm.
  assert (X : den (h * lam) * (cmp j y + h * dot B kk) = num (h * lam) * cmp j y); [|apply (Rmult_eq_reg_l (den (h * lam))); [rewrite X; field; exact Hd|exact Hd]].
  apply Sm; [unfold kk; rewrite !map_length; exact LK|]. intros i Hi. rewrite Eu. unfold kk at 1. 
  assert (E1 : cmp i (map (Rmult h) (map (fun k : list R => cmp j k) K)) = h * cmp j (nth i K [])).
  { refine (eq_trans (vscale_cmp h (map (fun k : list R => cmp j k) K) i) _). f_equal.
    rewrite (nth_indep _ 0 ((fun k : list R => cmp j k) [])) by (rewrite map_length; lia). apply (map_nth (fun k : list R => cmp j k)). }
  rewrite E1. specialize (HK i Hi). unfold test_equation in HK. injection HK as HK. rewrite <- HK.
  assert (E2 : forall v, cmp j (map (fun x => lam * x) v) = lam * cmp j v) by (intros v; exact (vscale_cmp lam v j)).
  rewrite E2. rewrite Ly, (vadd_cmp n); [|exact Ly|now apply lincomb_len|exact Hj]. rewrite lincomb_cmp by auto. rewrite dot_scale. unfold kk.
  change (@T Rops) with R. match goal with |- ?l = ?r => match r with context [dot ?a ?b] => generalize (dot a b); intros x end end. ring.
Qed.
Lemma keeps_test lam n : keeps_dim (OT := Rops) n (test_equation lam).
Proof. intros t y f L E. injection E as <-. now rewrite map_length. Qed.
Lemma keeps_quad rhs Ps : quadrature rhs Ps -> keeps_dim (OT := Rops) (length Ps) rhs.
Proof. intros Q t y f L E. rewrite Q in E. injection E as <-. apply map_length. Qed.
Lemma radau_small r : In r radau_table -> small_ok (r_A r) (r_B r) (r_num r) (r_den r).
Proof. intros H. cbn [radau_table In] in H. destruct H as [<-|[<-|[<-|[]]]]; cbn [r_A r_B r_num r_den]; [apply IA3_small|apply IIA3_small|apply IIA_small]. Qed.

Lemma C74_step_lemma r solver rhs n t y h K0 t' y' : In r radau_table -> finds_roots solver -> keeps_dim (OT := Rops) n rhs -> length y = n -> shape (length (r_A r)) n K0 ->
  @firk_fixed_step Rops solver (r_A r) (r_B r) (r_C r) rhs t y h K0 = Ret (t', y') ->
  t' = t + h /\ exists K, implicit_stages rhs (r_A r) (r_C r) t y h K /\ y' = rk_combine (OT := Rops) y h (r_B r) K.
Proof.
  intros H Fr Kd Ly Sh E. destruct (radau_shape r H) as (LC & _). destruct (firk_step _ _ _ _ _ _ _ _ _ _ _ _ Fr Kd Ly LC Sh E) as (H1 & K & _ & H2 & H3).
  split; [exact H1|]. exists K. auto.
Qed.
Lemma C74_root_lemma r rhs n t y h K : In r radau_table -> keeps_dim (OT := Rops) n rhs -> length y = n -> shape (length (r_A r)) n K ->
  ((exists Z, @implicit_K Rops (r_A r) (r_C r) rhs t y h K = Ret Z /\ Forall (Forall (eq 0)) Z) <-> implicit_stages rhs (r_A r) (r_C r) t y h K).
Proof. intros H Kd Ly Sh. apply (impl_root rhs n); auto. apply (radau_shape r H). Qed.
Lemma C74_quad_lemma r solver rhs Ps t h K0 t' y' : In r radau_table -> finds_roots solver -> quadrature rhs Ps -> Forall (degree_le (r_order r)) Ps ->
  shape (length (r_A r)) (length Ps) K0 ->
  @firk_fixed_step Rops solver (r_A r) (r_B r) (r_C r) rhs t (solution Ps t) h K0 = Ret (t', y') -> t' = t + h /\ y' = solution Ps (t + h).
Proof.
  intros H Fr Qu Hd Sh E. destruct (radau_shape r H) as (LC & LB & Sq). pose proof (C74_order_lemma r H) as (Ho & _ & Hr).
  destruct (firk_step _ _ (length Ps) _ _ _ _ _ _ _ _ _ Fr (keeps_quad _ _ Qu) (map_length _ _) LC Sh E) as (H1 & K & _ & H2 & ->).
  split; [exact H1|]. apply (quad_stages (r_order r) rhs (r_A r) (r_B r) (r_C r)); auto.
  cbn [radau_table In] in H. destruct H as [<-|[<-|[<-|[]]]]; cbn; lia.
Qed.
Lemma C74_linear_lemma r solver lam n t y h K0 t' y' : In r radau_table -> finds_roots solver -> length y = n -> shape (length (r_A r)) n K0 ->
  r_den r (h * lam) <> 0 ->
  @firk_fixed_step Rops solver (r_A r) (r_B r) (r_C r) (test_equation lam) t y h K0 = Ret (t', y') ->
  t' = t + h /\ y' = times (r_num r (h * lam) / r_den r (h * lam)) y.
Proof.
  intros H Fr Ly Sh Hd E. destruct (radau_shape r H) as (LC & _).
  destruct (firk_step _ _ n _ _ _ _ _ _ _ _ _ Fr (keeps_test lam n) Ly LC Sh E) as (H1 & K & H0 & H2 & ->).
  split; [exact H1|]. now apply (test_stages lam (r_A r) (r_B r) (r_C r) (r_num r) (r_den r) t y h K n (radau_small r H)).
Qed.
Lemma C74_stable_lemma r z : In r radau_table -> z <= 0 -> 0 < r_den r z /\ Rabs (r_num r z) <= r_den r z /\ Rabs (r_num r z) * - z <= 3 * r_den r z.
Proof.
  intros H Hz. set (w := - z). assert (W : 0 <= w) by (unfold w; lra). replace z with (- w) by (unfold w; lra). clearbody w. clear z Hz.
  pose proof (Rmult_le_pos _ _ W W) as W2. pose proof (Rmult_le_pos _ _ W2 W) as W3.
  cbn [radau_table In] in H. destruct H as [<-|[<-|[<-|[]]]]; cbn [r_num r_den]; (split; [nra|]); (split; [apply Rabs_le; nra|]).
  all: match goal with |- Rabs ?a * _ <= _ => assert (B : a <= Rabs a) by apply Rle_abs; assert (C : Rabs a <= 1 + w / 3 \/ Rabs a <= 1 + 2 * w / 5 + w ^ 2 / 20) end;
    [ (left; apply Rabs_le; nra) || (right; apply Rabs_le; nra) | ].
  1,2: apply (Rle_trans _ ((1 + w / 3) * w)); [|nra]; destruct C as [C|C]; [now apply Rmult_le_compat_r|].
  all: try (apply Rmult_le_compat_r; [exact W|]; apply Rabs_le; nra).
  apply (Rle_trans _ ((1 + 2 * w / 5 + w ^ 2 / 20) * w)); [|nra]. apply Rmult_le_compat_r; [exact W|]. apply Rabs_le; nra.
Qed.
