(** The root finders converge on maps close to the identity. *)
From Coq Require Import List ZArith QArith Bool Arith Lia Reals Lra.
From Verif Require Import Base Scalar Vec MBuffer MZeros Laws PVecR PRK2 SpecZeros PZeros PZeros2 SpecConv SpecLive PLmm1 PBound.
Import ListNotations.
Open Scope R_scope.

Lemma Rplus_minus_l a b : a + b - a = b.
Proof. ring. Qed.
Lemma rabs_inv x y : Rabs x <= y -> - y <= x <= y.
Proof. unfold Rabs. destruct (Rcase_abs x); lra. Qed.

(** ** the secant method *)
Section Secant.
Variables (g : R -> R) (th q : R).
Hypothesis Hth : 0 <= th <= 1 / 5.
Hypothesis Hq : 5 / 2 * th <= q <= 1 / 2.
Hypothesis Hg : forall a b, Rabs ((g a - g b) - (a - b)) <= th * Rabs (a - b).

Lemma slope a b : a <> b -> g a <> g b /\ Rabs (chord g a b - b) <= 5 / 4 * Rabs (g b) /\ Rabs (g (chord g a b)) <= q * Rabs (g b).
Proof.
  intros Hab. set (s := (g b - g a) / (b - a)). assert (Hd : b - a <> 0) by lra.
  assert (Hs : Rabs (s - 1) <= th).
  { apply (Rmult_le_reg_r (Rabs (b - a))); [now apply Rabs_pos_lt|]. rewrite <- Rabs_mult.
    replace ((s - 1) * (b - a)) with ((g b - g a) - (b - a)) by (unfold s; field; lra). apply Hg. }
  apply rabs_inv in Hs. assert (Es : g b - g a = s * (b - a)) by (unfold s; field; lra).
  assert (Hne : g b - g a <> 0). { rewrite Es. apply Rmult_integral_contrapositive_currified; lra. }
  set (c := chord g a b). assert (Ec : g b = - (s * (c - b))) by (unfold c, chord; rewrite Es; field; lra).
  assert (Hc : Rabs (c - b) <= 5 / 4 * Rabs (g b)).
  { rewrite Ec, Rabs_Ropp, Rabs_mult, (Rabs_pos_eq s) by lra. pose proof (Rabs_pos (c - b)).
    assert (4 / 5 * Rabs (c - b) <= s * Rabs (c - b)) by (apply Rmult_le_compat_r; lra). lra. }
  split; [lra|]. split; [exact Hc|].
  pose proof (Hg c b) as Q. replace (g c) with (((g c - g b) - (c - b)) + (1 - s) * (c - b)) by (rewrite Ec at 1; ring).
  eapply Rle_trans; [apply Rabs_triang|]. rewrite Rabs_mult.
  assert (Rabs (1 - s) * Rabs (c - b) <= th * Rabs (c - b)) by (apply Rmult_le_compat_r; [apply Rabs_pos|apply Rabs_le; lra]).
  assert (th * Rabs (c - b) <= th * (5 / 4 * Rabs (g b))) by (apply Rmult_le_compat_l; lra).
  assert (5 / 2 * th * Rabs (g b) <= q * Rabs (g b)) by (apply Rmult_le_compat_r; [apply Rabs_pos|lra]). lra.
Qed.
Lemma pair_bound x0 x1 k a b M : x0 <> x1 -> Rabs (g x0) <= M -> Rabs (g x1) <= M -> secant_pair g x0 x1 k a b ->
  Rabs (g b) <= q ^ k * M /\ (a = b -> g b = 0 /\ (1 <= k)%nat) /\
  ((1 <= k)%nat -> Rabs (b - a) <= 5 / 4 * (q ^ (k - 1) * M)).
Proof.
  intros Hx M0 M1 H. assert (PM : 0 <= M) by (eapply Rle_trans; [apply Rabs_pos|exact M0]). induction H as [H|H|k a b H (I1 & I2 & I3)].
  - cbn [pow]. split; [lra|]. split; [intros c; congruence|intros c; lia].
  - cbn [pow]. split; [lra|]. split; [intros c; congruence|intros c; lia].
  - destruct (Req_EM_T a b) as [e|e].
    + destruct (I2 e) as (Z & Hk). subst a. assert (Ec : chord g b b = b) by (unfold chord; rewrite Z; unfold Rdiv; ring). rewrite Ec.
      assert (P : 0 <= q ^ S k * M) by (apply Rmult_le_pos; [apply pow_le; lra|auto]).
      assert (P' : 0 <= q ^ (S k - 1) * M) by (apply Rmult_le_pos; [apply pow_le; lra|auto]).
      split; [rewrite Z, Rabs_R0; exact P|]. split; [intros _; split; [exact Z|lia]|]. intros _. rewrite Rminus_diag_eq, Rabs_R0 by auto. lra.
    + destruct (slope a b e) as (S1 & S2 & S3). split; [cbn [pow]; rewrite Rmult_assoc; eapply Rle_trans; [exact S3|]; apply Rmult_le_compat_l; lra|]. split.
      * intros Ec. split; [|lia]. rewrite <- Ec. rewrite <- Ec in S3. pose proof (Rabs_pos (g b)). destruct (Req_EM_T (g b) 0) as [z|z]; auto. apply Rabs_pos_lt in z. assert (q * Rabs (g b) <= 1 / 2 * Rabs (g b)) by (apply Rmult_le_compat_r; lra). lra.
      * intros _. replace (S k - 1)%nat with k by lia. lra.
Qed.
Lemma second_value x0 M0 X0 : Rabs (g x0) <= M0 -> Rabs x0 <= X0 -> Rabs (g (second x0 None)) <= M0 + (1 + X0) / 5000.
Proof.
  intros H0 HX. assert (PX : 0 <= X0) by (eapply Rle_trans; [apply Rabs_pos|exact HX]). assert (D : Rabs (second x0 None - x0) <= (1 + X0) / 10000).
  { apply rabs_inv in HX. unfold second. destruct (Rle_dec 0 _); apply Rabs_le; lra. }
  pose proof (Hg (second x0 None) x0) as Q. set (z := second x0 None) in *.
  replace (g z) with (g x0 + ((g z - g x0 - (z - x0)) + (z - x0))) by ring. eapply Rle_trans; [apply Rabs_triang|].
  pose proof (Rabs_triang (g z - g x0 - (z - x0)) (z - x0)). assert (th * Rabs (z - x0) <= 1 / 5 * Rabs (z - x0)) by (apply Rmult_le_compat_r; [apply Rabs_pos|lra]). lra.
Qed.
Lemma secant_live (func : R -> outcome R) (tol x0 M X : R) : (forall p, func p = Ret (g p)) -> 0 < tol ->
  Rabs (g x0) <= M -> Rabs x0 <= X -> 5 / 4 * (q ^ 49 * (M + (1 + X) / 5000)) <= tol -> exists p, @j_newton Rops func x0 None None None tol (@zero Rops) 50 = Ret p.
Proof.
  intros HF Ht HM HX H. destruct (newton_secant_R func g HF tol (@zero Rops) ltac:(lra) ltac:(rewrite zero_R; lra) x0 None 50%nat ltac:(lia) ltac:(discriminate)) as ((r & fl) & E & Q).
  assert (PX : 0 <= X) by (eapply Rle_trans; [apply Rabs_pos|exact HX]).
  unfold j_newton. rewrite E. cbn [obind snd fst]. pose proof (second_ne x0) as Hne. destruct fl; cbn [sec_end snd fst] in Q.
  - eexists; reflexivity.
  - contradiction.
  - exfalso. destruct Q as (j & a & b & P & _ & Q1 & Q2 & _). destruct (slope a b Q2) as (S & _). contradiction.
  - exfalso. destruct Q as (a & b & P & Q & _). rewrite zero_R in Q.
    destruct (pair_bound _ _ _ _ _ (M + (1 + X) / 5000) (not_eq_sym Hne) ltac:(lra) (second_value x0 M X HM HX) P) as (_ & _ & B). specialize (B ltac:(lia)).
    change (0 + 50 - 1)%nat with 49%nat in B. lra.
Qed.
End Secant.

(** ** newton_hd *)
Lemma sum_le (f : nat -> R) b l : (forall j, In j l -> Rabs (f j) <= b) -> Rabs (fold_right Rplus 0 (map f l)) <= INR (length l) * b.
Proof.
  induction l as [|a l IH]; intros H; cbn [map fold_right length]; [rewrite Rabs_R0; cbn; lra|]. rewrite S_INR.
  eapply Rle_trans; [apply Rabs_triang|]. pose proof (H a (or_introl eq_refl)). specialize (IH (fun j Hj => H j (or_intror Hj))). lra.
Qed.
Lemma norm2_le n e (v : list R) : length v = n -> (1 <= n)%nat -> (forall i, (i < n)%nat -> Rabs (cmp i v) <= e) -> norm2 v <= INR n * e.
Proof.
  intros Hl Hn H. assert (Pe : 0 <= e) by (eapply Rle_trans; [apply Rabs_pos|apply (H 0%nat); lia]).
  assert (S : fold_right (fun x a => x * x + a) 0 v <= INR n * (e * e)).
  { clear Hn. revert n Hl H. induction v as [|x v IH]; intros n Hl H; cbn [length] in Hl; subst n; cbn [fold_right]; [cbn; lra|]. rewrite S_INR.
    pose proof (H 0%nat ltac:(lia)) as H0. specialize (IH _ eq_refl (fun i Hi => H (S i) ltac:(lia))). cbn in H0.
    assert (x * x <= e * e). { rewrite <- (Rabs_pos_eq (x * x)) by (apply Rle_0_sqr). rewrite Rabs_mult. apply Rmult_le_compat; auto using Rabs_pos. } lra. }
  assert (1 <= INR n) by (apply (le_INR 1); auto). unfold norm2. rewrite <- (sqrt_Rsqr (INR n * e)) by (apply Rmult_le_pos; lra). apply sqrt_le_1_alt.
  eapply Rle_trans; [exact S|]. unfold Rsqr. replace (INR n * e * (INR n * e)) with (INR n * (INR n * (e * e))) by ring.
  assert (0 <= e * e) by (apply Rle_0_sqr). assert (0 <= INR n * (e * e)) by (apply Rmult_le_pos; lra).
  replace (INR n * (e * e)) with (1 * (INR n * (e * e))) at 1 by ring. apply Rmult_le_compat_r; lra.
Qed.

Section HD.
Context {E : @Env Rops}.
Variables (n : nat) (th q : R) (func : list R -> outcome (list R)).
Hypothesis Hn : (1 <= n)%nat.
Hypothesis Hth : 0 <= th.
Hypothesis Hq : (INR n + 1) * th <= q * (1 - INR n * th).
Hypothesis Hq2 : 0 <= q <= 1 / 2.
Hypothesis Hid : near_id n th func.
Hypothesis Sol : solves_regular (E := E) n.

Lemma jac_entries y J : length y = n -> diff_quotients func y J -> forall j, (j < n)%nat -> length (nth j J []) = n /\
  forall i, (i < n)%nat -> Rabs (nth i (nth j J []) 0 - (if Nat.eqb j i then 1 else 0)) <= th.
Proof.
  intros Hy (LJ & H) j Hj. destruct (H j ltac:(lia)) as (f1 & f2 & H1 & H2 & HJ). destruct Hid as (I1 & I2).
  assert (Pe : 0 < eps_jac) by (unfold eps_jac; lra).
  assert (L1 : length (shifted y j eps_jac) = n) by (rewrite shifted_len; auto). assert (L2 : length (shifted y j (- eps_jac)) = n) by (rewrite shifted_len; auto).
  assert (F1 : length f1 = n) by (destruct (I1 _ L1) as (v & E1 & Q); congruence). assert (F2 : length f2 = n) by (destruct (I1 _ L2) as (v & E1 & Q); congruence).
  rewrite HJ. split; [rewrite map_length, combine_length; lia|]. intros i Hi.
  assert (C : forall d k, (k < n)%nat -> cmp k (shifted y j d) = cmp k y + (if Nat.eqb k j then d else 0)).
  { intros d k Hk. unfold shifted. rewrite Hy. etransitivity; [apply (nth_map_sq (A := R)); lia|]. cbv beta. destruct (Nat.eqb k j); [reflexivity|]. change (nth k y 0 = nth k y 0 + 0 :> R). ring. }
  assert (Ne : near (2 * eps_jac) (shifted y j eps_jac) (shifted y j (- eps_jac))).
  { split; [congruence|]. intros k Hk. rewrite L1 in Hk. rewrite !C by auto. destruct (Nat.eqb k j).
    - right. replace (_ - _) with (2 * eps_jac) by ring. apply Rabs_pos_eq. lra.
    - replace (_ - _) with 0 by ring. rewrite Rabs_R0. lra. }
  pose proof (I2 _ _ _ _ _ L1 L2 H1 H2 Ne i Hi) as Q. rewrite !C in Q by auto. rewrite Nat.eqb_sym.
  assert (En : nth i (map (fun p => (fst p - snd p) / (2 * eps_jac)) (combine f1 f2)) 0 = (cmp i f1 - cmp i f2) / (2 * eps_jac)).
  { etransitivity; [apply (nth_map_lt (fun p : R * R => (fst p - snd p) / (2 * eps_jac)) (combine f1 f2) i (0, 0)); rewrite combine_length; lia|]. rewrite combine_nth by congruence. reflexivity. }
  match goal with |- Rabs (?a - _) <= _ => replace a with ((cmp i f1 - cmp i f2) / (2 * eps_jac)) by (symmetry; exact En) end.
  apply (Rmult_le_reg_r (2 * eps_jac)); [lra|]. rewrite <- (Rabs_pos_eq (2 * eps_jac)) at 2 by lra. rewrite <- Rabs_mult.
  match type of Q with Rabs ?a <= _ => match goal with |- Rabs ?b <= _ => replace b with a; [exact Q|] end end.
  destruct (Nat.eqb i j); field; lra.
Qed.
(** the system of one iteration: what it determines *)
Lemma system_bound y J d (v : list R) e : length y = n -> diff_quotients func y J -> length d = n ->
  (forall i, (i < n)%nat -> col_sum J d i = - cmp i v) -> (forall i, (i < n)%nat -> Rabs (cmp i v) <= e) ->
  exists D, 0 <= D /\ D * (1 - INR n * th) <= e /\ (forall i, (i < n)%nat -> Rabs (cmp i d) <= D) /\
    forall i, (i < n)%nat -> Rabs (cmp i v + cmp i d) <= INR n * (th * D).
Proof.
  intros Hy HJ Hd Hs He. set (D := mx d). assert (PD : 0 <= D) by apply mx_pos.
  assert (B : forall i, (i < n)%nat -> Rabs (cmp i d) <= D). { intros i Hi. apply mx_in. apply nth_In. lia. }
  assert (K : forall i, (i < n)%nat -> Rabs (cmp i v + cmp i d) <= INR n * (th * D)).
  { intros i Hi. specialize (Hs i Hi). unfold col_sum in Hs. rewrite Hd in Hs.
    rewrite (sum_ext _ (fun j => (if Nat.eqb j i then cmp j d else 0) + cmp j d * (nth i (nth j J []) 0 - (if Nat.eqb j i then 1 else 0)))) in Hs.
    2:{ intros j Hj. destruct (Nat.eqb j i); lra. }
    rewrite sum_plus, sum_single in Hs by auto.
    match type of Hs with _ + ?S = _ => replace (cmp i v + cmp i d) with (- S) by lra end. rewrite Rabs_Ropp.
    eapply Rle_trans; [apply (sum_le _ (th * D))|rewrite seq_length; lra]. intros j Hj. apply in_seq in Hj. rewrite Rabs_mult, Rmult_comm.
    apply Rmult_le_compat; auto using Rabs_pos; [apply (jac_entries y J Hy HJ j); lia|apply B; lia]. }
  exists D. split; [exact PD|]. split; [|split; auto].
  assert (Dle : D <= e + INR n * (th * D)).
  { apply mx_le.
    - assert (0 <= e) by (eapply Rle_trans; [apply Rabs_pos|apply (He 0%nat); lia]). pose proof (pos_INR n). assert (0 <= th * D) by (apply Rmult_le_pos; auto). assert (0 <= INR n * (th * D)) by (apply Rmult_le_pos; auto). lra.
    - intros x Hx. apply (In_nth _ _ 0) in Hx as (i & Hi & <-). rewrite Hd in Hi. change (nth i d 0) with (cmp i d).
      replace (cmp i d) with ((cmp i v + cmp i d) + - cmp i v) by lra. eapply Rle_trans; [apply Rabs_triang|]. rewrite Rabs_Ropp. specialize (K i Hi). specialize (He i Hi). lra. }
  lra.
Qed.

Lemma hd_step y (v : list R) e : length y = n -> func y = Ret v -> (forall i, (i < n)%nat -> Rabs (cmp i v) <= e) ->
  exists J d v', @jacobian Rops func y = Ret J /\ @np_solve Rops E J (@vopp Rops v) = Ret d /\ length (@vadd Rops y d) = n /\ func (@vadd Rops y d) = Ret v' /\
    forall i, (i < n)%nat -> Rabs (cmp i v') <= q * e.
Proof.
  intros Hy Hv He. destruct Hid as (I1 & I2). pose proof (pos_INR n) as Pn.
  assert (Lv : length v = n) by (destruct (I1 y Hy) as (w & E1 & Q); congruence).
  assert (Pe : 0 <= e) by (eapply Rle_trans; [apply Rabs_pos|apply (He 0%nat); lia]).
  assert (P1 : 1 <= INR n) by (apply (le_INR 1); auto).
  pose proof (jacobian_R func y) as KJ. destruct (@jacobian Rops func y) as [J|ex|] eqn:eJ.
  2:{ destruct KJ as (x & Lx & Ex). destruct (I1 x (eq_trans Lx Hy)) as (w & E1 & _). rewrite E1 in Ex. discriminate. }
  2:{ destruct KJ as (x & Lx & Ex). destruct (I1 x (eq_trans Lx Hy)) as (w & E1 & _). rewrite E1 in Ex. discriminate. }
  assert (Hnt : INR n * th < 1). { assert (0 <= INR n * th) by (apply Rmult_le_pos; lra). destruct (Rlt_le_dec (INR n * th) 1) as [l|l]; [exact l|exfalso]. assert (0 <= q * (INR n * th - 1)) by (apply Rmult_le_pos; lra). lra. }
  destruct (Sol J (map Ropp v)) as (d & Ed & Ld & Hd).
  - destruct KJ as (LJ & _). exact (eq_trans LJ Hy).
  - intros c Hc. apply (In_nth _ _ []) in Hc as (j & Hj & <-). apply (jac_entries y J Hy KJ). destruct KJ as (LJ & _). rewrite LJ, Hy in Hj. exact Hj.
  - rewrite map_length. exact Lv.
  - intros w Lw Hw. destruct (system_bound y J w (map (fun _ => 0) (seq 0 n)) 0 Hy KJ Lw) as (D & PD & D1 & D2 & _).
    + intros i Hi. rewrite Hw by auto. rewrite nth_map_sq by auto. lra.
    + intros i Hi. rewrite nth_map_sq by auto. rewrite Rabs_R0. lra.
    + intros i Hi. assert (D = 0). { assert (D * (1 - INR n * th) = 0) by (apply Rle_antisym; [exact D1|apply Rmult_le_pos; lra]). apply Rmult_integral in H as [H|H]; lra. }
      specialize (D2 i Hi). subst D. destruct (Req_EM_T (nth i w 0) 0) as [z|z]; auto. apply Rabs_pos_lt in z. lra.
  - destruct (system_bound y J d v e Hy KJ Ld) as (D & PD & D1 & D2 & D3); auto.
    { intros i Hi. rewrite Hd by auto. rewrite (nth_indep _ 0 (Ropp 0)) by (rewrite map_length; lia). rewrite map_nth. reflexivity. }
    assert (La : length (@vadd Rops y d) = n) by (apply vadd_len; auto). destruct (I1 _ La) as (v' & Ev & Lv').
    exists J, d, v'. split; [reflexivity|]. split; [exact Ed|]. split; [exact La|]. split; [exact Ev|]. intros i Hi.
    assert (Ne : near D (@vadd Rops y d) y).
    { split; [exact (eq_trans La (eq_sym Hy))|]. intros k Hk. assert (Hk2 : (k < n)%nat) by (eapply Nat.lt_le_trans; [exact Hk|]; apply Nat.eq_le_incl; exact La). rewrite (vadd_cmp n) by auto. match goal with |- Rabs ?x <= _ => replace x with (cmp k d : R) by (symmetry; apply Rplus_minus_l) end. now apply D2. }
    pose proof (I2 _ _ _ _ _ La Hy Ev Hv Ne i Hi) as Q. rewrite (vadd_cmp n) in Q by auto.
    replace (cmp i v') with ((cmp i v' - cmp i v - (cmp i y + cmp i d - cmp i y)) + (cmp i v + cmp i d)) by ring.
    eapply Rle_trans; [apply Rabs_triang|]. specialize (D3 i Hi).
    assert ((INR n + 1) * (th * D) <= q * e); [|eapply Rle_trans; [apply Rplus_le_compat; [exact Q|exact D3]|]; lra].
    apply (Rmult_le_reg_r (1 - INR n * th)); [lra|].
    assert ((INR n + 1) * th * (D * (1 - INR n * th)) <= (INR n + 1) * th * e) by (apply Rmult_le_compat_l; [apply Rmult_le_pos; lra|exact D1]).
    assert (e * ((INR n + 1) * th) <= e * (q * (1 - INR n * th))) by (apply Rmult_le_compat_l; lra). lra.
Qed.
Lemma hd_live (tol : R) todo : 0 <= tol -> forall y v e, length y = n -> func y = Ret v -> (forall i, (i < n)%nat -> Rabs (cmp i v) <= e) ->
  INR n * (q ^ todo * e) <= tol ->
  exists y' v', @hd_loop Rops E func tol (@zero Rops) (S todo) y v = Ret (y', OK) /\ length y' = n /\ func y' = Ret v' /\ norm2 v' <= tol.
Proof.
  intros Ht. induction todo as [|todo IH]; intros y v e Hy Hv He Hb.
  - cbn [hd_loop]. destruct (@isclose Rops (@vnorm2 Rops v) (@zero Rops) tol (@zero Rops)) eqn:ec; [apply vnorm2_close in ec; exists y, v; auto|]. exfalso.
    apply vnorm2_far in ec. destruct Hid as (I1 & _). assert (Lv : length v = n) by (destruct (I1 y Hy) as (w & E1 & Q); congruence).
    pose proof (norm2_le n e v Lv Hn He) as Q. cbn [pow] in Hb. rewrite Rmult_1_l in Hb. exact (Rlt_not_le _ _ ec (Rle_trans _ _ _ Q Hb)).
  - remember (S todo) as td eqn:Etd. cbn [hd_loop]. subst td. destruct (@isclose Rops (@vnorm2 Rops v) (@zero Rops) tol (@zero Rops)) eqn:ec; [apply vnorm2_close in ec; exists y, v; auto|].
    destruct (hd_step y v e Hy Hv He) as (J & d & v' & E1 & E2 & E3 & E4 & E5). rewrite E1. cbn [obind]. rewrite E2. cbn [obind].
    match goal with |- context [func ?z] => replace (func z) with (Ret v') by (symmetry; exact E4) end. cbn [obind].
    apply (IH _ v' (q * e) E3 E4 E5). cbn [pow] in Hb. replace (q ^ todo * (q * e)) with (q * q ^ todo * e) by ring. exact Hb.
Qed.
Lemma newton_hd_live (tol : R) y v e : 0 <= tol -> length y = n -> func y = Ret v -> (forall i, (i < n)%nat -> Rabs (cmp i v) <= e) ->
  INR n * (q ^ 50 * e) <= tol ->
  exists y' v', @newton_hd Rops E func y tol (@zero Rops) 50 = Ret y' /\ length y' = n /\ func y' = Ret v' /\ norm2 v' <= tol.
Proof.
  intros Ht Hy Hv He Hb. unfold newton_hd, newton_hd_impl. rewrite Hv. cbn [obind]. destruct (hd_live tol 50 Ht y v e Hy Hv He Hb) as (y' & v' & H & Q).
  exists y', v'. split; [|exact Q]. match goal with |- context [hd_loop _ _ _ ?k _ _] => change k with 51%nat end. rewrite H. reflexivity.
Qed.
End HD.
