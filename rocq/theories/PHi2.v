(** One Runge-Kutta step to fourth order: expansion of the stages around the solution. *)
From Coq Require Import List ZArith Bool Arith Lia Reals Lra.
From Verif Require Import Base Scalar Vec MBuffer MZeros MSteps MApi MClasses Laws Spec SpecInst PVecR SpecRK SpecConv PConv1 SpecConv3 PHi1.
Import ListNotations.
Open Scope R_scope.

(** ** sums *)
Definition sumn (n : nat) (x : nat -> R) : R := sumR (map x (seq 0 n)).
Lemma sumR_ext (f g : nat -> R) l : (forall i, In i l -> f i = g i) -> sumR (map f l) = sumR (map g l).
Proof. intros H. f_equal. apply map_ext_in. exact H. Qed.
Lemma sumn_ext n f g : (forall i, (i < n)%nat -> f i = g i) -> sumn n f = sumn n g.
Proof. intros H. apply sumR_ext. intros i Hi. apply H. apply in_seq in Hi. lia. Qed.
Lemma sumn_lin n (f g : nat -> R) c d : sumn n (fun i => c * f i + d * g i) = c * sumn n f + d * sumn n g.
Proof.
  unfold sumn. induction (seq 0 n) as [|i l IH]; cbn; [lra|]. unfold sumR in IH. rewrite IH. lra.
Qed.
Lemma sumn_S n f : sumn (S n) f = f 0%nat + sumn n (fun i => f (S i)).
Proof. unfold sumn. cbn [seq map sumR fold_right]. f_equal. rewrite <- seq_shift, map_map. reflexivity. Qed.
Lemma dot_sumn (w l : list R) n : length w = n -> length l = n -> dot w l = sumn n (fun j => nth j w 0 * nth j l 0).
Proof.
  revert l n. induction w as [|x w IH]; intros [|z l] [|n] H1 H2; try discriminate; [reflexivity|].
  rewrite sumn_S. cbn [dot nth]. f_equal. apply IH; auto.
Qed.
Lemma nth_map_seq (f : nat -> R) n j : (j < n)%nat -> nth j (map f (seq 0 n)) 0 = f j.
Proof. intros H. rewrite (nth_indep _ 0 (f 0%nat)) by (rewrite map_length, seq_length; exact H). rewrite map_nth, seq_nth by exact H. reflexivity. Qed.
Lemma nth_map_cmp (i j : nat) (K : list (@vec Rops)) : nth j (map (fun k => cmp i k) K) 0 = cmp i (nth j K []).
Proof. revert j. induction K as [|k K IH]; intros [|j]; cbn; try (destruct i; reflexivity); auto. Qed.

(** ** the data of a stage: c_i, and the coefficients of its error
    Y_i - y(t + c_i h) = h^2 al y'' + h^3 (be y''' + ga J y'') + O(h^4) *)
Record sd := mksd { s_c : R; s_al : R; s_be : R; s_ga : R }.
Definition next_sd (a : list R) (c : R) (S : list sd) : sd :=
  mksd c (dot a (map s_c S) - c * c / 2) (dot a (map (fun s => s_c s * s_c s / 2) S) - c * c * c / 6) (dot a (map s_al S)).
Fixpoint sds (rows : list (list R)) (cs : list R) (S : list sd) : list sd :=
  match rows, cs with
  | a :: rows', c :: cs' => sds rows' cs' (S ++ [next_sd (firstn (length S) a) c S])
  | _, _ => S
  end.
Fixpoint rows4 (i : nat) (rows : list (list R)) (cs : list R) : Prop :=
  match rows, cs with
  | [], [] => True
  | a :: rows', c :: cs' => length (firstn i a) = i /\ sumR (firstn i a) = c /\ 0 <= c <= 1 /\ rows4 (S i) rows' cs'
  | _, _ => False
  end.

Section Step.
Variables (rhs : @rhs_t Rops) (n : nat) (L t0 te Bd : R) (D : nat -> R -> list R) (J J1 : nat -> nat -> R -> R) (M : R).
Hypothesis HL : lipschitz n L rhs.
Hypothesis HB : 0 <= Bd.
Hypothesis HM : 0 <= M.
Hypothesis HR : forall t, t0 <= t <= te -> rhs t (D 0%nat t) = Ret (D 1%nat t).
Hypothesis HDl : forall t j, t0 <= t <= te -> (j <= 5)%nat -> length (D j t) = n.
Hypothesis HDb : forall t j i, t0 <= t <= te -> (j <= 5)%nat -> (i < n)%nat -> Rabs (cmp i (D j t)) <= Bd.
Hypothesis HDt : forall j k t x i, (j + k <= 5)%nat -> (i < n)%nat -> t0 <= t -> 0 <= x -> t + x <= te ->
  Rabs (cmp i (D j (t + x)) - tpoly (fun m => cmp i (D (j + m)%nat t)) k x) <= Bd * x ^ k.
Hypothesis HJb : forall t i j, t0 <= t <= te -> (i < n)%nat -> (j < n)%nat -> Rabs (J i j t) <= Bd /\ Rabs (J1 i j t) <= Bd.
Hypothesis HJt : forall t x i j, (i < n)%nat -> (j < n)%nat -> t0 <= t -> 0 <= x -> t + x <= te ->
  Rabs (J i j (t + x) - J i j t - x * J1 i j t) <= Bd * (x * x).
Hypothesis HJ : forall t z f e i, t0 <= t <= te -> near e z (D 0%nat t) -> rhs t z = Ret f -> (i < n)%nat ->
  Rabs (cmp i f - cmp i (D 1%nat t) - sumn n (fun j => J i j t * (cmp j z - cmp j (D 0%nat t)))) <= M * (e * e).

(** a family of steps *)
Context {W : Type} (ok : W -> Prop) (h e t : W -> R) (u : W -> list R).
Hypothesis Hh : forall w, ok w -> 0 < h w <= 1.
Hypothesis He : forall w, ok w -> 0 <= e w.
Hypothesis Ht : forall w, ok w -> t0 <= t w /\ t w + h w <= te.
Hypothesis Hu : forall w, ok w -> near (e w) (u w) (D 0%nat (t w)).
Notation bdd := (bdd ok).
Notation big := (big ok h e).

Definition Jm (x : nat -> W -> R) (i : nat) (w : W) : R := sumn n (fun j => J i j (t w) * x j w).
Definition J1m (x : nat -> W -> R) (i : nat) (w : W) : R := sumn n (fun j => J1 i j (t w) * x j w).
Definition dD (j i : nat) (w : W) : R := cmp i (D j (t w)).
Definition app (s : sd) (i : nat) (w : W) : R :=
  dD 1 i w + h w * (s_c s * dD 2 i w) + h w ^ 2 * (s_c s * s_c s / 2 * dD 3 i w + s_al s * Jm (dD 2) i w) +
  h w ^ 3 * (s_c s * s_c s * s_c s / 6 * dD 4 i w + s_c s * s_al s * J1m (dD 2) i w + s_be s * Jm (dD 3) i w + s_ga s * Jm (Jm (dD 2)) i w).

Lemma Ht' w c : ok w -> 0 <= c <= 1 -> t0 <= t w + h w * c <= te /\ 0 <= h w * c <= h w.
Proof.
  intros Hw Hc. pose proof (Hh w Hw). pose proof (Ht w Hw).
  assert (0 <= h w * c) by (apply Rmult_le_pos; lra).
  assert (h w * c <= h w * 1) by (apply Rmult_le_compat_l; lra). lra.
Qed.
Lemma Ht0 w : ok w -> t0 <= t w <= te.
Proof. intros Hw. pose proof (Hh w Hw). pose proof (Ht w Hw). lra. Qed.
Lemma bdd_D j i : (j <= 5)%nat -> (i < n)%nat -> bdd (dD j i).
Proof. intros Hj Hi. exists Bd. split; auto. intros w Hw. apply HDb; auto using Ht0. Qed.
Lemma bdd_Jm x i : (i < n)%nat -> (forall j, (j < n)%nat -> bdd (x j)) -> bdd (Jm x i).
Proof.
  intros Hi Hx. unfold Jm, sumn. apply (bdd_sum ok n (fun j w => J i j (t w) * x j w)). intros j Hj. apply bdd_mul; auto.
  exists Bd. split; auto. intros w Hw. apply HJb; auto using Ht0.
Qed.
Lemma bdd_J1m x i : (i < n)%nat -> (forall j, (j < n)%nat -> bdd (x j)) -> bdd (J1m x i).
Proof.
  intros Hi Hx. unfold J1m, sumn. apply (bdd_sum ok n (fun j w => J1 i j (t w) * x j w)). intros j Hj. apply bdd_mul; auto.
  exists Bd. split; auto. intros w Hw. apply HJb; auto using Ht0.
Qed.
Lemma bdd_hk k : bdd (fun w => h w ^ k).
Proof.
  exists 1. split; [lra|]. intros w Hw. pose proof (hk_pos ok h Hh k w Hw). rewrite Rabs_right; lra.
Qed.

(** values at a stage *)
Lemma D_at j k i c : (j + k <= 5)%nat -> (i < n)%nat -> 0 <= c <= 1 ->
  big k (fun w => cmp i (D j (t w + h w * c)) - tpoly (fun m => dD (j + m) i w) k (h w * c)).
Proof.
  intros Hj Hi Hc. apply (big_rem ok h e He k _ Bd); auto. intros w Hw. destruct (Ht' w c Hw Hc) as (H1 & H2). pose proof (Ht w Hw).
  eapply Rle_trans; [apply HDt; auto; lra|]. apply Rmult_le_compat_l; auto. apply pow_incr. lra.
Qed.

Ltac bd := repeat first
  [ apply bdd_const | apply (bdd_h ok h Hh) | apply bdd_hk | assumption
  | apply bdd_add | apply bdd_sub | apply bdd_mul | apply bdd_opp
  | apply bdd_D; [lia|assumption] | apply bdd_Jm; [assumption|intros ? ?] | apply bdd_J1m; [assumption|intros ? ?] ].

(** the derivative computed at a stage *)
Lemma stage_one (c al be ga : R) (Y k : W -> list R) : 0 <= c <= 1 ->
  (forall w, ok w -> length (Y w) = n) ->
  (forall w, ok w -> rhs (t w + h w * c) (Y w) = Ret (k w)) ->
  (forall i, (i < n)%nat -> big 4 (fun w => cmp i (Y w) - cmp i (D 0%nat (t w + h w * c)) -
     (h w ^ 2 * (al * dD 2 i w) + h w ^ 3 * (be * dD 3 i w + ga * Jm (dD 2) i w)))) ->
  forall i, (i < n)%nat -> big 4 (fun w => cmp i (k w) - app (mksd c al be ga) i w).
Proof.
  intros Hc HY Hk Hd.
  set (lead := fun i w => h w ^ 2 * (al * dD 2 i w) + h w ^ 3 * (be * dD 3 i w + ga * Jm (dD 2) i w)).
  set (dl := fun i w => cmp i (Y w) - cmp i (D 0%nat (t w + h w * c))).
  (* the distance to the solution *)
  assert (D2 : forall i, (i < n)%nat -> big 2 (dl i)).
  { intros i Hi. apply (big_ext ok h e 2 (fun w => (dl i w - lead i w) + lead i w)); [intros; unfold dl, lead; lra|].
    apply big_add; [apply (big_low ok h e Hh 4); [lia|exact (Hd i Hi)]|]. unfold lead.
    apply (big_ext ok h e 2 (fun w => h w ^ 2 * (al * dD 2 i w + h w * (be * dD 3 i w + ga * Jm (dD 2) i w)))); [intros; ring|].
    apply (big_bdd ok h e Hh He). bd. }
  destruct (big_all ok h e Hh He 2 n dl D2) as (C & HC & HC2).
  assert (Near : forall w, ok w -> near (C * (e w + h w ^ 2)) (Y w) (D 0%nat (t w + h w * c))).
  { intros w Hw. destruct (Ht' w c Hw Hc) as (H1 & _). split; [rewrite HY, HDl by (auto; lia); reflexivity|].
    intros i Hi. rewrite HY in Hi by auto. apply HC2; auto. }
  (* the part of rhs that is not linear *)
  assert (NL : forall i, (i < n)%nat -> big 4 (fun w => cmp i (k w) - cmp i (D 1%nat (t w + h w * c)) - sumn n (fun j => J i j (t w + h w * c) * dl j w))).
  { intros i Hi.
    assert (BJ : exists CJ, 0 <= CJ /\ forall w, ok w -> Rabs (sumn n (fun j => J i j (t w + h w * c) * dl j w)) <= CJ * (e w + h w ^ 2)).
    { apply (big_sum ok h e 2 n (fun j w => J i j (t w + h w * c) * dl j w)). intros j Hj. apply big_mul; auto.
      exists Bd. split; auto. intros w Hw. apply HJb; auto. apply (Ht' w c Hw Hc). }
    destruct BJ as (CJ & HCJ & HCJ2).
    apply (big_square ok h e Hh He _ (L * C + CJ) (M * (C * C)) (fun w => e w + h w ^ 2)).
    - assert (0 <= L * C) by (apply Rmult_le_pos; auto; apply HL). lra.
    - repeat apply Rmult_le_pos; auto.
    - intros w Hw. pose proof (gk_pos ok h e Hh He 2 w Hw). lra.
    - intros w Hw. destruct (Ht' w c Hw Hc) as (H1 & _).
      assert (HLn : near (L * (C * (e w + h w ^ 2))) (k w) (D 1%nat (t w + h w * c))).
      { apply (proj2 (proj2 HL) (t w + h w * c) (Y w) (D 0%nat (t w + h w * c))); auto. apply HDl; auto; lia. }
      destruct HLn as (L1 & L2). rewrite HDl in L1 by (auto; lia). rewrite L1 in L2. specialize (L2 i Hi). specialize (HCJ2 w Hw).
      eapply Rle_trans; [apply Rabs_triang|]. rewrite Rabs_Ropp. lra.
    - intros w Hw. destruct (Ht' w c Hw Hc) as (H1 & _).
      replace (M * (C * C) * ((e w + h w ^ 2) * (e w + h w ^ 2))) with (M * ((C * (e w + h w ^ 2)) * (C * (e w + h w ^ 2)))) by ring.
      apply (HJ (t w + h w * c) (Y w)); auto. }
  (* the linear part *)
  assert (LP : forall i, (i < n)%nat -> big 4 (fun w => sumn n (fun j => J i j (t w + h w * c) * dl j w) -
     (h w ^ 2 * (al * Jm (dD 2) i w) + h w ^ 3 * (c * al * J1m (dD 2) i w + be * Jm (dD 3) i w + ga * Jm (Jm (dD 2)) i w)))).
  { intros i Hi.
    set (Jx := fun j w => J i j (t w + h w * c)).
    set (q := fun j w => al * dD 2 j w). set (r := fun j w => be * dD 3 j w + ga * Jm (dD 2) j w).
    set (X := fun j w => Jx j w * (dl j w - lead j w) + (Jx j w - J i j (t w) - h w * c * J1 i j (t w)) * lead j w +
       h w ^ 4 * (c * J1 i j (t w) * r j w)).
    apply (big_ext ok h e 4 (fun w => sumn n (fun j => X j w))).
    { intros w Hw. 
      change (Jm (Jm (dD 2)) i w) with (sumn n (fun j => J i j (t w) * Jm (dD 2) j w)).
      change (Jm (dD 2) i w) with (sumn n (fun j => J i j (t w) * dD 2 j w)).
      change (Jm (dD 3) i w) with (sumn n (fun j => J i j (t w) * dD 3 j w)).
      change (J1m (dD 2) i w) with (sumn n (fun j => J1 i j (t w) * dD 2 j w)).
      replace (h w ^ 2 * (al * sumn n (fun j => J i j (t w) * dD 2 j w)) +
        h w ^ 3 * (c * al * sumn n (fun j => J1 i j (t w) * dD 2 j w) + be * sumn n (fun j => J i j (t w) * dD 3 j w) +
        ga * sumn n (fun j => J i j (t w) * Jm (dD 2) j w)))
      with (sumn n (fun j => h w ^ 2 * (J i j (t w) * q j w) + h w ^ 3 * (c * J1 i j (t w) * q j w + J i j (t w) * r j w))).
      - replace (sumn n (fun j => J i j (t w + h w * c) * dl j w)) with
          (sumn n (fun j => X j w + (h w ^ 2 * (J i j (t w) * q j w) + h w ^ 3 * (c * J1 i j (t w) * q j w + J i j (t w) * r j w)))).
        + rewrite (sumn_ext n (fun j => X j w + _) (fun j => 1 * X j w + 1 * (h w ^ 2 * (J i j (t w) * q j w) + h w ^ 3 * (c * J1 i j (t w) * q j w + J i j (t w) * r j w)))) by (intros; lra).
          rewrite sumn_lin. lra.
        + apply sumn_ext. intros j Hj. unfold X, Jx, lead, q, r. ring.
      - rewrite (sumn_ext n _ (fun j => (h w ^ 2 * al) * (J i j (t w) * dD 2 j w) + 1 * ((h w ^ 3 * (c * al)) * (J1 i j (t w) * dD 2 j w) + 1 * ((h w ^ 3 * be) * (J i j (t w) * dD 3 j w) + (h w ^ 3 * ga) * (J i j (t w) * Jm (dD 2) j w))))) by (intros; unfold q, r; ring).
        rewrite !sumn_lin. ring. }
    apply (big_sum ok h e 4 n X). intros j Hj. unfold X. apply big_add; [apply big_add|].
    - apply big_mul; [|exact (Hd j Hj)]. exists Bd. split; auto. intros w Hw. apply HJb; auto. apply (Ht' w c Hw Hc).
    - (* (J(t + ch) - J - ch J1) = O(h^2), lead = h^2 bounded *)
      assert (Bl : bdd (fun w => al * dD 2 j w + h w * (be * dD 3 j w + ga * Jm (dD 2) j w))) by bd.
      destruct Bl as (Cl & HCl & HCl2).
      apply (big_rem ok h e He 4 _ (Bd * Cl)); [apply Rmult_le_pos; auto|]. intros w Hw. destruct (Ht' w c Hw Hc) as (H1 & H2).
      assert (Q1 : Rabs (Jx j w - J i j (t w) - h w * c * J1 i j (t w)) <= Bd * h w ^ 2).
      { eapply Rle_trans; [apply HJt; auto; [pose proof (Ht w Hw)|..]; lra|]. apply Rmult_le_compat_l; auto.
        replace (h w ^ 2) with (h w * h w) by ring. apply Rmult_le_compat; lra. }
      assert (Q2 : Rabs (lead j w) <= Cl * h w ^ 2).
      { unfold lead. replace (h w ^ 2 * (al * dD 2 j w) + h w ^ 3 * (be * dD 3 j w + ga * Jm (dD 2) j w)) with
          (h w ^ 2 * (al * dD 2 j w + h w * (be * dD 3 j w + ga * Jm (dD 2) j w))) by ring.
        pose proof (hk_pos ok h Hh 2 w Hw). rewrite Rabs_mult, (Rabs_right (h w ^ 2)) by lra. rewrite Rmult_comm. apply Rmult_le_compat_r; [lra|]. apply HCl2; auto. }
      rewrite Rabs_mult. replace (Bd * Cl * h w ^ 4) with ((Bd * h w ^ 2) * (Cl * h w ^ 2)) by ring.
      apply Rmult_le_compat; auto using Rabs_pos.
    - apply (big_bdd ok h e Hh He). unfold r. bd. exists Bd. split; auto. intros w Hw. apply HJb; auto using Ht0. }
  intros i Hi.
  apply (big_ext ok h e 4 (fun w => (cmp i (k w) - cmp i (D 1%nat (t w + h w * c)) - sumn n (fun j => J i j (t w + h w * c) * dl j w)) +
    (cmp i (D 1%nat (t w + h w * c)) - tpoly (fun m => dD (1 + m) i w) 4 (h w * c)) +
    (sumn n (fun j => J i j (t w + h w * c) * dl j w) -
     (h w ^ 2 * (al * Jm (dD 2) i w) + h w ^ 3 * (c * al * J1m (dD 2) i w + be * Jm (dD 3) i w + ga * Jm (Jm (dD 2)) i w))))).
  { intros w Hw. unfold app. cbn [s_c s_al s_be s_ga tpoly plus fact Nat.mul Nat.add]. 
    replace (INR 6) with 6 by (cbn; lra). replace (INR 2) with 2 by (cbn; lra). replace (INR 1) with 1 by reflexivity. field. }
  apply big_add; [apply big_add|].
  - exact (NL i Hi).
  - apply (D_at 1 4 i c); auto.
  - exact (LP i Hi).
Qed.

(** ** all the stages *)
Lemma dot_app i w (a : list R) : forall S : list sd, length a = length S ->
  dot a (map (fun s => app s i w) S) = sumR a * dD 1 i w + h w * (dot a (map s_c S) * dD 2 i w) +
  h w ^ 2 * (dot a (map (fun s => s_c s * s_c s / 2) S) * dD 3 i w + dot a (map s_al S) * Jm (dD 2) i w) +
  h w ^ 3 * (dot a (map (fun s => s_c s * s_c s * s_c s / 6) S) * dD 4 i w + dot a (map (fun s => s_c s * s_al s) S) * J1m (dD 2) i w +
    dot a (map s_be S) * Jm (dD 3) i w + dot a (map s_ga S) * Jm (Jm (dD 2)) i w).
Proof.
  induction a as [|x a IH]; intros [|s S] H; try discriminate.
  - cbn. ring.
  - cbn [map dot sumR fold_right]. rewrite IH by (cbn in H; lia). unfold app at 1. unfold sumR. ring.
Qed.
Definition sd0 : sd := mksd 0 0 0 0.
Definition st_ok (i : nat) (K : W -> list (list R)) (S : list sd) : Prop :=
  length S = i /\ (forall w, ok w -> length (K w) = i /\ Forall (fun k => length k = n) (K w)) /\
  forall j a, (j < i)%nat -> (a < n)%nat -> big 4 (fun w => cmp a (nth j (K w) []) - app (nth j S sd0) a w).
Lemma st_comb i K S (a : list R) b : st_ok i K S -> length a = i -> (b < n)%nat ->
  big 4 (fun w => dot a (map (fun k => cmp b k) (K w)) - dot a (map (fun s => app s b w) S)).
Proof.
  intros (LS & LK & HK) La Hb.
  apply (big_ext ok h e 4 (fun w => sumn i (fun j => nth j a 0 * (cmp b (nth j (K w) []) - app (nth j S sd0) b w)))).
  - intros w Hw. destruct (LK w Hw) as (L1 & _). rewrite (dot_sumn a _ i) by (rewrite ?map_length; auto).
    rewrite (dot_sumn a _ i) by (rewrite ?map_length; auto).
    rewrite (sumn_ext i _ (fun j => 1 * (nth j a 0 * cmp b (nth j (K w) [])) + -1 * (nth j a 0 * app (nth j S sd0) b w))) by (intros; ring).
    rewrite sumn_lin. rewrite Rmult_1_l. unfold Rminus. f_equal.
    + apply sumn_ext. intros j Hj. f_equal. symmetry. apply (nth_map_cmp b j (K w)).
    + replace (-1 * sumn i (fun i0 => nth i0 a 0 * app (nth i0 S sd0) b w)) with (- sumn i (fun i0 => nth i0 a 0 * app (nth i0 S sd0) b w)) by lra.
      f_equal. apply sumn_ext. intros j Hj. f_equal.
      rewrite (nth_indep _ 0 (app sd0 b w)) by (rewrite map_length; lia). symmetry. apply (map_nth (fun s => app s b w)).
  - apply (big_sum ok h e 4 i (fun j w => nth j a 0 * (cmp b (nth j (K w) []) - app (nth j S sd0) b w))).
    intros j Hj. apply big_mul; [apply bdd_const|]. apply HK; auto.
Qed.
Lemma bdd_dot_app (i : nat) (a : list R) (c1 c2 c3 c4 : R) : (i < n)%nat ->
  bdd (fun w => c1 * dD 4 i w + c2 * J1m (dD 2) i w + c3 * Jm (dD 3) i w + c4 * Jm (Jm (dD 2)) i w).
Proof. intros Hi. bd. Qed.
Lemma u_len w : ok w -> length (u w) = n.
Proof. intros Hw. destruct (Hu w Hw) as (H & _). rewrite H. apply HDl; [now apply Ht0|lia]. Qed.
Lemma u_cmp w i : ok w -> (i < n)%nat -> Rabs (cmp i (u w) - cmp i (D 0%nat (t w))) <= e w.
Proof. intros Hw Hi. destruct (Hu w Hw) as (H & H1). apply H1. rewrite u_len; auto. Qed.

Lemma stage_prefix rows : forall cs tt uu hh K K', stages_of (OT := Rops) rhs tt uu hh rows cs K K' -> exists r, K' = K ++ r.
Proof.
  induction rows as [|a rows IH]; intros cs tt uu hh K K' H; inversion H as [|? ? ? ? ? k ? Hk St']; subst.
  - exists []. now rewrite app_nil_r.
  - apply IH in St' as (r & ->). exists (k :: r). now rewrite <- app_assoc.
Qed.

Lemma nth_mid (l1 l2 : list (list R)) x i : length l1 = i -> nth i ((l1 ++ [x]) ++ l2) [] = x.
Proof. intros L1. rewrite <- app_assoc. rewrite app_nth2 by lia. rewrite L1, Nat.sub_diag. reflexivity. Qed.
Lemma stages_cons_inv a rows c cs tt uu hh K K' : stages_of (OT := Rops) rhs tt uu hh (a :: rows) (c :: cs) K K' ->
  exists k, rhs (tt + hh * c) (@vadd Rops uu (@vscale Rops hh (@lincomb Rops (length uu) (firstn (length K) a) K))) = Ret k /\
    stages_of (OT := Rops) rhs tt uu hh rows cs (K ++ [k]) K'.
Proof. intros H. inversion H as [|? ? ? ? ? k ? Hk St']; subst. exists k. split; auto. Qed.

Lemma stages4 rows : forall cs i S K K', rows4 i rows cs -> st_ok i K S ->
  (forall w, ok w -> stages_of (OT := Rops) rhs (t w) (u w) (h w) rows cs (K w) (K' w)) ->
  st_ok (i + length rows) K' (sds rows cs S).
Proof.
  induction rows as [|a rows IH]; intros [|c cs] i S K K' Hr Hst Hs; cbn [rows4] in Hr; try contradiction.
  - cbn [length sds]. rewrite Nat.add_0_r. destruct Hst as (H1 & H2 & H3).
    assert (EK : forall w, ok w -> K' w = K w). { intros w Hw. specialize (Hs w Hw). now inversion Hs. }
    split; auto. split; [intros w Hw; rewrite EK; auto|]. intros j b Hj Hb. eapply big_ext; [|apply (H3 j b Hj Hb)].
    intros w Hw. cbn beta. rewrite EK; auto.
  - destruct Hr as (R1 & R2 & R3 & R4). pose proof Hst as (LS & LK & HK).
    set (a' := firstn i a) in *. set (k := fun w => nth i (K' w) []).
    assert (Hk : forall w, ok w -> rhs (t w + h w * c) (@vadd Rops (u w) (@vscale Rops (h w) (@lincomb Rops n a' (K w)))) = Ret (k w) /\
              stages_of (OT := Rops) rhs (t w) (u w) (h w) rows cs (K w ++ [k w]) (K' w)).
    { intros w Hw. specialize (Hs w Hw). destruct (LK w Hw) as (L1 & L2).
      apply stages_cons_inv in Hs as (k0 & Hk0 & St').
      destruct (stage_prefix _ _ _ _ _ _ _ St') as (r & Er).
      assert (Ek : k w = k0).
      { unfold k. rewrite Er. exact (nth_mid (K w) r k0 i L1). }
      rewrite Ek. split; [|exact St']. rewrite <- Hk0. f_equal. f_equal. f_equal. unfold a'.
      exact (f_equal2 (fun x z => @lincomb Rops x (firstn z a) (K w)) (eq_sym (u_len w Hw)) (eq_sym L1)). }
    assert (LY : forall w, ok w -> length (@vscale Rops (h w) (@lincomb Rops n a' (K w))) = n).
    { intros w Hw. apply vscale_len. apply lincomb_len. apply LK; auto. }
    cbn [sds length]. replace (i + Datatypes.S (length rows))%nat with (Datatypes.S i + length rows)%nat by lia.
    apply (IH cs (Datatypes.S i) (S ++ [next_sd (firstn (length S) a) c S]) (fun w => K w ++ [k w]) K'); auto; [|intros w Hw; apply Hk; auto].
    rewrite LS. fold a'. split; [rewrite app_length; cbn; lia|]. split.
    + intros w Hw. destruct (LK w Hw) as (L1 & L2). split; [rewrite app_length; cbn; lia|]. apply Forall_app. split; auto. constructor; auto.
      destruct (Hk w Hw) as (Hk1 & _). destruct HL as (_ & Kd & _). eapply Kd; [|exact Hk1]. apply vadd_len; auto. apply u_len; auto.
    + intros j b Hj Hb. destruct (Nat.eq_dec j i) as [->|Hne].
      * apply (big_ext ok h e 4 (fun w => cmp b (k w) - app (next_sd a' c S) b w)).
        { intros w Hw. destruct (LK w Hw) as (L1 & _). rewrite !app_nth2 by lia. rewrite L1, LS, Nat.sub_diag. reflexivity. }
        unfold next_sd.
        apply (stage_one c (dot a' (map s_c S) - c * c / 2) (dot a' (map (fun s => s_c s * s_c s / 2) S) - c * c * c / 6) (dot a' (map s_al S))
          (fun w => @vadd Rops (u w) (@vscale Rops (h w) (@lincomb Rops n a' (K w)))) k); auto.
        { intros w Hw. apply vadd_len; auto. apply u_len; auto. }
        { intros w Hw. apply Hk; auto. }
        clear b Hb Hj. intros b Hb.
        apply (big_ext ok h e 4 (fun w => (cmp b (u w) - cmp b (D 0%nat (t w))) +
          h w * (dot a' (map (fun k => cmp b k) (K w)) - dot a' (map (fun s => app s b w) S)) -
          (cmp b (D 0%nat (t w + h w * c)) - tpoly (fun m => dD (0 + m) b w) 4 (h w * c)) +
          h w ^ 4 * (dot a' (map (fun s => s_c s * s_c s * s_c s / 6) S) * dD 4 b w + dot a' (map (fun s => s_c s * s_al s) S) * J1m (dD 2) b w +
            dot a' (map s_be S) * Jm (dD 3) b w + dot a' (map s_ga S) * Jm (Jm (dD 2)) b w))).
        { intros w Hw. rewrite dot_app by lia. rewrite R2.
          rewrite (vadd_cmp n) by (auto; apply u_len; auto). rewrite vscale_cmp. rewrite lincomb_cmp by (auto; apply LK; auto).
          cbn [tpoly plus fact Nat.mul Nat.add]. replace (INR 6) with 6 by (cbn; lra). replace (INR 2) with 2 by (cbn; lra). replace (INR 1) with 1 by reflexivity.
          change (dD 0 b w) with (cmp b (D 0%nat (t w))). change (@nth (@T Rops) b (u w) 0) with (@nth R b (u w) 0). field. }
        apply big_add; [apply big_sub; [apply big_add|]|].
        -- apply (big_e ok h e Hh). intros w Hw. apply u_cmp; auto.
        -- apply big_mul; [apply (bdd_h ok h Hh)|]. apply (st_comb i); auto.
        -- apply (D_at 0 4 b c); auto; lia.
        -- apply (big_bdd ok h e Hh He). apply bdd_dot_app; auto.
      * apply (big_ext ok h e 4 (fun w => cmp b (nth j (K w) []) - app (nth j S sd0) b w)).
        { intros w Hw. destruct (LK w Hw) as (L1 & _). rewrite !app_nth1 by lia. reflexivity. }
        apply HK; auto. lia.
Qed.

(** the first stage *)
Lemma stage_first f : (forall w, ok w -> rhs (t w) (u w) = Ret (f w)) -> st_ok 1 (fun w => [f w]) [sd0].
Proof.
  intros Hf. split; [reflexivity|]. split.
  - intros w Hw. split; [reflexivity|]. constructor; auto. destruct HL as (_ & Kd & _). eapply Kd; [|apply Hf; exact Hw]. now apply u_len.
  - intros j a Hj Ha. assert (j = 0)%nat as -> by lia. cbn [nth].
    apply (stage_one 0 0 0 0 u f); auto.
    + lra.
    + exact u_len.
    + intros w Hw. rewrite Rmult_0_r, Rplus_0_r. auto.
    + clear a Ha. intros a Ha. apply (big_ext ok h e 4 (fun w => cmp a (u w) - cmp a (D 0%nat (t w)))).
      * intros w Hw. rewrite Rmult_0_r, Rplus_0_r. ring.
      * apply (big_e ok h e Hh). intros w Hw. apply u_cmp; auto.
Qed.

(** ** the result of the step *)
Definition conds (p : nat) (B : list R) (S : list sd) : Prop :=
  (sumR B = 1 /\ dot B (map s_c S) = 1 / 2) /\
  ((3 <= p)%nat -> dot B (map (fun s => s_c s * s_c s / 2) S) = 1 / 6 /\ dot B (map s_al S) = 0) /\
  ((4 <= p)%nat -> dot B (map (fun s => s_c s * s_c s * s_c s / 6) S) = 1 / 24 /\ dot B (map (fun s => s_c s * s_al s) S) = 0 /\
     dot B (map s_be S) = 0 /\ dot B (map s_ga S) = 0).
Lemma step4 p i B S K (u' : W -> list R) : (2 <= p <= 4)%nat -> conds p B S -> st_ok i K S -> length B = i ->
  (forall w b, ok w -> (b < n)%nat -> cmp b (u' w) = cmp b (u w) + h w * dot B (map (fun k => cmp b k) (K w))) ->
  forall b, (b < n)%nat ->
    big p (fun w => (cmp b (u' w) - cmp b (D 0%nat (t w + h w)) - (cmp b (u w) - cmp b (D 0%nat (t w)))) / h w).
Proof.
  intros Hp (C2 & C3 & C4) Hst LB Hu' b Hb. pose proof Hst as (LS & _ & _).
  set (rest := fun w => dot B (map (fun s => app s b w) S) - (dD 1 b w + h w * (1 / 2 * dD 2 b w) + h w ^ 2 * (1 / 6 * dD 3 b w) + h w ^ 3 * (1 / 24 * dD 4 b w))).
  assert (Hrest : big p rest).
  { set (r2 := fun w => (dot B (map (fun s => s_c s * s_c s / 2) S) - 1 / 6) * dD 3 b w + dot B (map s_al S) * Jm (dD 2) b w).
    set (r3 := fun w => (dot B (map (fun s => s_c s * s_c s * s_c s / 6) S) - 1 / 24) * dD 4 b w + dot B (map (fun s => s_c s * s_al s) S) * J1m (dD 2) b w +
      dot B (map s_be S) * Jm (dD 3) b w + dot B (map s_ga S) * Jm (Jm (dD 2)) b w).
    assert (B2 : bdd r2) by (unfold r2; bd). assert (B3 : bdd r3) by (unfold r3; bd).
    apply (big_ext ok h e p (fun w => h w ^ 2 * r2 w + h w ^ 3 * r3 w)).
    { intros w Hw. unfold rest. rewrite dot_app by lia. destruct C2 as (-> & ->). unfold r2, r3. ring. }
    assert (p = 2 \/ p = 3 \/ p = 4)%nat as [-> | [-> | ->]] by lia.
    - apply big_add; [apply (big_bdd ok h e Hh He); exact B2|apply (big_low ok h e Hh 3); [lia|apply (big_bdd ok h e Hh He); exact B3]].
    - destruct (C3 (le_n _)) as (E1 & E2). apply (big_ext ok h e 3 (fun w => h w ^ 3 * r3 w)).
      + intros w Hw. unfold r2. rewrite E1, E2. ring.
      + apply (big_bdd ok h e Hh He). exact B3.
    - destruct (C3 (le_S _ _ (le_n _))) as (E1 & E2). destruct (C4 (le_n _)) as (E3 & E4 & E5 & E6).
      apply (big_ext ok h e 4 (fun _ => 0)).
      + intros w Hw. unfold r2, r3. rewrite E1, E2, E3, E4, E5, E6. ring.
      + apply big_0. }
  apply (big_ext ok h e p (fun w => (dot B (map (fun k => cmp b k) (K w)) - dot B (map (fun s => app s b w) S)) + rest w -
    (cmp b (D 0%nat (t w + h w)) - tpoly (fun m => dD (0 + m) b w) 5 (h w)) / h w)).
  { intros w Hw. rewrite Hu' by auto. unfold rest. pose proof (Hh w Hw). cbn [tpoly plus fact Nat.mul Nat.add].
    replace (INR 24) with 24 by (cbn; lra). replace (INR 6) with 6 by (cbn; lra). replace (INR 2) with 2 by (cbn; lra). replace (INR 1) with 1 by reflexivity.
    change (dD 0 b w) with (cmp b (D 0%nat (t w))). field. lra. }
  apply big_sub; [apply big_add|].
  - apply (big_low ok h e Hh 4); [lia|]. apply (st_comb i); auto.
  - exact Hrest.
  - apply (big_low ok h e Hh 4); [lia|]. apply (big_rem ok h e He 4 _ Bd); auto. intros w Hw. pose proof (Hh w Hw) as Hw1. pose proof (Ht w Hw) as Hw2.
    unfold Rdiv. rewrite Rabs_mult, (Rabs_right (/ h w)) by (left; apply Rinv_0_lt_compat; lra).
    apply Rmult_le_reg_r with (h w); [lra|]. rewrite Rmult_assoc, Rinv_l, Rmult_1_r by lra.
    replace (Bd * h w ^ 4 * h w) with (Bd * h w ^ 5) by ring. apply (HDt 0 5 (t w) (h w) b); auto; lra || lia.
Qed.
(** ** dense output: a polynomial in the fraction of the step *)
Definition colc (p : nat) (B : list R) (S : list sd) (g1 g2 g3 g4 : R) : Prop :=
  sumR B = g1 /\ dot B (map s_c S) = g2 /\ dot B (map (fun s => s_c s * s_c s / 2) S) = g3 /\ dot B (map s_al S) = 0 /\
  ((4 <= p)%nat -> dot B (map (fun s => s_c s * s_c s * s_c s / 6) S) = g4 /\ dot B (map (fun s => s_c s * s_al s) S) = 0 /\
     dot B (map s_be S) = 0 /\ dot B (map s_ga S) = 0).
Lemma col4 p i B S K g1 g2 g3 g4 b : (3 <= p <= 4)%nat -> colc p B S g1 g2 g3 g4 -> st_ok i K S -> length B = i -> (b < n)%nat ->
  big p (fun w => dot B (map (fun k => cmp b k) (K w)) -
    (g1 * dD 1 b w + h w * (g2 * dD 2 b w) + h w ^ 2 * (g3 * dD 3 b w) + h w ^ 3 * (g4 * dD 4 b w))).
Proof.
  intros Hp (C1 & C2 & C3 & C3' & C4) Hst LB Hb. pose proof Hst as (LS & _ & _).
  set (r3 := fun w => (dot B (map (fun s => s_c s * s_c s * s_c s / 6) S) - g4) * dD 4 b w + dot B (map (fun s => s_c s * s_al s) S) * J1m (dD 2) b w +
      dot B (map s_be S) * Jm (dD 3) b w + dot B (map s_ga S) * Jm (Jm (dD 2)) b w).
  assert (B3 : bdd r3) by (unfold r3; bd).
  apply (big_ext ok h e p (fun w => (dot B (map (fun k => cmp b k) (K w)) - dot B (map (fun s => app s b w) S)) + h w ^ 3 * r3 w)).
  { intros w Hw. rewrite dot_app by lia. rewrite C1, C2, C3, C3'. unfold r3. ring. }
  apply big_add; [apply (big_low ok h e Hh 4); [lia|]; apply (st_comb i); auto|].
  assert (p = 3 \/ p = 4)%nat as [-> | ->] by lia.
  - apply (big_bdd ok h e Hh He). exact B3.
  - destruct (C4 (le_n _)) as (E3 & E4 & E5 & E6). apply (big_ext ok h e 4 (fun _ => 0)).
    + intros w Hw. unfold r3. rewrite E3, E4, E5, E6. ring.
    + apply big_0.
Qed.
Lemma dense4 p i B1 B2 B3 B4 S K (th : W -> R) (v : W -> list R) : (3 <= p <= 4)%nat -> (forall w, ok w -> 0 <= th w <= 1) ->
  colc p B1 S 1 0 0 0 -> colc p B2 S 0 (1 / 2) 0 0 -> colc p B3 S 0 0 (1 / 6) 0 -> colc p B4 S 0 0 0 (1 / 24) ->
  st_ok i K S -> length B1 = i -> length B2 = i -> length B3 = i -> length B4 = i ->
  (forall w b, ok w -> (b < n)%nat -> let d := fun B => dot B (map (fun k => cmp b k) (K w)) in
     cmp b (v w) = cmp b (u w) + h w * (th w * d B1 + th w ^ 2 * d B2 + th w ^ 3 * d B3 + th w ^ 4 * d B4)) ->
  forall b, (b < n)%nat ->
    big p (fun w => (cmp b (v w) - cmp b (D 0%nat (t w + th w * h w)) - (cmp b (u w) - cmp b (D 0%nat (t w)))) / h w).
Proof.
  intros Hp Hth C1 C2 C3 C4 Hst L1 L2 L3 L4 Hv b Hb.
  assert (Bth : forall k, bdd (fun w => th w ^ k)).
  { intros k. exists 1. split; [lra|]. intros w Hw. pose proof (Hth w Hw). rewrite Rabs_right; [|apply Rle_ge, pow_le; lra].
    rewrite <- (pow1 k). apply pow_incr. lra. }
  pose proof (col4 p i B1 S K _ _ _ _ b Hp C1 Hst L1 Hb) as Q1. pose proof (col4 p i B2 S K _ _ _ _ b Hp C2 Hst L2 Hb) as Q2.
  pose proof (col4 p i B3 S K _ _ _ _ b Hp C3 Hst L3 Hb) as Q3. pose proof (col4 p i B4 S K _ _ _ _ b Hp C4 Hst L4 Hb) as Q4.
  apply (big_mul ok h e p _ _ (Bth 1%nat)) in Q1. apply (big_mul ok h e p _ _ (Bth 2%nat)) in Q2.
  apply (big_mul ok h e p _ _ (Bth 3%nat)) in Q3. apply (big_mul ok h e p _ _ (Bth 4%nat)) in Q4.
  assert (Q5 : big p (fun w => (cmp b (D 0%nat (t w + th w * h w)) - tpoly (fun m => dD (0 + m) b w) 5 (th w * h w)) / h w)).
  { apply (big_low ok h e Hh 4); [lia|]. apply (big_rem ok h e He 4 _ Bd); auto. intros w Hw.
    pose proof (Hh w Hw) as Hw1. pose proof (Ht w Hw) as Hw2. pose proof (Hth w Hw) as Hw3.
    assert (T1 : 0 <= th w * h w) by (apply Rmult_le_pos; lra).
    assert (T2 : th w * h w <= 1 * h w) by (apply Rmult_le_compat_r; lra).
    unfold Rdiv. rewrite Rabs_mult, (Rabs_right (/ h w)) by (left; apply Rinv_0_lt_compat; lra).
    apply Rmult_le_reg_r with (h w); [lra|]. rewrite Rmult_assoc, Rinv_l, Rmult_1_r by lra.
    replace (Bd * h w ^ 4 * h w) with (Bd * h w ^ 5) by ring.
    eapply Rle_trans; [apply (HDt 0 5 (t w) (th w * h w) b); auto; lra || lia|].
    apply Rmult_le_compat_l; auto. apply pow_incr. lra. }
  pose proof (big_sub ok h e p _ _ (big_add ok h e p _ _ (big_add ok h e p _ _ (big_add ok h e p _ _ Q1 Q2) Q3) Q4) Q5) as Q.
  eapply (big_ext ok h e p); [|exact Q]. intros w Hw. cbv beta. rewrite Hv by auto. cbv zeta. pose proof (Hh w Hw).
  cbn [tpoly plus fact Nat.mul Nat.add].
  replace (INR 24) with 24 by (cbn; lra). replace (INR 6) with 6 by (cbn; lra). replace (INR 2) with 2 by (cbn; lra). replace (INR 1) with 1 by reflexivity.
  change (dD 0 b w) with (cmp b (D 0%nat (t w))). field. lra.
Qed.
End Step.
