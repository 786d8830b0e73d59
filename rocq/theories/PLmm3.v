(** Truncation error of linear multistep formulas. *)
From Coq Require Import List ZArith QArith Bool Arith Lia Reals Lra.
From Verif Require Import Base Scalar Vec MBuffer MZeros MSteps MApi MClasses Laws Spec SpecInst PBound PVecR SpecRK SpecMS PMS PMS2 PMS5 SpecConv PConv1 SpecConv3 PHi1 PHi3 PLmm1 PLmm2.
Import ListNotations.
Open Scope R_scope.

Lemma peval_app l a x : peval (l ++ [a]) x = peval l x + a * x ^ length l.
Proof. induction l as [|b l IH]; cbn [app peval length pow]; [lra|]. rewrite IH. ring. Qed.
Lemma peval_tpoly (d : nat -> R) x m : peval (map (fun q => d q / INR (fact q)) (seq 0 m)) x = tpoly d m x.
Proof.
  induction m as [|m IH]; [reflexivity|]. rewrite seq_S, map_app. cbn [map Nat.add]. rewrite peval_app, IH, map_length, seq_length. cbn [tpoly]. unfold Rdiv. ring.
Qed.
Lemma pder_from_seq (c : nat -> R) m : forall s, pder_from (INR s) (map c (seq s m)) = map (fun j => INR j * c j) (seq s m).
Proof. induction m as [|m IH]; intros s; [reflexivity|]. cbn [seq map pder_from]. f_equal. rewrite <- S_INR. apply IH. Qed.
Lemma pder_tpoly (d : nat -> R) x m : peval (pder (map (fun q => d q / INR (fact q)) (seq 0 (S m)))) x = tpoly (fun q => d (S q)) m x.
Proof.
  cbn [seq map pder]. replace 1 with (INR 1) by reflexivity. rewrite pder_from_seq, <- peval_tpoly. f_equal. rewrite <- seq_shift, map_map. apply map_ext. intros q.
  rewrite fact_simpl, mult_INR. field. split; [apply INR_fact_neq_0|apply not_0_INR; lia].
Qed.
Lemma dot_diff c {X} (f g : X -> R) b : 0 <= b -> forall l, (forall j, In j l -> Rabs (f j - g j) <= b) -> Rabs (dot c (map f l) - dot c (map g l)) <= sumA c * b.
Proof.
  intros Hb. induction c as [|x c IH]; intros [|j l] H; cbn [map dot]; rewrite ?sumA_cons.
  - rewrite Rminus_0_r, Rabs_R0. cbn. lra.
  - rewrite Rminus_0_r, Rabs_R0. cbn. lra.
  - rewrite Rminus_0_r, Rabs_R0. pose proof (Rabs_pos x). pose proof (sumA_pos c). apply Rmult_le_pos; lra.
  - replace (x * f j + dot c (map f l) - (x * g j + dot c (map g l))) with (x * (f j - g j) + (dot c (map f l) - dot c (map g l))) by ring.
    eapply Rle_trans; [apply Rabs_triang|]. rewrite Rabs_mult, Rmult_plus_distr_r. apply Rplus_le_compat.
    + apply Rmult_le_compat_l; [apply Rabs_pos|]. apply H. now left.
    + apply IH. intros i Hi. apply H. now right.
Qed.

Lemma truncation A B Bn k rhs n t0 te y : zero_stable A B Bn k -> t0 <= te -> Ck_solution (k + 1) rhs n t0 te y ->
  exists dy tau, 0 <= tau /\ (forall t, t0 <= t <= te -> length (y t) = n /\ rhs t (y t) = Ret (dy t) /\ length (dy t) = n) /\
  forall a h i, 0 <= h -> (i < n)%nat -> t0 <= a -> a + INR (length A) * h <= te ->
  Rabs (cmp i (y (a + INR (length A) * h)) + dot A (map (fun j => cmp i (y (a + INR j * h))) (seq 0 (length A)))
    - h * (dot B (map (fun j => cmp i (dy (a + INR j * h))) (seq 0 (length A))) + Bn * cmp i (dy (a + INR (length A) * h)))) <= tau * h ^ (k + 1).
Proof.
  intros (Hk & HA & LAB & _ & _ & X) Hte HC.
  destruct (taylor_facts (k + 1) rhs n t0 te y ltac:(lia) Hte HC) as (D & Bd & HB & D0 & DR & Dl & _ & Dt).
  set (N := length A) in *. exists (D 1%nat). exists (Bd * ((1 + sumA A) * INR N ^ (k + 1) + (sumA B + Rabs Bn) * INR N ^ k)).
  pose proof (sumA_pos A) as PA. pose proof (sumA_pos B) as PB. pose proof (Rabs_pos Bn) as PBn. pose proof (pos_INR N) as PN.
  assert (P1 : 0 <= INR N ^ (k + 1)) by (apply pow_le; lra). assert (P2 : 0 <= INR N ^ k) by (apply pow_le; lra).
  split; [|split].
  - apply Rmult_le_pos; [lra|]. apply Rplus_le_le_0_compat; apply Rmult_le_pos; lra.
  - intros t Ht. rewrite <- D0. split; [apply Dl; auto; lia|]. split; [now apply DR|]. apply Dl; auto; lia.
  - intros a h i Hh Hi Ha Hae. set (q := fun j => cmp i (D j a)).
    set (P := tpoly q (k + 1)). set (P' := tpoly (fun j => q (S j)) k).
    assert (R0 : forall j, (j <= N)%nat -> Rabs (cmp i (y (a + INR j * h)) - P (INR j * h)) <= Bd * (INR N * h) ^ (k + 1)).
    { intros j Hj. assert (Hjn : INR j <= INR N) by (apply le_INR; lia). pose proof (pos_INR j). assert (INR j * h <= INR N * h) by (apply Rmult_le_compat_r; lra).
      assert (0 <= INR j * h) by (apply Rmult_le_pos; lra). rewrite <- D0.
      eapply Rle_trans; [apply (Dt 0%nat (k + 1)%nat a (INR j * h) i); auto; lra|]. apply Rmult_le_compat_l; [lra|]. apply pow_incr. lra. }
    assert (R1 : forall j, (j <= N)%nat -> Rabs (cmp i (D 1%nat (a + INR j * h)) - P' (INR j * h)) <= Bd * (INR N * h) ^ k).
    { intros j Hj. assert (Hjn : INR j <= INR N) by (apply le_INR; lia). pose proof (pos_INR j). assert (INR j * h <= INR N * h) by (apply Rmult_le_compat_r; lra).
      assert (0 <= INR j * h) by (apply Rmult_le_pos; lra).
      eapply Rle_trans; [apply (Dt 1%nat k a (INR j * h) i); auto; lia || lra|]. apply Rmult_le_compat_l; [lra|]. apply pow_incr. lra. }
    assert (Ex : P (INR N * h) + dot A (map (fun j => P (INR j * h)) (seq 0 N)) = h * (dot B (map (fun j => P' (INR j * h)) (seq 0 N)) + Bn * P' (INR N * h))).
    { specialize (X (map (fun j => q j / INR (fact j)) (seq 0 (S k))) ((INR N - 1) * h) h). 
      assert (Dg : degree_le k (map (fun j => q j / INR (fact j)) (seq 0 (S k)))) by (unfold degree_le; rewrite map_length, seq_length; lia).
      specialize (X Dg). replace ((INR N - 1) * h + h) with (INR N * h) in X by ring. rewrite <- LAB in X.
      rewrite peval_tpoly, pder_tpoly in X. unfold P, P'. rewrite Nat.add_1_r. fold N in X.
      assert (Hpt : forall j, (j < N)%nat -> (INR N - 1) * h - INR (N - 1 - j) * h = INR j * h).
      { intros j Hj. rewrite !minus_INR by lia. cbn [INR]. ring. }
      etransitivity; [|etransitivity; [exact X|]].
      - f_equal. f_equal. apply map_ext_in. intros j Hj. apply in_seq in Hj. rewrite Hpt by lia. now rewrite peval_tpoly.
      - f_equal. f_equal. f_equal. apply map_ext_in. intros j Hj. apply in_seq in Hj. rewrite Hpt by lia. now rewrite pder_tpoly. }
    assert (PN0 : 0 <= Bd * (INR N * h) ^ (k + 1)) by (apply Rmult_le_pos; [lra|apply pow_le, Rmult_le_pos; lra]).
    assert (PN1 : 0 <= Bd * (INR N * h) ^ k) by (apply Rmult_le_pos; [lra|apply pow_le, Rmult_le_pos; lra]).
    assert (EA : Rabs (dot A (map (fun j => cmp i (y (a + INR j * h))) (seq 0 N)) - dot A (map (fun j => P (INR j * h)) (seq 0 N))) <= sumA A * (Bd * (INR N * h) ^ (k + 1))).
    { apply dot_diff; [exact PN0|]. intros j Hj. apply in_seq in Hj. apply R0. lia. }
    assert (EB : Rabs (dot B (map (fun j => cmp i (D 1%nat (a + INR j * h))) (seq 0 N)) - dot B (map (fun j => P' (INR j * h)) (seq 0 N))) <= sumA B * (Bd * (INR N * h) ^ k)).
    { apply dot_diff; [exact PN1|]. intros j Hj. apply in_seq in Hj. apply R1. lia. }
    specialize (R0 N (le_n _)). specialize (R1 N (le_n _)).
    set (u1 := cmp i (y (a + INR N * h))) in *. set (u2 := dot A (map (fun j => cmp i (y (a + INR j * h))) (seq 0 N))) in *.
    set (u3 := dot B (map (fun j => cmp i (D 1%nat (a + INR j * h))) (seq 0 N))) in *. set (u4 := cmp i (D 1%nat (a + INR N * h))) in *.
    set (v1 := P (INR N * h)) in *. set (v2 := dot A (map (fun j => P (INR j * h)) (seq 0 N))) in *.
    set (v3 := dot B (map (fun j => P' (INR j * h)) (seq 0 N))) in *. set (v4 := P' (INR N * h)) in *.
    match goal with |- _ <= ?r => change (Rabs (u1 + u2 - h * (u3 + Bn * u4)) <= r) end.
    assert (Eq : u1 + u2 - h * (u3 + Bn * u4) = (u1 - v1) + (u2 - v2) + - (h * ((u3 - v3) + Bn * (u4 - v4)))) by (clearbody u1 u2 u3 u4 v1 v2 v3 v4; lra).
    rewrite Eq.
    set (z0 := Bd * (INR N * h) ^ (k + 1)) in *. set (z1 := Bd * (INR N * h) ^ k) in *.
    assert (W1 : Rabs (h * ((u3 - v3) + Bn * (u4 - v4))) <= h * (sumA B * z1 + Rabs Bn * z1)).
    { rewrite Rabs_mult, (Rabs_pos_eq h) by exact Hh. apply Rmult_le_compat_l; [exact Hh|]. eapply Rle_trans; [apply Rabs_triang|]. apply Rplus_le_compat; [exact EB|].
      rewrite Rabs_mult. apply Rmult_le_compat_l; [exact PBn|exact R1]. }
    eapply Rle_trans; [apply Rabs_triang|]. rewrite Rabs_Ropp. eapply Rle_trans; [apply Rplus_le_compat; [apply Rabs_triang|exact W1]|].
    apply Rle_trans with (z0 + sumA A * z0 + h * (sumA B * z1 + Rabs Bn * z1)); [lra|]. right. unfold z0, z1.
    rewrite !Rpow_mult_distr. replace (h ^ (k + 1)) with (h * h ^ k) by (rewrite Nat.add_1_r; reflexivity). ring.
Qed.
