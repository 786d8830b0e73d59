(** Vectors over the reals, by components. *)
From Coq Require Import List ZArith QArith Bool Arith Lia Reals Lra.
From Verif Require Import Base Scalar Vec MBuffer Laws PBound.
Import ListNotations.
Open Scope R_scope.

(** component i of a vector *)
Notation cmp i v := (nth i v 0%R).

Lemma map2_length {A B C} (f : A -> B -> C) a : forall b, length (map2 f a b) = Nat.min (length a) (length b).
Proof. induction a; intros [|? b]; cbn; auto. Qed.
Lemma map2_nth {A B C} (f : A -> B -> C) a : forall b i da db dc, (i < length a)%nat -> (i < length b)%nat ->
  nth i (map2 f a b) dc = f (nth i a da) (nth i b db).
Proof.
  induction a as [|x a IH]; intros [|y b] [|i] da db dc H1 H2; cbn in *; try lia; auto.
  apply IH; lia.
Qed.

Section V.
Variable n : nat.
Notation vec := (@vec Rops).
Implicit Types a b : vec.
Lemma vadd_len a b : length a = n -> length b = n -> length (vadd a b) = n.
Proof. unfold vadd. rewrite map2_length. lia. Qed.
Lemma vsub_len a b : length a = n -> length b = n -> length (vsub a b) = n.
Proof. unfold vsub. rewrite map2_length. lia. Qed.
Lemma vscale_len c a : length a = n -> length (vscale c a) = n.
Proof. unfold vscale. now rewrite map_length. Qed.
Lemma vzero_len : length (@vzero Rops n) = n.
Proof. apply repeat_length. Qed.
Lemma vadd_cmp a b i : length a = n -> length b = n -> (i < n)%nat ->
  cmp i (vadd a b) = cmp i a + cmp i b.
Proof.
  intros H1 H2 Hi. apply (map2_nth Rplus a b i 0 0 0);
  (eapply Nat.lt_le_trans; [exact Hi | apply Nat.eq_le_incl; symmetry; assumption]).
Qed.
Lemma vsub_cmp a b i : length a = n -> length b = n -> (i < n)%nat ->
  cmp i (vsub a b) = cmp i a - cmp i b.
Proof.
  intros H1 H2 Hi. apply (map2_nth Rminus a b i 0 0 0);
  (eapply Nat.lt_le_trans; [exact Hi | apply Nat.eq_le_incl; symmetry; assumption]).
Qed.
Lemma vscale_cmp c a i : cmp i (@vscale Rops c a) = c * cmp i a.
Proof.
  unfold vscale. revert i. induction a as [|x a IH]; intros [|i]; cbn; try lra; auto.
Qed.
Lemma vzero_cmp i : cmp i (@vzero Rops n) = 0.
Proof.
  unfold vzero. revert i. induction n as [|k IH]; intros [|i]; cbn; auto. apply zero_R.
Qed.
(** sum of products *)
Fixpoint dot (c d : list R) : R :=
  match c, d with x :: c', y :: d' => x * y + dot c' d' | _, _ => 0 end.
Lemma lincomb_acc_spec K : forall (c : list R) (acc : vec), length acc = n -> Forall (fun k => length k = n) K ->
  length (@lincomb_acc Rops acc c K) = n /\
  forall i, (i < n)%nat -> cmp i (@lincomb_acc Rops acc c K) = cmp i acc + dot c (map (fun k => cmp i k) K).
Proof.
  induction K as [|k K IH]; intros [|x c] acc Ha HK; cbn [lincomb_acc dot map];
    try (split; [auto|intros; lra]).
  assert (Hk : length k = n) by now inversion HK. assert (HK' : Forall (fun k => length k = n) K) by now inversion HK.
  destruct (IH c (vadd acc (@vscale Rops x k))) as (L & C); auto.
  { apply vadd_len; auto. now apply vscale_len. }
  split; auto. intros i Hi. rewrite C, vadd_cmp, vscale_cmp by (auto; now apply vscale_len). apply Rplus_assoc.
Qed.
Lemma lincomb_len c K : Forall (fun k => length k = n) K -> length (@lincomb Rops n c K) = n.
Proof. intros H. apply (lincomb_acc_spec K c (vzero n) vzero_len H). Qed.
Lemma lincomb_cmp c K i : Forall (fun k => length k = n) K -> (i < n)%nat ->
  cmp i (@lincomb Rops n c K) = dot c (map (fun k => cmp i k) K).
Proof.
  intros H Hi. unfold lincomb. rewrite (proj2 (lincomb_acc_spec K c (vzero n) vzero_len H)) by auto.
  rewrite vzero_cmp. lra.
Qed.
Lemma vec_ext a b : length a = n -> length b = n -> (forall i, (i < n)%nat -> cmp i a = cmp i b) -> a = b.
Proof. intros H1 H2 H. apply (nth_ext a b 0 0); [congruence|]. rewrite H1. auto. Qed.
End V.

#[global] Hint Resolve vadd_len vsub_len vscale_len vzero_len lincomb_len : vlen.
