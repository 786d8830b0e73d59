(** Orders of magnitude and Taylor expansion. *)
From Coq Require Import List ZArith Bool Arith Lia Reals Lra.
From Verif Require Import Base Scalar Vec MBuffer MZeros MSteps MApi MClasses Laws Spec SpecInst PVecR SpecRK SpecConv PConv1 SpecConv3.
Import ListNotations.
Open Scope R_scope.

(** ** orders of magnitude in h, up to multiples of e, uniformly on a family of data *)
Section O.
Context {W : Type} (ok : W -> Prop) (h e : W -> R).
Hypothesis Hh : forall w, ok w -> 0 < h w <= 1.
Hypothesis He : forall w, ok w -> 0 <= e w.
Definition bdd (x : W -> R) : Prop := exists C, 0 <= C /\ forall w, ok w -> Rabs (x w) <= C.
Definition big (k : nat) (x : W -> R) : Prop := exists C, 0 <= C /\ forall w, ok w -> Rabs (x w) <= C * (e w + h w ^ k).
Lemma hk_pos k w : ok w -> 0 <= h w ^ k <= 1.
Proof.
  intros H. pose proof (Hh w H). split; [apply pow_le; lra|]. rewrite <- (pow1 k). apply pow_incr. lra.
Qed.
Lemma gk_pos k w : ok w -> 0 <= e w + h w ^ k.
Proof. intros H. pose proof (hk_pos k w H). pose proof (He w H). lra. Qed.
Lemma big_ext k x x' : (forall w, ok w -> x w = x' w) -> big k x -> big k x'.
Proof. intros H (C & HC & H1). exists C. split; auto. intros w Hw. rewrite <- H; auto. Qed.
Lemma bdd_ext x x' : (forall w, ok w -> x w = x' w) -> bdd x -> bdd x'.
Proof. intros H (C & HC & H1). exists C. split; auto. intros w Hw. rewrite <- H; auto. Qed.
Lemma big_add k x x' : big k x -> big k x' -> big k (fun w => x w + x' w).
Proof.
  intros (C & HC & H1) (C' & HC' & H1'). exists (C + C'). split; [lra|]. intros w Hw.
  eapply Rle_trans; [apply Rabs_triang|]. specialize (H1 w Hw). specialize (H1' w Hw). lra.
Qed.
Lemma bdd_add x x' : bdd x -> bdd x' -> bdd (fun w => x w + x' w).
Proof.
  intros (C & HC & H1) (C' & HC' & H1'). exists (C + C'). split; [lra|]. intros w Hw.
  eapply Rle_trans; [apply Rabs_triang|]. specialize (H1 w Hw). specialize (H1' w Hw). lra.
Qed.
Lemma big_mul k c x : bdd c -> big k x -> big k (fun w => c w * x w).
Proof.
  intros (C & HC & H1) (C' & HC' & H1'). exists (C * C'). split; [apply Rmult_le_pos; auto|]. intros w Hw.
  rewrite Rabs_mult, Rmult_assoc. apply Rmult_le_compat; auto using Rabs_pos.
Qed.
Lemma bdd_mul c x : bdd c -> bdd x -> bdd (fun w => c w * x w).
Proof.
  intros (C & HC & H1) (C' & HC' & H1'). exists (C * C'). split; [apply Rmult_le_pos; auto|]. intros w Hw.
  rewrite Rabs_mult. apply Rmult_le_compat; auto using Rabs_pos.
Qed.
Lemma bdd_const c : bdd (fun _ => c).
Proof. exists (Rabs c). split; [apply Rabs_pos|]. intros; lra. Qed.
Lemma bdd_h : bdd h.
Proof. exists 1. split; [lra|]. intros w Hw. specialize (Hh w Hw). rewrite Rabs_right; lra. Qed.
Lemma bdd_opp x : bdd x -> bdd (fun w => - x w).
Proof. intros (C & HC & H). exists C. split; auto. intros w Hw. rewrite Rabs_Ropp. auto. Qed.
Lemma big_opp k x : big k x -> big k (fun w => - x w).
Proof. intros (C & HC & H). exists C. split; auto. intros w Hw. rewrite Rabs_Ropp. auto. Qed.
Lemma big_sub k x x' : big k x -> big k x' -> big k (fun w => x w - x' w).
Proof. intros H H'. exact (big_add k _ _ H (big_opp k _ H')). Qed.
Lemma bdd_sub x x' : bdd x -> bdd x' -> bdd (fun w => x w - x' w).
Proof. intros H H'. exact (bdd_add _ _ H (bdd_opp _ H')). Qed.
Lemma big_low k k' x : (k' <= k)%nat -> big k x -> big k' x.
Proof.
  intros Hk (C & HC & H). exists C. split; auto. intros w Hw. eapply Rle_trans; [apply H; auto|].
  apply Rmult_le_compat_l; auto. apply Rplus_le_compat_l. replace k with (k' + (k - k'))%nat by lia. rewrite pow_add.
  pose proof (hk_pos k' w Hw). pose proof (hk_pos (k - k') w Hw). rewrite <- (Rmult_1_r (h w ^ k')) at 2. apply Rmult_le_compat_l; lra.
Qed.
Lemma big_h k x : big k x -> big (S k) (fun w => h w * x w).
Proof.
  intros (C & HC & H). exists C. split; auto. intros w Hw. specialize (H w Hw). pose proof (Hh w Hw). pose proof (He w Hw).
  rewrite Rabs_mult, (Rabs_right (h w)) by lra. cbn [pow].
  apply Rle_trans with (h w * (C * (e w + h w ^ k))); [apply Rmult_le_compat_l; lra|].
  assert (h w * (C * e w) <= 1 * (C * e w)) by (apply Rmult_le_compat_r; [apply Rmult_le_pos; lra|lra]). lra.
Qed.
Lemma big_bdd k x : bdd x -> big k (fun w => h w ^ k * x w).
Proof.
  intros (C & HC & H). exists C. split; auto. intros w Hw. specialize (H w Hw). pose proof (hk_pos k w Hw). pose proof (He w Hw).
  rewrite Rabs_mult, (Rabs_right (h w ^ k)) by lra. rewrite Rmult_comm.
  apply Rle_trans with (C * h w ^ k); [apply Rmult_le_compat_r; lra|]. apply Rmult_le_compat_l; lra.
Qed.
Lemma big_0 k : big k (fun _ => 0).
Proof. exists 0. split; [lra|]. intros. rewrite Rabs_R0. lra. Qed.
Lemma big_e k x : (forall w, ok w -> Rabs (x w) <= e w) -> big k x.
Proof.
  intros H. exists 1. split; [lra|]. intros w Hw. specialize (H w Hw). pose proof (hk_pos k w Hw). lra.
Qed.
Lemma big_rem k x C : 0 <= C -> (forall w, ok w -> Rabs (x w) <= C * h w ^ k) -> big k x.
Proof.
  intros HC H. exists C. split; auto. intros w Hw. specialize (H w Hw). pose proof (He w Hw).
  assert (0 <= C * e w) by (apply Rmult_le_pos; auto). lra.
Qed.
(** finite families *)
Lemma big_all k n (x : nat -> W -> R) : (forall i, (i < n)%nat -> big k (x i)) ->
  exists C, 0 <= C /\ forall i w, (i < n)%nat -> ok w -> Rabs (x i w) <= C * (e w + h w ^ k).
Proof.
  induction n as [|n IH]; intros H.
  - exists 0. split; [lra|]. intros; lia.
  - destruct IH as (C & HC & H1). { intros i Hi. apply H. lia. } destruct (H n ltac:(lia)) as (C' & HC' & H2).
    exists (C + C'). split; [lra|]. intros i w Hi Hw. pose proof (gk_pos k w Hw) as G.
    pose proof (Rmult_le_pos _ _ HC G). pose proof (Rmult_le_pos _ _ HC' G).
    destruct (Nat.eq_dec i n) as [->|Hn]; [specialize (H2 w Hw); lra|]. specialize (H1 i w ltac:(lia) Hw). lra.
Qed.
Lemma big_sum k n (x : nat -> W -> R) : (forall i, (i < n)%nat -> big k (x i)) ->
  big k (fun w => sumR (map (fun i => x i w) (seq 0 n))).
Proof.
  intros H. assert (G : forall l, (forall i, In i l -> big k (x i)) -> big k (fun w => sumR (map (fun i => x i w) l))).
  { induction l as [|i l IH]; intros Hl; cbn [map sumR fold_right]; [apply big_0|]. apply big_add; [apply Hl; now left|].
    apply IH. intros j Hj. apply Hl. now right. }
  apply G. intros i Hi. apply H. apply in_seq in Hi. lia.
Qed.
Lemma bdd_sum n (x : nat -> W -> R) : (forall i, (i < n)%nat -> bdd (x i)) ->
  bdd (fun w => sumR (map (fun i => x i w) (seq 0 n))).
Proof.
  intros H. assert (G : forall l, (forall i, In i l -> bdd (x i)) -> bdd (fun w => sumR (map (fun i => x i w) l))).
  { induction l as [|i l IH]; intros Hl; cbn [map sumR fold_right]; [apply bdd_const|]. apply bdd_add; [apply Hl; now left|].
    apply IH. intros j Hj. apply Hl. now right. }
  apply G. intros i Hi. apply H. apply in_seq in Hi. lia.
Qed.
(** a quantity bounded both linearly and quadratically in e + h^2 *)
Lemma big_square x C Q g : 0 <= C -> 0 <= Q -> (forall w, ok w -> 0 <= g w <= e w + h w ^ 2) ->
  (forall w, ok w -> Rabs (x w) <= C * g w) -> (forall w, ok w -> Rabs (x w) <= Q * (g w * g w)) -> big 4 x.
Proof.
  intros HC HQ Hg H1 H2. exists (2 * C + 4 * Q). split; [lra|]. intros w Hw. specialize (H1 w Hw). specialize (H2 w Hw).
  specialize (Hg w Hw). pose proof (He w Hw). pose proof (Hh w Hw). pose proof (hk_pos 2 w Hw) as P. pose proof (hk_pos 4 w Hw) as P4.
  replace (h w ^ 4) with (h w ^ 2 * h w ^ 2) in * by ring. set (a := h w ^ 2) in *. set (E := e w) in *. clearbody a E.
  destruct (Rle_dec E 1) as [HE|HE].
  - assert (g w * g w <= (E + a) * (E + a)) by (apply Rmult_le_compat; lra).
    assert (E * E <= 1 * E) by (apply Rmult_le_compat_r; lra).
    assert (E * a <= E * 1) by (apply Rmult_le_compat_l; lra).
    assert (g w * g w <= 4 * (E + a * a)) by lra.
    assert (Q * (g w * g w) <= Q * (4 * (E + a * a))) by (apply Rmult_le_compat_l; lra).
    assert (0 <= C * (E + a * a)) by (apply Rmult_le_pos; lra). lra.
  - assert (g w <= 2 * (E + a * a)) by lra. assert (C * g w <= C * (2 * (E + a * a))) by (apply Rmult_le_compat_l; lra).
    assert (0 <= Q * (E + a * a)) by (apply Rmult_le_pos; lra). lra.
Qed.
End O.

(** ** Taylor expansion *)
(** sum of d 0 / 0! + x d 1 / 1! + ... below degree k *)
Fixpoint tpoly (d : nat -> R) (k : nat) (x : R) : R :=
  match k with O => 0 | S k' => tpoly d k' x + d k' * (x ^ k' / INR (fact k')) end.
Lemma tpoly_0 d k : (0 < k)%nat -> tpoly d k 0 = d 0%nat.
Proof.
  induction k as [|k IH]; intros H; [lia|]. cbn [tpoly]. destruct k as [|k].
  - cbn. lra.
  - rewrite IH by lia. cbn [pow]. rewrite Rmult_0_l. unfold Rdiv. lra.
Qed.
Lemma tpoly_der d k x : derivable_pt_lim (tpoly d k) x (tpoly (fun j => d (S j)) (pred k) x).
Proof.
  induction k as [|k IH].
  - apply derivable_pt_lim_const.
  - cbn [tpoly pred]. destruct k as [|k].
    + cbn [tpoly pow fact]. apply (derivable_pt_lim_ext (fun _ => d 0%nat * (1 / INR 1))).
      * intros. cbn. lra.
      * apply derivable_pt_lim_const.
    + replace (tpoly (fun j => d (S j)) (S k) x) with (tpoly (fun j => d (S j)) k x + d (S k) * (x ^ k / INR (fact k))) by reflexivity.
      apply (derivable_pt_lim_plus (tpoly d (S k)) (fun x => d (S k) * (x ^ S k / INR (fact (S k))))); [exact IH|].
      apply (derivable_pt_lim_scal (fun x => x ^ S k / INR (fact (S k)))).
      apply (derivable_pt_lim_ext (mult_real_fct (/ INR (fact (S k))) (fun x => x ^ S k))).
      { intros z. unfold mult_real_fct. unfold Rdiv. apply Rmult_comm. }
      replace (x ^ k / INR (fact k)) with (/ INR (fact (S k)) * (INR (S k) * x ^ pred (S k))).
      * apply derivable_pt_lim_scal. apply derivable_pt_lim_pow.
      * rewrite fact_simpl, mult_INR. cbn [pred]. field. split; [apply INR_fact_neq_0|apply not_0_INR; lia].
Qed.
(** remainder on [t, t + x] when the derivative of order k is bounded *)
Lemma taylor_rem k : forall (d : nat -> R -> R) a b M, 0 <= M ->
  (forall j c, (j < k)%nat -> a <= c <= b -> derivable_pt_lim (d j) c (d (S j) c)) ->
  (forall c, a <= c <= b -> Rabs (d k c) <= M) ->
  forall t x, a <= t -> 0 <= x -> t + x <= b -> Rabs (d 0%nat (t + x) - tpoly (fun j => d j t) k x) <= M * x ^ k.
Proof.
  induction k as [|k IH]; intros d a b M HM Hd Hb t x Ht Hx Hte.
  - cbn. rewrite Rminus_0_r, Rmult_1_r. apply Hb. lra.
  - destruct (Rle_lt_or_eq_dec 0 x Hx) as [Hlt|<-].
    + specialize (IH (fun j => d (S j)) a b M HM).
      destruct (MVT_cor2 (fun z => d 0%nat (t + z) - tpoly (fun j => d j t) (S k) z)
        (fun z => d 1%nat (t + z) - tpoly (fun j => d (S j) t) k z) 0 x Hlt) as (c & Hc & Hc2).
      { intros c Hc. apply (derivable_pt_lim_minus (fun z => d 0%nat (t + z)) (tpoly (fun j => d j t) (S k))).
        - apply (derivable_pt_lim_ext (comp (d 0%nat) (fun z => t + z))); [reflexivity|].
          replace (d 1%nat (t + c)) with (d 1%nat (t + c) * (0 + 1)) by lra.
          apply derivable_pt_lim_comp; [|apply Hd; [lia|lra]].
          apply (derivable_pt_lim_plus (fun _ => t) (fun z => z)); [apply derivable_pt_lim_const|apply derivable_pt_lim_id].
        - apply (tpoly_der (fun j => d j t) (S k) c). }
      rewrite Rplus_0_r, tpoly_0 in Hc by lia.
      replace (d 0%nat (t + x) - tpoly (fun j => d j t) (S k) x) with ((d 1%nat (t + c) - tpoly (fun j => d (S j) t) k c) * (x - 0)) by lra.
      rewrite Rabs_mult, (Rabs_right (x - 0)) by lra.
      assert (G : Rabs (d 1%nat (t + c) - tpoly (fun j => d (S j) t) k c) <= M * c ^ k).
      { apply IH; try lra; [intros j z Hj; apply Hd; lia|exact Hb]. }
      assert (c ^ k <= x ^ k) by (apply pow_incr; lra).
      assert (M * c ^ k <= M * x ^ k) by (apply Rmult_le_compat_l; lra).
      replace (M * x ^ S k) with (M * x ^ k * (x - 0)) by (cbn [pow]; ring). apply Rmult_le_compat_r; lra.
    + rewrite Rplus_0_r, tpoly_0 by lia. rewrite Rminus_diag_eq, Rabs_R0 by reflexivity. apply Rmult_le_pos; [exact HM|apply pow_le; lra].
Qed.
