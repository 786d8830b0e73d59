(** Order laws of float comparisons.  They hold of IEEE binary64 including NaN,
    infinities and signed zeros, of the rationals and of the reals.
    [leb x x = true] says that x is not a NaN. *)
From Coq Require Import ZArith QArith Qcanon Reals Bool Lia Lra Floats.SpecFloat.
From Coq Require Import Psatz.
From Verif Require Import Base Scalar.

Class OrdLaws (O : Ops) : Prop := {
  ol_trans : forall x y z : T, leb x y = true -> leb y z = true -> leb x z = true;
  ol_lt_le : forall x y : T, ltb x y = true -> leb x y = true;
  ol_lt_le_trans : forall x y z : T, ltb x y = true -> leb y z = true -> ltb x z = true;
  ol_le_lt_trans : forall x y z : T, leb x y = true -> ltb y z = true -> ltb x z = true;
  ol_lt_nle : forall x y : T, ltb x y = true -> leb y x = false;
  ol_num_l : forall x y : T, leb x y = true -> leb x x = true;
  ol_num_r : forall x y : T, leb x y = true -> leb y y = true;
  ol_total : forall x y : T, leb x x = true -> leb y y = true -> leb x y = false -> ltb y x = true;
  ol_eqb : forall x y : T, eqb x y = leb x y && leb y x
}.

(** not a NaN *)
Definition num {O : Ops} (x : T) : Prop := leb x x = true.
Definition num_ext {O : Ops} (b : ext) : Prop := match b with Fin x => num x | PInf => True end.

Lemma Rltb_true x y : Rltb x y = true <-> (x < y)%R.
Proof. unfold Rltb; destruct (Rlt_dec x y); split; intros; try discriminate; auto. Qed.
Lemma Rltb_false x y : Rltb x y = false <-> (y <= x)%R.
Proof. unfold Rltb; destruct (Rlt_dec x y); split; intros; try discriminate; auto; lra. Qed.
Lemma Rleb_true x y : Rleb x y = true <-> (x <= y)%R.
Proof. unfold Rleb; destruct (Rle_dec x y); split; intros; try discriminate; auto. Qed.
Lemma Rleb_false x y : Rleb x y = false <-> (y < x)%R.
Proof. unfold Rleb; destruct (Rle_dec x y); split; intros; try discriminate; auto; lra. Qed.
Lemma Reqb_true x y : Reqb x y = true <-> x = y.
Proof. unfold Reqb; destruct (Req_EM_T x y); split; intros; try discriminate; auto; contradiction. Qed.
Lemma Reqb_false x y : Reqb x y = false <-> x <> y.
Proof. unfold Reqb; destruct (Req_EM_T x y); split; intros; try discriminate; auto; contradiction. Qed.

Global Instance Rops_ord : OrdLaws Rops.
Proof.
  constructor; cbn; intros.
  - rewrite Rleb_true in *; lra.
  - rewrite Rltb_true, Rleb_true in *; lra.
  - rewrite Rltb_true, Rleb_true in *; lra.
  - rewrite Rltb_true, Rleb_true in *; lra.
  - rewrite Rltb_true in *; rewrite Rleb_false; lra.
  - rewrite Rleb_true in *; lra.
  - rewrite Rleb_true in *; lra.
  - rewrite Rleb_false in *; rewrite Rltb_true; lra.
  - destruct (Reqb x y) eqn:e.
    + apply Reqb_true in e; subst. symmetry; apply andb_true_iff; split; apply Rleb_true; lra.
    + apply Reqb_false in e. symmetry; apply andb_false_iff.
      destruct (Rle_dec x y); [right | left]; apply Rleb_false; lra.
Qed.

Lemma Qcltb_true x y : Qcltb x y = true <-> (x < y)%Q.
Proof.
  unfold Qcltb. rewrite negb_true_iff. split; intros H.
  - apply Qnot_le_lt. intro. apply Qle_bool_iff in H0. congruence.
  - destruct (Qle_bool y x) eqn:e; auto. apply Qle_bool_iff in e. exfalso; lra.
Qed.
Lemma Qcltb_false x y : Qcltb x y = false <-> (y <= x)%Q.
Proof.
  unfold Qcltb. rewrite negb_false_iff. apply Qle_bool_iff.
Qed.
Lemma Qcleb_true x y : Qcleb x y = true <-> (x <= y)%Q.
Proof. apply Qle_bool_iff. Qed.
Lemma Qcleb_false x y : Qcleb x y = false <-> (y < x)%Q.
Proof.
  unfold Qcleb. split; intros H.
  - apply Qnot_le_lt; intro. apply Qle_bool_iff in H0. congruence.
  - destruct (Qle_bool x y) eqn:e; auto. apply Qle_bool_iff in e. exfalso; lra.
Qed.

Global Instance Qcops_ord sq pw : OrdLaws (Qcops sq pw).
Proof.
  constructor; cbn; intros.
  - rewrite Qcleb_true in *; lra.
  - rewrite Qcltb_true, Qcleb_true in *; lra.
  - rewrite Qcltb_true, Qcleb_true in *; lra.
  - rewrite Qcltb_true, Qcleb_true in *; lra.
  - rewrite Qcltb_true in *; rewrite Qcleb_false; lra.
  - rewrite Qcleb_true in *; lra.
  - rewrite Qcleb_true in *; lra.
  - rewrite Qcleb_false in *; rewrite Qcltb_true; lra.
  - unfold Qceqb. destruct (Qeq_bool x y) eqn:e.
    + apply Qeq_bool_iff in e. symmetry; apply andb_true_iff; split; apply Qcleb_true; lra.
    + apply Qeq_bool_neq in e. symmetry; apply andb_false_iff.
      destruct (Qlt_le_dec x y); [right | left]; apply Qcleb_false; try lra.
Qed.

(** A numerical key for the comparison order of [SFcompare]. *)
Definition sf_rank (x : spec_float) : Z * (Z * Z) :=
  match x with
  | S754_nan => (0, (0, 0))%Z
  | S754_infinity true => (-2, (0, 0))%Z
  | S754_infinity false => (2, (0, 0))%Z
  | S754_zero _ => (0, (0, 0))%Z
  | S754_finite true m e => (-1, (-e, - Zpos m))%Z
  | S754_finite false m e => (1, (e, Zpos m))%Z
  end.
Definition rank_lt (a b : Z * (Z * Z)) : Prop :=
  (fst a < fst b \/ fst a = fst b /\
   (fst (snd a) < fst (snd b) \/ fst (snd a) = fst (snd b) /\ snd (snd a) < snd (snd b)))%Z.
Definition is_nan_sf (x : spec_float) : bool := match x with S754_nan => true | _ => false end.

Lemma SFcompare_spec x y :
  is_nan_sf x = false -> is_nan_sf y = false ->
  match SFcompare x y with
  | Some Lt => rank_lt (sf_rank x) (sf_rank y)
  | Some Eq => sf_rank x = sf_rank y
  | Some Gt => rank_lt (sf_rank y) (sf_rank x)
  | None => False
  end.
Proof.
  destruct x as [sx|sx| |sx mx ex], y as [sy|sy| |sy my ey]; cbn; intros Hx Hy; try discriminate;
    try destruct sx; try destruct sy; cbn; unfold rank_lt; cbn; try lia; auto.
  - destruct (Z.compare ex ey) eqn:e.
    + apply Z.compare_eq in e; subst.
      change (Pos.compare_cont Eq mx my) with (Pos.compare mx my).
      destruct (Pos.compare mx my) eqn:e; cbn.
      * apply Pos.compare_eq in e; subst; auto.
      * rewrite Pos.compare_lt_iff in e. rewrite <- ?Pos2Z.opp_pos. lia.
      * rewrite Pos.compare_gt_iff in e. rewrite <- ?Pos2Z.opp_pos. lia.
    + rewrite Z.compare_lt_iff in e; lia.
    + rewrite Z.compare_gt_iff in e; lia.
  - destruct (Z.compare ex ey) eqn:e.
    + apply Z.compare_eq in e; subst.
      change (Pos.compare_cont Eq mx my) with (Pos.compare mx my).
      destruct (Pos.compare mx my) eqn:e; cbn.
      * apply Pos.compare_eq in e; subst; auto.
      * rewrite Pos.compare_lt_iff in e. rewrite <- ?Pos2Z.opp_pos. lia.
      * rewrite Pos.compare_gt_iff in e. rewrite <- ?Pos2Z.opp_pos. lia.
    + rewrite Z.compare_lt_iff in e; lia.
    + rewrite Z.compare_gt_iff in e; lia.
Qed.

Lemma SFcompare_nan_l y : SFcompare S754_nan y = None. Proof. now destruct y. Qed.
Lemma SFcompare_nan_r x : SFcompare x S754_nan = None. Proof. now destruct x as [|[]| |[]]. Qed.

Lemma SFltb_true x y : SFltb x y = true <->
  is_nan_sf x = false /\ is_nan_sf y = false /\ rank_lt (sf_rank x) (sf_rank y).
Proof.
  unfold SFltb. destruct (is_nan_sf x) eqn:hx.
  { destruct x; try discriminate. rewrite SFcompare_nan_l. split; [discriminate | intros (h & _); discriminate]. }
  destruct (is_nan_sf y) eqn:hy.
  { destruct y; try discriminate. rewrite SFcompare_nan_r. split; [discriminate | intros (_ & h & _); discriminate]. }
  pose proof (SFcompare_spec x y hx hy) as H.
  destruct (SFcompare x y) as [[]|]; try contradiction; split; intros A; try discriminate; auto.
  - destruct A as (_ & _ & A). rewrite H in A. unfold rank_lt in A. lia.
  - destruct A as (_ & _ & A). unfold rank_lt in *. lia.
Qed.
Lemma SFleb_true x y : SFleb x y = true <->
  is_nan_sf x = false /\ is_nan_sf y = false /\
  (rank_lt (sf_rank x) (sf_rank y) \/ sf_rank x = sf_rank y).
Proof.
  unfold SFleb. destruct (is_nan_sf x) eqn:hx.
  { destruct x; try discriminate. rewrite SFcompare_nan_l. split; [discriminate | intros (h & _); discriminate]. }
  destruct (is_nan_sf y) eqn:hy.
  { destruct y; try discriminate. rewrite SFcompare_nan_r. split; [discriminate | intros (_ & h & _); discriminate]. }
  pose proof (SFcompare_spec x y hx hy) as H.
  destruct (SFcompare x y) as [[]|]; try contradiction; split; intros A; try discriminate; auto.
  destruct A as (_ & _ & [A|A]); [unfold rank_lt in *; lia | rewrite A in H; unfold rank_lt in H; lia].
Qed.
Lemma SFeqb_true x y : SFeqb x y = true <->
  is_nan_sf x = false /\ is_nan_sf y = false /\ sf_rank x = sf_rank y.
Proof.
  unfold SFeqb. destruct (is_nan_sf x) eqn:hx.
  { destruct x; try discriminate. rewrite SFcompare_nan_l. split; [discriminate | intros (h & _); discriminate]. }
  destruct (is_nan_sf y) eqn:hy.
  { destruct y; try discriminate. rewrite SFcompare_nan_r. split; [discriminate | intros (_ & h & _); discriminate]. }
  pose proof (SFcompare_spec x y hx hy) as H.
  destruct (SFcompare x y) as [[]|]; try contradiction; split; intros A; try discriminate; auto;
  destruct A as (_ & _ & A); rewrite A in H; unfold rank_lt in H; lia.
Qed.

Lemma rank_eq (a b : Z * (Z * Z)) :
  a = b <-> fst a = fst b /\ fst (snd a) = fst (snd b) /\ snd (snd a) = snd (snd b).
Proof. destruct a as (?&?&?), b as (?&?&?); cbn; intuition congruence. Qed.

Global Instance SFops_ord pw : OrdLaws (SFops pw).
Proof.
  constructor; cbn; intros;
    repeat match goal with
    | H : SFleb _ _ = true |- _ => apply SFleb_true in H as (? & ? & H)
    | H : SFltb _ _ = true |- _ => apply SFltb_true in H as (? & ? & H)
    end; rewrite ?rank_eq in *; unfold rank_lt in *;
    try (apply SFleb_true; rewrite ?rank_eq; unfold rank_lt; repeat split; auto; lia);
    try (apply SFltb_true; unfold rank_lt; repeat split; auto; lia).
  - destruct (SFleb y x) eqn:e; auto. apply SFleb_true in e as (? & ? & e).
    rewrite ?rank_eq in e; unfold rank_lt in e. rewrite <- ?Pos2Z.opp_pos. lia.
  - apply SFltb_true; repeat split; auto.
    destruct (SFleb x y) eqn:e; try discriminate.
    assert (~ (rank_lt (sf_rank x) (sf_rank y) \/ sf_rank x = sf_rank y)).
    { intro h. assert (SFleb x y = true) by (apply SFleb_true; auto). congruence. }
    rewrite ?rank_eq in *; unfold rank_lt in *. lia.
  - destruct (SFeqb x y) eqn:e.
    + apply SFeqb_true in e as (? & ? & e). symmetry; apply andb_true_iff; split;
        apply SFleb_true; repeat split; auto.
    + symmetry; apply andb_false_iff.
      destruct (SFleb x y) eqn:e1; auto. destruct (SFleb y x) eqn:e2; auto.
      apply SFleb_true in e1 as (? & ? & e1). apply SFleb_true in e2 as (_ & _ & e2).
      rewrite ?rank_eq in *; unfold rank_lt in *.
      assert (SFeqb x y = true) by (apply SFeqb_true; rewrite ?rank_eq; repeat split; auto; lia).
      congruence.
Qed.

Section Derived.
Context {O : Ops} {L : OrdLaws O}.
Lemma lt_irrefl (x : T) : ltb x x = false.
Proof. destruct (ltb x x) eqn:e; auto. pose proof (ol_lt_nle _ _ e). apply ol_lt_le in e. congruence. Qed.
Lemma lt_num_l (x y : T) : ltb x y = true -> num x.
Proof. intros H. apply ol_lt_le in H. eapply ol_num_l; eauto. Qed.
Lemma lt_num_r (x y : T) : ltb x y = true -> num y.
Proof. intros H. apply ol_lt_le in H. eapply ol_num_r; eauto. Qed.
Lemma nlt_le (x y : T) : num x -> num y -> ltb x y = false -> leb y x = true.
Proof.
  intros hx hy H. destruct (leb y x) eqn:e; auto.
  rewrite (ol_total _ _ hy hx e) in H. discriminate.
Qed.
Lemma le_nlt (x y : T) : leb x y = true -> ltb y x = false.
Proof. intros H. destruct (ltb y x) eqn:e; auto. apply ol_lt_nle in e. congruence. Qed.
Lemma nle_lt (x y : T) : num x -> num y -> leb x y = false -> ltb y x = true.
Proof. apply ol_total. Qed.
Lemma eqb_true_le (x y : T) : eqb x y = true -> leb x y = true /\ leb y x = true.
Proof. rewrite ol_eqb. apply andb_true_iff. Qed.
Lemma lt_trans (x y z : T) : ltb x y = true -> ltb y z = true -> ltb x z = true.
Proof. intros. eapply ol_lt_le_trans; eauto. now apply ol_lt_le. Qed.
Lemma eqb_sym (x y : T) : eqb x y = eqb y x.
Proof. rewrite !ol_eqb. apply andb_comm. Qed.
End Derived.
