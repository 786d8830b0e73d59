(** Order conditions of the tableaux in the source. *)
From Coq Require Import List ZArith QArith Bool Arith Lia Reals Lra Qreals.
From Verif Require Import Base Scalar Vec MBuffer MZeros MSteps MApi MDop853 MClasses Spec SpecInst PVecR PBound PMS SpecOrder POrd1.
Import ListNotations.
Open Scope R_scope.

(** ** rational tableaux *)
Definition qr (q : Q) : R := IZR (Qnum q) / IZR (Zpos (Qden q)).
Lemma qr_Q2R q : qr q = Q2R q. Proof. reflexivity. Qed.
Definition toZ (N : Z) (q : Q) : Z := (Qnum q * (N / Zpos (Qden q)))%Z.
Definition fits (N : Z) (q : Q) : bool := Z.eqb (N mod Zpos (Qden q)) 0.
Lemma toZ_qr N q : (0 < N)%Z -> fits N q = true -> IZR (toZ N q) / IZR N ^ 1 = qr q.
Proof.
  intros HN H. unfold fits in H. apply Z.eqb_eq in H. unfold toZ, qr.
  assert (E : N = (Zpos (Qden q) * (N / Zpos (Qden q)))%Z) by (apply Z.div_exact; [discriminate|exact H]).
  set (k := (N / Zpos (Qden q))%Z) in *. assert (Hk : (0 < k)%Z) by nia.
  rewrite E, !mult_IZR. cbn [pow]. assert (0 < IZR k) by now apply IZR_lt. assert (0 < IZR (Zpos (Qden q))) by now apply IZR_lt.
  field. lra.
Qed.
Lemma toZ_list N l : (0 < N)%Z -> forallb (fits N) l = true -> map (fun z => IZR z / IZR N ^ 1) (map (toZ N) l) = map qr l.
Proof.
  intros HN H. rewrite forallb_forall in H. rewrite map_map. apply map_ext_in. intros q Hq. apply toZ_qr; auto.
Qed.
Definition fits_all (N : Z) (A : list (list Q)) (B : list Q) : bool :=
  Z.ltb 0 N && forallb (forallb (fits N)) A && forallb (fits N) B.
Definition order_ok (N : Z) (p : nat) (A : list (list Q)) (B : list Q) (E : Z) : bool :=
  fits_all N A B && check_order (map (map (toZ N)) A) N p (map (toZ N) B) E.
Lemma order_ok_sound N p A B E : order_ok N p A B E = true ->
  (E = 0%Z -> has_order p (map (map qr) A) (map qr B)) /\
  ((0 < E)%Z -> has_order_within (/ IZR E) p (map (map qr) A) (map qr B)).
Proof.
  unfold order_ok, fits_all. rewrite !andb_true_iff. intros (((HN & HA) & HB) & HC). apply Z.ltb_lt in HN.
  assert (EA : map (map (fun z => IZR z / IZR N ^ 1)) (map (map (toZ N)) A) = map (map qr) A).
  { rewrite map_map. apply map_ext_in. intros a Ha. apply toZ_list; auto. rewrite forallb_forall in HA. auto. }
  assert (EB := toZ_list N B HN HB).
  split; intros HE t Ht; destruct (weight_bound _ N HN _ _ _ t HC Ht) as (H1 & H2); cbv zeta in H1, H2; rewrite EA, EB in *; auto.
Qed.

(** one tree, in rationals *)
Fixpoint dotQ (a b : list Q) : Q := match a, b with x :: a', y :: b' => Qred (x * y + dotQ a' b') | _, _ => 0%Q end.
Fixpoint stage_weightsQ (A : list (list Q)) (t : tree) : list Q :=
  match t with Node ts =>
    map (fun a => fold_right (fun c x => Qred (dotQ a (stage_weightsQ A c) * x)) 1%Q ts) A end.
Definition weightQ (A : list (list Q)) (B : list Q) (t : tree) : Q := dotQ B (stage_weightsQ A t).
Lemma dotQ_R a : forall b, dot (map qr a) (map qr b) = qr (dotQ a b).
Proof.
  induction a as [|x a IH]; intros [|y b]; cbn [map dot dotQ]; try (unfold qr; cbn; lra).
  rewrite IH. change qr with Q2R. rewrite (Qeq_eqR _ _ (Qred_correct _)), Q2R_plus, Q2R_mult. reflexivity.
Qed.
Section TreeInd.
Variable P : tree -> Prop.
Hypothesis H : forall ts, Forall P ts -> P (Node ts).
Fixpoint tree_ind' (t : tree) : P t :=
  match t with Node ts => H ts ((fix go (l : list tree) : Forall P l :=
    match l with [] => Forall_nil P | c :: l' => Forall_cons c (tree_ind' c) (go l') end) ts) end.
End TreeInd.
Lemma stage_weightsQ_R A t : stage_weights (map (map qr) A) t = map qr (stage_weightsQ A t).
Proof.
  induction t as [ts IH] using tree_ind'. cbn [stage_weights stage_weightsQ]. rewrite !map_map. apply map_ext. intros a.
  induction IH as [|c ts Hc _ IHl]; cbn [fold_right]; [unfold qr; cbn; lra|].
  rewrite Hc, dotQ_R, IHl. change qr with Q2R. rewrite (Qeq_eqR _ _ (Qred_correct _)), Q2R_mult. reflexivity.
Qed.
Lemma weightQ_R A B t : weight (map (map qr) A) (map qr B) t = qr (weightQ A B t).
Proof. unfold weight, weightQ. now rewrite stage_weightsQ_R, dotQ_R. Qed.

Fixpoint densityZ (t : tree) : Z :=
  match t with Node ts => (Z.of_nat (size t) * fold_right (fun c d => densityZ c * d) 1 ts)%Z end.
Lemma densityZ_R t : density t = IZR (densityZ t).
Proof.
  induction t as [ts IH] using tree_ind'. cbn [density densityZ]. rewrite mult_IZR, <- INR_IZR_INZ. f_equal.
  induction IH as [|c ts Hc _ IHl]; cbn [fold_right]; [reflexivity|]. now rewrite mult_IZR, Hc, IHl.
Qed.
Lemma size_density t : (0 < densityZ t)%Z.
Proof.
  induction t as [ts IH] using tree_ind'. cbn [densityZ]. apply Z.mul_pos_pos; [cbn [size]; lia|].
  induction IH as [|c ts Hc _ IHl]; cbn [fold_right]; [lia|]. now apply Z.mul_pos_pos.
Qed.
(** the defect of a tree exceeds e *)
Definition defect_gt (e : Q) (A : list (list Q)) (B : list Q) (t : tree) : bool :=
  negb (Qle_bool (Qabs.Qabs (weightQ A B t - (1 # Z.to_pos (densityZ t)))) e).
Lemma defect_R A B t : weight (map (map qr) A) (map qr B) t - / density t = Q2R (weightQ A B t - (1 # Z.to_pos (densityZ t))).
Proof.
  rewrite weightQ_R, Q2R_minus, densityZ_R. unfold Q2R at 2. cbn [Qnum Qden].
  rewrite Z2Pos.id by apply size_density. rewrite qr_Q2R. lra.
Qed.
Lemma defect_gt_sound e A B t : defect_gt e A B t = true ->
  Q2R e < Rabs (weight (map (map qr) A) (map qr B) t - / density t).
Proof.
  unfold defect_gt. rewrite defect_R. intros H. apply negb_true_iff in H.
  assert (L : (e < Qabs.Qabs (weightQ A B t - (1 # Z.to_pos (densityZ t))))%Q).
  { destruct (Qlt_le_dec e (Qabs.Qabs (weightQ A B t - (1 # Z.to_pos (densityZ t))))) as [l|l]; auto.
    apply Qle_bool_iff in l. congruence. }
  apply Qlt_Rlt in L.
  unfold Rabs. destruct (Rcase_abs _) as [n|n].
  - replace (- Q2R (weightQ A B t - (1 # Z.to_pos (densityZ t)))) with (Q2R (Qabs.Qabs (weightQ A B t - (1 # Z.to_pos (densityZ t))))); auto.
    rewrite (Qeq_eqR _ (- (weightQ A B t - (1 # Z.to_pos (densityZ t))))%Q); [apply Q2R_opp|].
    apply Qabs.Qabs_neg. apply Rle_Qle. unfold Q2R at 2. cbn. lra.
  - replace (Q2R (weightQ A B t - (1 # Z.to_pos (densityZ t)))) with (Q2R (Qabs.Qabs (weightQ A B t - (1 # Z.to_pos (densityZ t))))); auto.
    apply Qeq_eqR. apply Qabs.Qabs_pos. apply Rle_Qle. unfold Q2R at 1. cbn. lra.
Qed.
Lemma not_order p A B t : (size t <=? p)%nat && defect_gt 0 A B t = true -> ~ has_order p (map (map qr) A) (map qr B).
Proof.
  intros H Ho. apply andb_true_iff in H as (H1 & H2). apply Nat.leb_le in H1. apply defect_gt_sound in H2.
  rewrite (Ho t H1), Rminus_diag_eq, Rabs_R0 in H2 by reflexivity. unfold Q2R in H2. cbn in H2. lra.
Qed.

(** ** shape *)
Fixpoint lowerQ (i : nat) (A : list (list Q)) : bool :=
  match A with [] => true | a :: A' => forallb (Qeq_bool 0) (skipn i a) && lowerQ (S i) A' end.
Lemma qr_zero q : Qeq_bool 0 q = true -> qr q = 0.
Proof. intros H. apply Qeq_bool_iff in H. rewrite qr_Q2R, <- (Qeq_eqR _ _ H). unfold Q2R. cbn. lra. Qed.
Lemma skipn_nth {X} (d : X) i l : forall j, (i <= j)%nat -> nth j l d = nth (j - i) (skipn i l) d.
Proof.
  revert l. induction i as [|i IH]; intros l j Hj; [now rewrite Nat.sub_0_r|].
  destruct l as [|x l]; cbn [skipn]; [destruct j, (_ - _)%nat; reflexivity|].
  destruct j as [|j]; [lia|]. cbn [nth]. rewrite (IH l j) by lia. reflexivity.
Qed.
Lemma lowerQ_sound A : forall k, lowerQ k A = true -> forall i j, (k + i <= j)%nat -> nth j (nth i (map (map qr) A) []) 0 = 0.
Proof.
  induction A as [|a A IH]; intros k H i j Hj; [destruct i; destruct j; reflexivity|].
  cbn [lowerQ] in H. apply andb_true_iff in H as (H1 & H2). destruct i as [|i]; cbn [map nth].
  - rewrite (skipn_nth 0 k) by lia. destruct (Nat.lt_ge_cases (j - k) (length (skipn k (map qr a)))) as [l|l]; [|now rewrite nth_overflow].
    assert (F : Forall (fun x => x = 0) (skipn k (map qr a))).
    { clear - H1. rewrite forallb_forall in H1. apply Forall_forall. intros x Hx.
      rewrite skipn_map' in Hx. apply in_map_iff in Hx as (q & <- & Hq). apply qr_zero. auto. }
    rewrite Forall_forall in F. apply F. now apply nth_In.
  - apply (IH (S k)); auto. lia.
Qed.
Definition sumQ (a : list Q) : Q := fold_right Qplus 0%Q a.
Lemma sumQ_R a : fold_right Rplus 0 (map qr a) = qr (sumQ a).
Proof. induction a as [|x a IH]; cbn [map fold_right sumQ]; [unfold qr; cbn; lra|]. rewrite IH. rewrite !qr_Q2R, <- Q2R_plus. reflexivity. Qed.
Fixpoint rowsumQ (C : list Q) (A : list (list Q)) : bool :=
  match C, A with [], [] => true | c :: C', a :: A' => Qeq_bool c (sumQ a) && rowsumQ C' A' | _, _ => false end.
Lemma rowsumQ_sound C : forall A, rowsumQ C A = true -> row_sums (map (map qr) A) (map qr C).
Proof.
  unfold row_sums. induction C as [|c C IH]; intros [|a A] H; cbn [rowsumQ] in H; try discriminate; [reflexivity|].
  apply andb_true_iff in H as (H1 & H2). cbn [map]. f_equal; [|now apply IH].
  rewrite sumQ_R, !qr_Q2R. apply Qeq_eqR. now apply Qeq_bool_iff.
Qed.
Fixpoint rowsumQ_within (e : Q) (C : list Q) (A : list (list Q)) : bool :=
  match C, A with [], [] => true
  | c :: C', a :: A' => Qle_bool (c - sumQ a) e && Qle_bool (- e) (c - sumQ a) && rowsumQ_within e C' A' | _, _ => false end.
Lemma rowsumQ_within_sound e C : forall A, rowsumQ_within e C A = true -> row_sums_within (Q2R e) (map (map qr) A) (map qr C).
Proof.
  unfold row_sums_within. induction C as [|c C IH]; intros [|a A] H; cbn [rowsumQ_within] in H; try discriminate; [constructor|].
  apply andb_true_iff in H as (H & H2). apply andb_true_iff in H as (H1 & H0). cbn [map]. constructor; [|now apply IH].
  apply Qle_bool_iff, Qle_Rle in H1. apply Qle_bool_iff, Qle_Rle in H0. rewrite Q2R_minus in *. rewrite Q2R_opp in H0.
  rewrite sumQ_R. change qr with Q2R. apply Rabs_le. lra.
Qed.
