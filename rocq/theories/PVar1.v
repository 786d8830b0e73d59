(** Error of the dense output of a Runge-Kutta step of order three or four. *)
From Coq Require Import List ZArith QArith Bool Arith Lia Reals Lra Qreals.
From Verif Require Import Base Scalar Vec MBuffer MZeros MSteps MApi MDop853 MClasses Laws Spec SpecInst PVecR SpecRK SpecDense PDense PBound PMS PRK
  SpecConv PConv1 SpecConv3 PHi1 PHi2 PHi3.
Import ListNotations.
Open Scope R_scope.

Definition col (j : nat) (P : list (list R)) : list R := map (fun row => nth j row 0) P.
(** conditions on the tableau: [p] columns, those of the dense output reproduce the
    terms of the Taylor polynomial one by one *)
Definition tabd (p : nat) (A : list (list R)) (B C : list R) (P : list (list R)) : Prop :=
  (3 <= p <= 4)%nat /\ length P = S (length A) /\ A <> [] /\ length C = length A /\ length B = length A /\ Forall (fun row => length row = p) P /\
  rows4 1 (skipn 1 A ++ [B]) (skipn 1 C ++ [1]) /\
  let S := sds (skipn 1 A ++ [B]) (skipn 1 C ++ [1]) [sd0] in
  colc p (col 0 P) S 1 0 0 0 /\ colc p (col 1 P) S 0 (1 / 2) 0 0 /\ colc p (col 2 P) S 0 0 (1 / 6) 0 /\ colc p (col 3 P) S 0 0 0 (1 / 24).

(** ** checking rational tableaux by computation *)
Definition sdq : Type := (Q * Q * Q * Q)%type.
Definition qc (s : sdq) : Q := let '(c, _, _, _) := s in c.
Definition qal (s : sdq) : Q := let '(_, x, _, _) := s in x.
Definition qbe (s : sdq) : Q := let '(_, _, x, _) := s in x.
Definition qga (s : sdq) : Q := let '(_, _, _, x) := s in x.
Definition toR (s : sdq) : sd := mksd (Q2R (qc s)) (Q2R (qal s)) (Q2R (qbe s)) (Q2R (qga s)).
Fixpoint dotq (a l : list Q) : Q := match a, l with x :: a', y :: l' => Qred (x * y + dotq a' l') | _, _ => 0%Q end.
Definition sumq (l : list Q) : Q := fold_right (fun x y => Qred (x + y)) 0%Q l.
Definition sqq (s : sdq) : Q := Qred (qc s * qc s * (1 # 2)).
Definition cuq (s : sdq) : Q := Qred (qc s * qc s * qc s * (1 # 6)).
Definition caq (s : sdq) : Q := Qred (qc s * qal s).
Definition next_sdq (a : list Q) (c : Q) (S : list sdq) : sdq :=
  (c, Qred (dotq a (map qc S) - c * c * (1 # 2)), Qred (dotq a (map sqq S) - c * c * c * (1 # 6)), dotq a (map qal S)).
Fixpoint sdsq (rows : list (list Q)) (cs : list Q) (S : list sdq) : list sdq :=
  match rows, cs with
  | a :: rows', c :: cs' => sdsq rows' cs' (S ++ [next_sdq (firstn (length S) a) c S])
  | _, _ => S
  end.
Fixpoint rows4q (i : nat) (rows : list (list Q)) (cs : list Q) : bool :=
  match rows, cs with
  | [], [] => true
  | a :: rows', c :: cs' => Nat.eqb (length (firstn i a)) i && Qeq_bool (sumq (firstn i a)) c && Qle_bool 0 c && Qle_bool c 1 && rows4q (S i) rows' cs'
  | _, _ => false
  end.
Definition colcq (p : nat) (B : list Q) (S : list sdq) (g1 g2 g3 g4 : Q) : bool :=
  Qeq_bool (sumq B) g1 && Qeq_bool (dotq B (map qc S)) g2 && Qeq_bool (dotq B (map sqq S)) g3 && Qeq_bool (dotq B (map qal S)) 0 &&
  ((p <? 4)%nat || (Qeq_bool (dotq B (map cuq S)) g4 && Qeq_bool (dotq B (map caq S)) 0 && Qeq_bool (dotq B (map qbe S)) 0 && Qeq_bool (dotq B (map qga S)) 0)).
Definition sdq0 : sdq := (0, 0, 0, 0)%Q.
Definition qcol (j : nat) (P : list (list Q)) : list Q := map (fun row => nth j row 0%Q) P.
Definition tab4q (p : nat) (A : list (list Q)) (B C : list Q) : bool :=
  rows4q 1 (skipn 1 A) (skipn 1 C) && Nat.eqb (length B) (S (length (skipn 1 A))) &&
  colcq p B (sdsq (skipn 1 A) (skipn 1 C) [sdq0]) 1 (1 # 2) (1 # 6) (1 # 24).
Definition tabdq (p : nat) (A : list (list Q)) (B C : list Q) (P : list (list Q)) : bool :=
  Nat.eqb (length P) (S (length A)) && Nat.eqb (length C) (length A) && Nat.eqb (length B) (length A) && forallb (fun row => Nat.eqb (length row) p) P &&
  rows4q 1 (skipn 1 A ++ [B]) (skipn 1 C ++ [1%Q]) &&
  let S := sdsq (skipn 1 A ++ [B]) (skipn 1 C ++ [1%Q]) [sdq0] in
  colcq p (qcol 0 P) S 1 0 0 0 && colcq p (qcol 1 P) S 0 (1 # 2) 0 0 && colcq p (qcol 2 P) S 0 0 (1 # 6) 0 && colcq p (qcol 3 P) S 0 0 0 (1 # 24).

Lemma Q2R_red q : Q2R (Qred q) = Q2R q.
Proof. apply Qeq_eqR. apply Qred_correct. Qed.
Lemma Q2R_0 : Q2R 0 = 0. Proof. unfold Q2R. cbn. lra. Qed.
Lemma Q2R_1 : Q2R 1 = 1. Proof. unfold Q2R. cbn. lra. Qed.
Lemma Q2R_num z d : Q2R (z # d) = IZR z / IZR (Zpos d). Proof. reflexivity. Qed.
Lemma dotq_R a l : dot (map Q2R a) (map Q2R l) = Q2R (dotq a l).
Proof.
  revert l. induction a as [|x a IH]; intros [|y l]; cbn [map dot dotq]; try (symmetry; apply Q2R_0).
  rewrite Q2R_red, Q2R_plus, Q2R_mult, IH. reflexivity.
Qed.
Lemma dotq_map (F : sd -> R) (G : sdq -> Q) a S : (forall s, F (toR s) = Q2R (G s)) -> dot (map Q2R a) (map F (map toR S)) = Q2R (dotq a (map G S)).
Proof. intros H. rewrite <- dotq_R, !map_map. f_equal. apply map_ext. exact H. Qed.
Lemma sumq_R l : sumR (map Q2R l) = Q2R (sumq l).
Proof. induction l as [|x l IH]; cbn [map sumR sumq fold_right]; [symmetry; apply Q2R_0|]. rewrite Q2R_red, Q2R_plus. f_equal. exact IH. Qed.
Lemma sqq_R s : s_c (toR s) * s_c (toR s) / 2 = Q2R (sqq s).
Proof. unfold sqq. rewrite Q2R_red, !Q2R_mult, Q2R_num. cbn [toR s_c]. field. Qed.
Lemma cuq_R s : s_c (toR s) * s_c (toR s) * s_c (toR s) / 6 = Q2R (cuq s).
Proof. unfold cuq. rewrite Q2R_red, !Q2R_mult, Q2R_num. cbn [toR s_c]. field. Qed.
Lemma caq_R s : s_c (toR s) * s_al (toR s) = Q2R (caq s).
Proof. unfold caq. rewrite Q2R_red, !Q2R_mult. reflexivity. Qed.
Lemma next_sdq_R a c S : next_sd (map Q2R a) (Q2R c) (map toR S) = toR (next_sdq a c S).
Proof.
  unfold next_sd, next_sdq, toR at 4. cbn [qc qal qbe qga].
  rewrite (dotq_map s_c qc) by reflexivity. rewrite (dotq_map s_al qal) by reflexivity. rewrite (dotq_map _ sqq) by apply sqq_R.
  rewrite !Q2R_red, !Q2R_minus, !Q2R_mult, !Q2R_num. f_equal; field.
Qed.
Lemma sdsq_R rows : forall cs S, sds (map (map Q2R) rows) (map Q2R cs) (map toR S) = map toR (sdsq rows cs S).
Proof.
  induction rows as [|a rows IH]; intros [|c cs] S; cbn [map sds sdsq]; try reflexivity.
  rewrite <- IH. f_equal. rewrite map_length, map_app, firstn_map, next_sdq_R. reflexivity.
Qed.
Lemma rows4q_R rows : forall i cs, rows4q i rows cs = true -> rows4 i (map (map Q2R) rows) (map Q2R cs).
Proof.
  induction rows as [|a rows IH]; intros i [|c cs] H; cbn [map rows4 rows4q] in *; try discriminate; auto.
  apply andb_true_iff in H as (H & H5). apply andb_true_iff in H as (H & H4). apply andb_true_iff in H as (H & H3). apply andb_true_iff in H as (H1 & H2).
  apply Nat.eqb_eq in H1. apply Qeq_bool_eq, Qeq_eqR in H2. apply Qle_bool_iff, Qle_Rle in H3, H4. rewrite Q2R_0 in H3. rewrite Q2R_1 in H4.
  rewrite firstn_map, map_length, sumq_R. auto.
Qed.
Lemma colcq_R p B S g1 g2 g3 g4 : colcq p B S g1 g2 g3 g4 = true -> colc p (map Q2R B) (map toR S) (Q2R g1) (Q2R g2) (Q2R g3) (Q2R g4).
Proof.
  unfold colcq, colc. intros H.
  apply andb_true_iff in H as (H & H5). apply andb_true_iff in H as (H & H4). apply andb_true_iff in H as (H & H3). apply andb_true_iff in H as (H1 & H2).
  apply Qeq_bool_eq, Qeq_eqR in H1, H2, H3, H4. rewrite Q2R_0 in H4.
  rewrite sumq_R, (dotq_map s_c qc), (dotq_map s_al qal), (dotq_map _ sqq) by (reflexivity || apply sqq_R).
  split; [exact H1|]. split; [exact H2|]. split; [exact H3|]. split; [exact H4|]. intros Hp.
  apply orb_true_iff in H5 as [H5|H5]; [apply Nat.ltb_lt in H5; lia|].
  apply andb_true_iff in H5 as (H5 & K4). apply andb_true_iff in H5 as (H5 & K3). apply andb_true_iff in H5 as (K1 & K2).
  apply Qeq_bool_eq, Qeq_eqR in K1, K2, K3, K4. rewrite Q2R_0 in K2, K3, K4.
  rewrite (dotq_map s_be qbe), (dotq_map s_ga qga), (dotq_map _ cuq), (dotq_map _ caq) by (reflexivity || apply cuq_R || apply caq_R). auto.
Qed.
Lemma toR_0 : toR sdq0 = sd0.
Proof. unfold toR, sdq0, sd0. cbn [qc qal qbe qga]. now rewrite Q2R_0. Qed.
Lemma tab4q_R p A B C : (3 <= p <= 4)%nat -> tab4q p A B C = true -> tab4 p (map (map Q2R) A) (map Q2R B) (map Q2R C).
Proof.
  intros Hp H. unfold tab4q in H. apply andb_true_iff in H as (H & H3). apply andb_true_iff in H as (H1 & H2). apply Nat.eqb_eq in H2.
  unfold tab4. rewrite !skipn_map, !map_length. split; [lia|]. split; [apply rows4q_R; exact H1|]. split; [exact H2|].
  apply colcq_R in H3. rewrite <- sdsq_R in H3. cbn [map] in H3. rewrite toR_0 in H3. destruct H3 as (E1 & E2 & E3 & E4 & E5).
  rewrite Q2R_1 in E1. rewrite Q2R_num in E2, E3. unfold conds. split; [split; [exact E1|exact E2]|]. split; [intros _; split; [exact E3|exact E4]|].
  intros H4. specialize (E5 H4). rewrite Q2R_num in E5. exact E5.
Qed.
Lemma qcol_R j P : col j (map (map Q2R) P) = map Q2R (qcol j P).
Proof.
  unfold col, qcol. rewrite !map_map. apply map_ext. intros row. rewrite <- Q2R_0. apply map_nth.
Qed.
Lemma tabdq_R p A B C P : (3 <= p <= 4)%nat -> A <> [] -> tabdq p A B C P = true -> tabd p (map (map Q2R) A) (map Q2R B) (map Q2R C) (map (map Q2R) P).
Proof.
  intros Hp HA H. unfold tabdq in H. cbv zeta in H.
  apply andb_true_iff in H as (H & K4). apply andb_true_iff in K4 as (K3 & K4). apply andb_true_iff in K3 as (K2 & K3). apply andb_true_iff in K2 as (K1 & K2).
  apply andb_true_iff in H as (H & H5). apply andb_true_iff in H as (H & H4). apply andb_true_iff in H as (H & H3). apply andb_true_iff in H as (H1 & H2).
  apply Nat.eqb_eq in H1, H2, H3. rewrite forallb_forall in H4.
  apply colcq_R in K1, K2, K3, K4. apply rows4q_R in H5. rewrite <- sdsq_R in K1, K2, K3, K4.
  cbn [map] in K1, K2, K3, K4. rewrite !map_app in K1, K2, K3, K4, H5. rewrite <- !skipn_map in K1, K2, K3, K4, H5. cbn [map] in K1, K2, K3, K4, H5.
  rewrite toR_0, Q2R_1, <- qcol_R in K1, K2, K3, K4. rewrite Q2R_1 in H5. rewrite !Q2R_0 in K1, K2, K3, K4. rewrite Q2R_num in K2, K3, K4.
  unfold tabd. rewrite !map_length. split; [exact Hp|]. split; [exact H1|]. split; [destruct A; [congruence|discriminate]|]. split; [exact H2|]. split; [exact H3|].
  split. { apply Forall_map, Forall_forall. intros row Hr. rewrite map_length. apply Nat.eqb_eq. now apply H4. }
  split; [exact H5|]. cbv zeta. auto.
Qed.
Lemma litm_Q l : @litm Rops l = map (map Q2R) l. Proof. reflexivity. Qed.
Lemma lits_Q l : @lits Rops l = map Q2R l. Proof. reflexivity. Qed.
Lemma tabd_rk45 : match @RungeKutta45 Rops with Fsal A B C _ _ P => tab4 4 A B C /\ tabd 4 A B C P | _ => False end.
Proof.
  cbv beta iota delta [RungeKutta45]. rewrite !litm_Q, !lits_Q.
  split; [apply tab4q_R; [lia|vm_compute; reflexivity]|apply tabdq_R; [lia|discriminate|vm_compute; reflexivity]].
Qed.
Lemma tabd_rk23 : match @RungeKutta23 Rops with Fsal A B C _ _ P => tab4 3 A B C /\ tabd 3 A B C P | _ => False end.
Proof.
  cbv [RungeKutta23 rk23_B litm]. rewrite ?Rops_lits, ?Rops_over. cbn [map]. rewrite ?Rops_lits. cbn [map skipn Qnum Qden].
  split.
  - unfold tab4. cbn [skipn]. split; [lia|]. split; [cbn [rows4 firstn length sumR fold_right]; repeat split; lra|]. split; [reflexivity|].
    unfold conds, sds, next_sd, sd0; cbn [length firstn List.app map dot s_c s_al s_be s_ga sumR fold_right].
    split; [split; lra|]; split; intros Hp; try (exfalso; lia); repeat split; lra.
  - unfold tabd, col. cbn [skipn List.app map nth]. split; [lia|]. split; [reflexivity|]. split; [discriminate|]. split; [reflexivity|]. split; [reflexivity|].
    split; [repeat constructor|]. split; [cbn [rows4 firstn length sumR fold_right]; repeat split; lra|]. cbv zeta.
    unfold colc, sds, next_sd, sd0; cbn [length firstn List.app map dot s_c s_al s_be s_ga sumR fold_right].
    repeat (match goal with |- _ /\ _ => split end); try lra; intros Hp; exfalso; lia.
Qed.
