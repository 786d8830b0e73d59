(** Accuracy of DOP853: its coefficients. *)
From Coq Require Import List ZArith QArith Bool Arith Lia Reals Lra Qreals Qabs.
From Verif Require Import Base Scalar Vec MBuffer MZeros MSteps MApi MDop853 MClasses Laws Spec SpecInst
  PStep PHist PBound PVecR SpecRK PDim SpecMS SpecDense PDense SpecConv PConv1 PConv2 PConv6 SpecVar PHi1 PHi2 PHi3 PHi4 POrd2 PCap PDcv1 PDcv2.
Import ListNotations.
Open Scope R_scope.

Definition dA : list (list R) := map (firstn 12) (firstn 12 (@litm Rops dop_A)).
Definition dB : list R := @dop_B Rops.
Definition dC : list R := firstn 12 (@lits Rops dop_C).
Definition A8 : list (list Q) := map (firstn 12) (firstn 12 dop_A).
Definition B8 : list Q := firstn 12 (nth 12 dop_A []).
Definition C8 : list Q := firstn 12 dop_C.
Lemma dA_qr : dA = map (map qr) A8. Proof. reflexivity. Qed.
Lemma dB_qr : dB = map qr B8. Proof. reflexivity. Qed.
Lemma dC_qr : dC = map qr C8. Proof. reflexivity. Qed.
Lemma Af_qr : @litm Rops dop_A = map (map qr) dop_A. Proof. reflexivity. Qed.
Lemma Cf_qr : @lits Rops dop_C = map qr dop_C. Proof. reflexivity. Qed.

(** sums of rationals *)
Definition absQ (l : list Q) : Q := fold_right (fun x s => Qabs x + s)%Q 0%Q l.
Definition sumQ (l : list Q) : Q := fold_right Qplus 0%Q l.
Lemma qabs_R q : Rabs (qr q) = qr (Qabs q).
Proof.
  destruct q as [a b]. unfold qr, Qabs. cbn [Qnum Qden]. rewrite abs_IZR. unfold Rdiv. rewrite Rabs_mult. f_equal. apply Rabs_right.
  left. apply Rinv_0_lt_compat. apply IZR_lt. reflexivity.
Qed.
Lemma qr_plus a b : qr (a + b) = qr a + qr b. Proof. change qr with Q2R. apply Q2R_plus. Qed.
Lemma sumA_q l : sumA (map qr l) = qr (absQ l).
Proof. induction l as [|x l IH]; [unfold qr; cbn; lra|]. cbn [map absQ fold_right]. fold (absQ l). rewrite sumA_cons, IH, qabs_R, qr_plus. reflexivity. Qed.
Lemma sumR_q l : sumR (map qr l) = qr (sumQ l).
Proof. induction l as [|x l IH]; [unfold qr; cbn; lra|]. cbn [map sumQ fold_right]. fold (sumQ l). rewrite sumR_cons, IH, qr_plus. reflexivity. Qed.
Lemma qr_leb a b : Qle_bool a b = true -> qr a <= qr b.
Proof. intros H. apply Qle_bool_iff in H. change qr with Q2R. now apply Qle_Rle. Qed.
Fixpoint rows_b (al : Q) (i : nat) (rows : list (list Q)) (cs : list Q) : bool :=
  match rows, cs with
  | [], [] => true
  | a :: rows', c :: cs' => Nat.eqb (length (firstn i a)) i && Qle_bool (absQ (firstn i a)) al && (Qle_bool 0 c && Qle_bool c 1) && rows_b al (S i) rows' cs'
  | _, _ => false
  end.
Lemma rows_q al rows : forall i cs, rows_b al i rows cs = true -> rows_w (qr al) i (map (map qr) rows) (map qr cs).
Proof.
  induction rows as [|a rows IH]; intros i [|c cs] H; cbn [rows_b] in H; try discriminate; [exact I|].
  apply andb_true_iff in H as (H & H4). apply andb_true_iff in H as (H & H3). apply andb_true_iff in H as (H1 & H2). apply andb_true_iff in H3 as (H3 & H3').
  cbn [map rows_w]. rewrite firstn_map, map_length, sumA_q. split; [now apply Nat.eqb_eq|]. split; [now apply qr_leb|]. split; [|now apply IH].
  apply qr_leb in H3, H3'. change (qr 0) with (Q2R 0) in H3. change (qr 1) with (Q2R 1) in H3'. rewrite RMicromega.Q2R_0 in H3. rewrite RMicromega.Q2R_1 in H3'. split; [exact H3|exact H3'].
Qed.
Definition a97 : Q := 97 # 1.
Lemma a97_R : qr a97 = 97. Proof. unfold qr, a97. cbn. lra. Qed.
Lemma dop_rows : rows_w 97 1 (skipn 1 dA) (skipn 1 dC).
Proof. rewrite <- a97_R. exact (rows_q a97 (skipn 1 A8) 1 (skipn 1 C8) eq_refl). Qed.
Lemma dop_ext : rows_w 97 13 (skipn 13 (@litm Rops dop_A)) (skipn 13 (@lits Rops dop_C)).
Proof. rewrite <- a97_R. exact (rows_q a97 (skipn 13 dop_A) 13 (skipn 13 dop_C) eq_refl). Qed.
Lemma dop_b13 : sumA dB <= 13.
Proof. rewrite dB_qr, sumA_q. replace 13 with (qr (13 # 1)) by (unfold qr; cbn; lra). apply qr_leb. reflexivity. Qed.
Lemma dop_b1 : Rabs (sumR dB - 1) <= / 10 ^ 29.
Proof.
  rewrite dB_qr, sumR_q. replace (qr (sumQ B8) - 1) with (qr (sumQ B8 + (-1 # 1))) by (rewrite qr_plus; unfold qr at 2; cbn; lra).
  rewrite qabs_R. replace (/ 10 ^ 29) with (qr (1 # 100000000000000000000000000000)) by (unfold qr; cbn; lra). apply qr_leb. reflexivity.
Qed.

Section Thm.
Context {E : @Env Rops}.
Variables (rhs : @rhs_t Rops) (n : nat) (L t0 te : R) (y : R -> list R) (S : R).
Hypothesis HL : lipschitz n L rhs.
Hypothesis Hte : t0 <= te.
Hypothesis HC : C2_solution rhs n t0 te y.
Hypothesis HS0 : 0 <= S.
Hypothesis HS : forall t f i, t0 <= t <= te -> rhs t (y t) = Ret f -> (i < n)%nat -> Rabs (cmp i f) <= S.
Notation DD := (@litm Rops dop_D).
Notation Af := (@litm Rops dop_A).
Notation Cf := (@lits Rops dop_C).
Lemma gen_local (A : list (list R)) (B C : list R) (DDx Afx : list (list R)) (Cfx : list R) : rows_w 97 1 (skipn 1 A) (skipn 1 C) -> length B = Datatypes.S (length (skipn 1 A)) ->
  sumA B <= 13 -> Rabs (sumR B - 1) <= / 10 ^ 29 -> length B = 12%nat -> rows_w 97 13 (skipn 13 Afx) (skipn 13 Cfx) ->
  exists Ka Ld Kd, 0 <= Ka /\ 0 <= Ld /\ 0 <= Kd /\ local rhs t0 te y A B C DDx Afx Cfx (L * 97) (26 * L) Ka (/ 10 ^ 29 * S) Ld Kd.
Proof.
  intros H1 H2 H3 H4 H5 H6. assert (PL : 0 <= L) by apply HL.
  destruct (C2_sol_ok rhs n t0 te y Hte ltac:(apply HL) HC) as (dy & M & SO & HD). assert (PM : 0 <= M) by apply SO.
  assert (HSb : forall t i, t0 <= t <= te -> (i < n)%nat -> Rabs (cmp i (dy t)) <= S) by (intros t i Ht Hi; apply (HS t (dy t) i Ht (HD t Ht) Hi)).
  set (kap := L * (97 * S) + L * (S + M) + M).
  assert (Pk : 0 <= kap) by (apply (kap_pos rhs n L t0 te M S y dy HL SO HS0 97); lra).
  set (W := 4 * 97 + 3 + sumR (map (fun row => Rsum (fun k => Rabs (nth k row 0)) (13 + length (skipn 13 Afx))) DDx)).
  assert (PW : 0 <= W) by (apply (W_pos 97 ltac:(lra) DDx Afx)).
  exists (sumA B * (2 * kap) + M), (2 * (W * L)), (W * (S + 2 * kap) + (S + M)).
  assert (P0 : 0 <= sumA B * (2 * kap)) by (apply Rmult_le_pos; [apply sumA_pos|lra]).
  assert (P1 : 0 <= W * L) by (apply Rmult_le_pos; auto). assert (P2 : 0 <= W * (S + 2 * kap)) by (apply Rmult_le_pos; lra).
  split; [lra|]. split; [lra|]. split; [lra|]. intros h e t u f K u' Hh Hq He Ht Hth Hu Hf Hs. split.
  - eapply near_mono; [|exact (step_fl rhs n L t0 te M S y dy HL SO HD HS0 HSb 97 ltac:(lra) A B C (/ 10 ^ 29) H1 H2 H4 h e t u f K u' Hh Hq He Ht Hth Hu Hf Hs)].
    fold kap. apply Rplus_le_compat_r. apply Rmult_le_compat_r; [exact He|]. apply Rplus_le_compat_l. apply Rmult_le_compat_l; [lra|].
    assert (sumA B * L <= 13 * L) by (apply Rmult_le_compat_r; auto). lra.
  - intros g K' x Hg Hk Hx.
    eapply near_mono; [|exact (dense_fl rhs n L t0 te M S y dy HL SO HD HS0 HSb 97 ltac:(lra) A B C H1 H2 ltac:(lra) DDx Afx Cfx H5 H6 h e t u f K u' g K' x Hh Hq He Ht Hth Hu Hf Hs Hg Hk Hx)].
    fold W. unfold dev. fold kap. assert (h * (W * (h * (2 * kap))) <= h * (W * (1 * (2 * kap)))).
    { apply Rmult_le_compat_l; [lra|]. apply Rmult_le_compat_l; [lra|]. apply Rmult_le_compat_r; lra. }
    assert (Ex : h * (W * (S + (2 * (L * e) + h * (2 * kap)))) = h * (W * S) + h * (2 * (W * L)) * e + h * (W * (h * (2 * kap)))) by ring. rewrite Ex.
    assert (Ey : h * (W * (S + 2 * kap) + (S + M)) = h * (W * S) + h * (W * (1 * (2 * kap))) + h * (S + M)) by ring. rewrite Ey. lra.
Qed.
End Thm.
Definition floor (S L T : R) : R := S * T * exp (26 * L * T) / 10 ^ 29.

Section Gen.
Context {E : @Env Rops}.
Variables (A : list (list R)) (B C E5 E3 : list R) (order : Z) (DD Af : list (list R)) (Cf : list R).
Hypothesis Hsh : length C = length A /\ A <> [].
Hypothesis HA : length A = dop_n_stages.
Hypothesis HCf : length Cf = length Af.
Hypothesis T1 : rows_w 97 1 (skipn 1 A) (skipn 1 C).
Hypothesis T2 : length B = Datatypes.S (length (skipn 1 A)).
Hypothesis T3 : sumA B <= 13.
Hypothesis T4 : Rabs (sumR B - 1) <= / 10 ^ 29.
Hypothesis T5 : length B = 12%nat.
Hypothesis T6 : rows_w 97 13 (skipn 13 Af) (skipn 13 Cf).
Let m : @meth Rops := @Dop Rops A B C E5 E3 order DD Af Cf.
Lemma gen_conv rhs n L t0 te y S : lipschitz n L rhs -> t0 <= te -> C2_solution rhs n t0 te y -> 0 <= S ->
  (forall t f i, t0 <= t <= te -> rhs t (y t) = Ret f -> (i < n)%nat -> Rabs (cmp i f) <= S) ->
  exists K, forall H g o sel first s0 fuelc tb, 0 < H <= 1 -> 200 * (H * L) <= 1 -> sane o -> garbage_ok m g ->
    init_var m g rhs t0 (y t0) o sel first = Ret s0 -> 0 <= hstep s0 -> steps_at_most H te (solver_of (E := E) m fuelc o rhs tb) s0 ->
    (forall fuel cs s, s = session (E := E) (solver_of (E := E) m fuelc o rhs tb) fuel cs s0 -> now s <= te ->
       near (K * H + floor S L (te - t0)) (state s) (y (now s))) /\
    (forall fuel cs s fuel' t rows s', returns (E := E) (solver_of (E := E) m fuelc o rhs tb) fuel cs s0 s ->
       is_sorted t = true -> run (E := E) (solver_of (E := E) m fuelc o rhs tb) fuel' t s = (Ret rows, s') -> now s' <= te ->
       Forall (fun r => near (K * H + floor S L (te - t0)) (snd r) (y (fst r))) rows).
Proof.
  intros HL Hte HC HS0 HS. assert (PL : 0 <= L) by apply HL.
  destruct (gen_local rhs n L t0 te y S HL Hte HC HS0 HS A B C DD Af Cf T1 T2 T3 T4 T5 T6) as (Ka & Ld & Kd & P1 & P2 & P3 & Hloc).
  set (F := / 10 ^ 29 * S) in *. assert (PF : 0 <= F) by (unfold F; apply Rmult_le_pos; [left; apply Rinv_0_lt_compat, pow_lt; lra|lra]).
  set (X := (te - t0) * exp (26 * L * (te - t0))). assert (PX : 0 <= X) by (apply Rmult_le_pos; [lra|left; apply exp_pos]).
  set (Q := Ld * ((Ka + F) * X) + Kd). assert (PQ : 0 <= Q).
  { unfold Q. assert (0 <= Ld * ((Ka + F) * X)) by (apply Rmult_le_pos; [lra|apply Rmult_le_pos; lra]). lra. }
  exists (Ka * X + Q). intros H g o sel first s0 fuelc tb HH Hq Ho Hg Hi Hh Hst.
  assert (HHq : H * (L * 97) <= 1 / 2). { assert (0 <= H * L) by (apply Rmult_le_pos; lra). lra. }
  assert (Pq : 0 <= L * 97) by lra. assert (Pla : 0 <= 26 * L) by lra.
  assert (Eac : ac t0 (26 * L) Ka F H te = Ka * X * H + floor S L (te - t0)) by (unfold ac, accp, floor, X, F; field).
  assert (Fe : floor S L (te - t0) = F * X) by (unfold floor, F, X; field).
  assert (Pac : 0 <= ac t0 (26 * L) Ka F H te <= (Ka + F) * X).
  { rewrite Eac, Fe. assert (Ka * X * H <= Ka * X * 1) by (apply Rmult_le_compat_l; [apply Rmult_le_pos; lra|lra]).
    assert (0 <= Ka * X * H) by (apply Rmult_le_pos; [apply Rmult_le_pos; lra|lra]). assert (0 <= F * X) by (apply Rmult_le_pos; lra). lra. }
  assert (HQ : H * (Ld * ac t0 (26 * L) Ka F H te + Kd) <= H * Q).
  { apply Rmult_le_compat_l; [lra|]. unfold Q. apply Rplus_le_compat_r. apply Rmult_le_compat_l; [lra|apply Pac]. }
  assert (HQ0 : 0 <= H * Q) by (apply Rmult_le_pos; lra).
  pose proof (vall_init (E := E) rhs n L t0 te y HL Hte HC A B C E5 E3 order DD Af Cf HA HCf (26 * L) Ka F fuelc o tb H s0 P1 PF HH g sel first Hg Hi Hh) as V0.
  split.
  - intros fuel cs s -> Hs. destruct V0 as (V & _).
    pose proof (vinv_session (E := E) rhs n L t0 te y HL HC A B C E5 E3 order DD Af Cf Hsh HA HCf (L * 97) (26 * L) Ka F Ld Kd fuelc o tb H s0 Pla P1 PF Pq Hloc Ho HH HHq Hst fuel cs V) as (_ & _ & _ & Ht & Hn).
    eapply near_mono; [|exact (Hn Hs)]. eapply Rle_trans; [apply (ac_mono t0 (26 * L) Ka F H); auto; split; [exact Ht|exact Hs]|]. rewrite Eac, Rmult_plus_distr_r. lra.
  - intros fuel cs s fuel' t rows s' Hret Hsr Hr Hs.
    pose proof (vall_returns (E := E) rhs n L t0 te y HL HC A B C E5 E3 order DD Af Cf Hsh HA HCf (L * 97) (26 * L) Ka F Ld Kd fuelc o tb H s0 Pla P1 PF Pq Hloc Ho HH HHq Hst fuel cs s V0 Hret) as V.
    pose proof (run_v (E := E) rhs n L t0 te y HL Hte HC A B C E5 E3 order DD Af Cf Hsh HA HCf (L * 97) (26 * L) Ka F Ld Kd fuelc o tb H s0 Pla P1 PF P2 P3 Pq Hloc Ho HH HHq Hst fuel' t s rows s' V Hsr Hr Hs) as Q'.
    eapply Forall_impl; [|exact Q']. intros r Hr'. cbv beta in Hr'. eapply near_mono; [|exact Hr']. unfold dv. rewrite Rmult_plus_distr_r. lra.
Qed.
End Gen.
Lemma dop_shape : (length dC = length dA /\ dA <> []) /\ length dA = dop_n_stages /\ length (@lits Rops dop_C) = length (@litm Rops dop_A) /\
  length dB = Datatypes.S (length (skipn 1 dA)) /\ length dB = 12%nat.
Proof. repeat split; try reflexivity; discriminate. Qed.
Lemma C92_both {E : @Env Rops} rhs n L t0 te y S : lipschitz n L rhs -> t0 <= te -> C2_solution rhs n t0 te y -> 0 <= S ->
  (forall t f i, t0 <= t <= te -> rhs t (y t) = Ret f -> (i < n)%nat -> Rabs (cmp i f) <= S) ->
  exists K, forall H g o sel first s0 fuelc tb, 0 < H <= 1 -> 200 * (H * L) <= 1 -> sane o -> garbage_ok (@DOP853 Rops) g ->
    init_var (@DOP853 Rops) g rhs t0 (y t0) o sel first = Ret s0 -> 0 <= hstep s0 -> steps_at_most H te (solver_of (E := E) DOP853 fuelc o rhs tb) s0 ->
    (forall fuel cs s, s = session (E := E) (solver_of (E := E) DOP853 fuelc o rhs tb) fuel cs s0 -> now s <= te ->
       near (K * H + floor S L (te - t0)) (state s) (y (now s))) /\
    (forall fuel cs s fuel' t rows s', returns (E := E) (solver_of (E := E) DOP853 fuelc o rhs tb) fuel cs s0 s ->
       is_sorted t = true -> run (E := E) (solver_of (E := E) DOP853 fuelc o rhs tb) fuel' t s = (Ret rows, s') -> now s' <= te ->
       Forall (fun r => near (K * H + floor S L (te - t0)) (snd r) (y (fst r))) rows).
Proof.
  destruct dop_shape as (a & b & c & d & e).
  exact (gen_conv (E := E) dA dB dC (@lits Rops dop_E5) (@dop_E3 Rops) 7 (@litm Rops dop_D) (@litm Rops dop_A) (@lits Rops dop_C) a b c dop_rows d dop_b13 dop_b1 e dop_ext rhs n L t0 te y S).
Qed.
