(** The Runge-Kutta classes satisfy the order conditions. *)
From Coq Require Import List ZArith QArith Bool Arith Lia Reals Lra Qreals.
From Verif Require Import Base Scalar Vec MBuffer MZeros MSteps MApi MDop853 MClasses Laws Spec SpecInst
  PStep PCore PHist PBound PVecR SpecRK PRK PDim PFwd SpecMS PMS PMS2 PRK2 PRK3 PMS3 PMS5 SpecOrder POrd1 POrd2.
Import ListNotations.
Open Scope R_scope.

(** a tableau of the model as rationals *)
Definition is_tab (m : @meth Rops) (A : list (list Q)) (B C : list Q) : Prop :=
  A_rk m = map (map qr) A /\ B_rk m = map qr B /\ C_rk m = map qr C.
(** [k] subtrees of one node *)
Definition bush (k : nat) : tree := Node (repeat (Node []) k).
Fixpoint tall (k : nat) : tree := match k with O => Node [] | S k' => Node [tall k'] end.
Definition tab_ok (N : Z) (p : nat) (t : tree) (A : list (list Q)) (B C : list Q) : bool :=
  order_ok N p A B 0 && ((size t <=? S p)%nat && defect_gt 0 A B t) && lowerQ 0 A && rowsumQ C A.
Lemma tab_ok_sound m N p t A B C : is_tab m A B C -> tab_ok N p t A B C = true ->
  has_order p (A_rk m) (B_rk m) /\ ~ has_order (S p) (A_rk m) (B_rk m) /\ lower (A_rk m) /\ row_sums (A_rk m) (C_rk m).
Proof.
  intros (-> & -> & ->) H. unfold tab_ok in H. rewrite !andb_true_iff in H. destruct H as (((H1 & H2) & H3) & H4).
  split; [now apply (order_ok_sound N p A B 0)|]. split; [apply (not_order (S p) A B t); now apply andb_true_iff|].
  split; [|now apply rowsumQ_sound]. intros i j Hij. apply (lowerQ_sound A 0 H3). lia.
Qed.
Definition over_q (l : list Z) (d : positive) : list Q := map (fun z => z # d) l.
Lemma tab_Runge2 : is_tab Runge2 [[0; 0]; [1 # 2; 0]]%Q [0; 1]%Q [0; 1 # 2]%Q.
Proof. repeat split; reflexivity. Qed.
Lemma tab_Runge3 : is_tab Runge3 [[0; 0; 0; 0]; [1 # 2; 0; 0; 0]; [0; 1; 0; 0]; [0; 0; 1; 0]]%Q (over_q [1; 4; 0; 1]%Z 6) [0; 1 # 2; 1; 1]%Q.
Proof. repeat split; reflexivity. Qed.
Lemma tab_Heun3 : is_tab Heun3 (map (fun r => over_q r 3) [[0; 0; 0]; [1; 0; 0]; [0; 2; 0]]%Z) (over_q [1; 0; 3]%Z 4) (over_q [0; 1; 2]%Z 3).
Proof. repeat split; reflexivity. Qed.
Lemma tab_RungeKutta4 : is_tab RungeKutta4 [[0; 0; 0; 0]; [1 # 2; 0; 0; 0]; [0; 1 # 2; 0; 0]; [0; 0; 1; 0]]%Q
  (over_q [1; 2; 2; 1]%Z 6) (over_q [0; 1; 1; 2]%Z 2).
Proof. repeat split; reflexivity. Qed.
Lemma tab_RungeKutta3_8 : is_tab RungeKutta3_8 [[0; 0; 0; 0]; [1 # 3; 0; 0; 0]; [-1 # 3; 1; 0; 0]; [1; -1; 1; 0]]%Q
  (over_q [1; 3; 3; 1]%Z 8) (over_q [0; 1; 2; 3]%Z 3).
Proof. repeat split; reflexivity. Qed.
Lemma C31_order_lemma m p : In (m, p) rk_table ->
  has_order p (A_rk m) (B_rk m) /\ ~ has_order (S p) (A_rk m) (B_rk m) /\ lower (A_rk m) /\ row_sums (A_rk m) (C_rk m).
Proof.
  intros H. cbn [rk_table In] in H. destruct H as [H|[H|[H|[H|[H|[]]]]]]; injection H as <- <-.
  - apply (tab_ok_sound _ 2 2 (tall 2) _ _ _ tab_Runge2). vm_compute. reflexivity.
  - apply (tab_ok_sound _ 6 3 (tall 3) _ _ _ tab_Runge3). vm_compute. reflexivity.
  - apply (tab_ok_sound _ 12 3 (tall 3) _ _ _ tab_Heun3). vm_compute. reflexivity.
  - apply (tab_ok_sound _ 6 4 (tall 4) _ _ _ tab_RungeKutta4). vm_compute. reflexivity.
  - apply (tab_ok_sound _ 24 4 (tall 4) _ _ _ tab_RungeKutta3_8). vm_compute. reflexivity.
Qed.

(** ** the embedded pairs *)
Definition sub_q (B E : list Q) : list Q := map2 Qminus B E.
Lemma embedded_q B E : length B = length E -> map2 Rminus (map qr B) (map qr E) = map qr (sub_q B E).
Proof.
  revert E. induction B as [|b B IH]; intros [|e E] H; cbn; try discriminate; auto. rewrite IH by (cbn in H; lia). f_equal.
  change qr with Q2R. symmetry. apply Q2R_minus.
Qed.
Lemma qr0 : [0] = map qr [0%Q]. Proof. unfold qr. cbn. f_equal. lra. Qed.
Definition last_q (A : list (list Q)) (B : list Q) : list (list Q) := map (fun a => a ++ [0%Q]) A ++ [B ++ [0%Q]].
Lemma A_last_q m A B C : is_tab m A B C -> A_last m = map (map qr) (last_q A B).
Proof.
  intros (HA & HB & _). unfold A_last, last_q. rewrite HA, HB, map_app, !map_map. cbn [map]. rewrite map_app, <- qr0. f_equal.
  apply map_ext. intros a. now rewrite map_app, <- qr0.
Qed.
Lemma emb_q m A B C E : is_tab m A B C -> length E = S (length B) -> embedded m (map qr E) = map qr (sub_q (B ++ [0%Q]) E).
Proof.
  intros (_ & HB & _) L. unfold embedded. rewrite HB, qr0, <- map_app. apply embedded_q. rewrite app_length. cbn. lia.
Qed.
Definition emb_ok (N : Z) (q : nat) (t : tree) (A : list (list Q)) (B E : list Q) : bool :=
  order_ok N q (last_q A B) (sub_q (B ++ [0%Q]) E) 0 && ((size t <=? S q)%nat && defect_gt 0 (last_q A B) (sub_q (B ++ [0%Q]) E) t).
Lemma emb_ok_sound m N q t A B C E : is_tab m A B C -> length E = S (length B) -> emb_ok N q t A B E = true ->
  has_order q (A_last m) (embedded m (map qr E)) /\ ~ has_order (S q) (A_last m) (embedded m (map qr E)).
Proof.
  intros T L H. rewrite (A_last_q _ _ _ _ T), (emb_q _ _ _ _ _ T L). unfold emb_ok in H. apply andb_true_iff in H as (H1 & H2).
  split; [now apply (order_ok_sound N q _ _ 0)|now apply (not_order (S q) _ _ t)].
Qed.
Definition A23 : list (list Q) := [[0; 0; 0]; [1 # 2; 0; 0]; [0; 3 # 4; 0]]%Q.
Definition B23 : list Q := [2 # 9; 1 # 3; 4 # 9]%Q.
Definition E23 : list Q := [-5 # 72; 1 # 12; 1 # 9; -1 # 8]%Q.
Lemma tab_23 : is_tab RungeKutta23 A23 B23 [0; 1 # 2; 3 # 4]%Q.
Proof. repeat split; reflexivity. Qed.
Lemma E_23 : @fsal_E Rops rk23_B rk23_B2 = map qr E23.
Proof.
  unfold rk23_B, rk23_B2, E23. rewrite !Rops_lits. unfold qr. cbn. repeat (f_equal; try lra).
Qed.
Definition A45 : list (list Q) := [[0; 0; 0; 0; 0; 0];
              [1 # 5; 0; 0; 0; 0; 0];
              [3 # 40; 9 # 40; 0; 0; 0; 0];
              [44 # 45; -56 # 15; 32 # 9; 0; 0; 0];
              [19372 # 6561; -25360 # 2187; 64448 # 6561; -212 # 729; 0; 0];
              [9017 # 3168; -355 # 33; 46732 # 5247; 49 # 176; -5103 # 18656; 0]]%Q.
Definition B45 : list Q := [35 # 384; 0; 500 # 1113; 125 # 192; -2187 # 6784; 11 # 84]%Q.
Definition E45 : list Q := [-71 # 57600; 0; 71 # 16695; -71 # 1920; 17253 # 339200; -22 # 525; 1 # 40]%Q.
Lemma tab_45 : is_tab RungeKutta45 A45 B45 [0; 1 # 5; 3 # 10; 4 # 5; 8 # 9; 1]%Q.
Proof. repeat split; reflexivity. Qed.
Definition N_of (A : list (list Q)) (B : list Q) : Z :=
  fold_right (fun q n => Z.lcm (Zpos (Qden q)) n) 1%Z (concat A ++ B).
Lemma C32_lemma m p q : In (m, p, q) pair_table ->
  (has_order p (A_rk m) (B_rk m) /\ ~ has_order (S p) (A_rk m) (B_rk m) /\ lower (A_rk m) /\ row_sums (A_rk m) (C_rk m)) /\
  (has_order q (A_last m) (embedded m (err_weights m)) /\ ~ has_order (S q) (A_last m) (embedded m (err_weights m))) /\
  exponent_order m = Z.of_nat q.
Proof.
  intros H. cbn [pair_table In] in H. destruct H as [H|[H|[]]]; injection H as <- <- <-.
  - split; [apply (tab_ok_sound _ (N_of A23 B23) 3 (tall 3) _ _ _ tab_23); vm_compute; reflexivity|]. split; [|reflexivity].
    change (err_weights RungeKutta23) with (@fsal_E Rops rk23_B rk23_B2). rewrite E_23.
    apply (emb_ok_sound _ (N_of (last_q A23 B23) (sub_q (B23 ++ [0%Q]) E23)) 2 (tall 2) _ _ _ _ tab_23); vm_compute; reflexivity.
  - split; [apply (tab_ok_sound _ (N_of A45 B45) 5 (tall 5) _ _ _ tab_45); vm_compute; reflexivity|]. split; [|reflexivity].
    change (err_weights RungeKutta45) with (map qr E45).
    apply (emb_ok_sound _ (N_of (last_q A45 B45) (sub_q (B45 ++ [0%Q]) E45)) 4 (tall 4) _ _ _ _ tab_45); vm_compute; reflexivity.
Qed.

(** ** DOP853 *)
Definition A8 : list (list Q) := map (firstn 12) (firstn 12 dop_A).
Definition B8 : list Q := firstn 12 (nth 12 dop_A []).
Definition C8 : list Q := firstn 12 dop_C.
Lemma tab_8 : is_tab DOP853 A8 B8 C8.
Proof. split; [reflexivity|]. split; reflexivity. Qed.
Definition E3_q : list Q :=
  fold_left (fun e p => list_set e (fst p) (nth (fst p) e 0 - snd p)%Q) dop_E3_sub (B8 ++ [0%Q]).
Lemma set_q k (q : Q) : forall l, (k < length l)%nat ->
    list_set (map qr l) k (@sub Rops (nth k (map qr l) (@zero Rops)) (@lit Rops q)) = map qr (list_set l k (nth k l 0 - q)%Q).
Proof.
  induction k as [|k IH]; intros [|x l] Hk; cbn [list_set map nth length] in *; try lia.
  - f_equal. change qr with Q2R. symmetry. apply Q2R_minus.
  - rewrite <- IH by lia. reflexivity.
Qed.
Lemma E3_list : @dop_E3 Rops = map qr E3_q.
Proof.
  unfold dop_E3, E3_q. assert (H0 : @dop_B Rops ++ [@zero Rops] = map qr (B8 ++ [0%Q])) by reflexivity. rewrite H0.
  assert (G : forall sb l, (forall p, In p sb -> (fst p < length l)%nat) ->
    fold_left (fun e p => list_set e (fst p) (@sub Rops (nth (fst p) e (@zero Rops)) (@lit Rops (snd p)))) sb (map qr l) =
    map qr (fold_left (fun e p => list_set e (fst p) (nth (fst p) e 0 - snd p)%Q) sb l)).
  { induction sb as [|p sb IH]; intros l Hl; [reflexivity|]. cbn [fold_left]. rewrite set_q by (apply Hl; now left). apply IH.
    intros p' Hp'. rewrite list_set_length. apply Hl. now right. }
  apply G. intros p Hp. cbn [dop_E3_sub In] in Hp. destruct Hp as [<-|[<-|[<-|[]]]]; cbn; lia.
Qed.
Definition N8 : Z := Eval vm_compute in (10 ^ 33)%Z.
Definition B8_5 : list Q := Eval vm_compute in map Qred (sub_q (B8 ++ [0%Q]) dop_E5).
Definition B8_3 : list Q := Eval vm_compute in map Qred (sub_q (B8 ++ [0%Q]) E3_q).
Lemma red_list l : map qr (map Qred l) = map qr l.
Proof. rewrite map_map. apply map_ext. intros q. change qr with Q2R. apply Qeq_eqR, Qred_correct. Qed.
Lemma Fits8 : fits_all N8 (last_q A8 B8) B8 = true. Proof. vm_compute. reflexivity. Qed.
Definition E28 : Z := Eval vm_compute in (10 ^ 28)%Z.
Definition E27 : Z := Eval vm_compute in (10 ^ 27)%Z.
Lemma dop_order8 : order_ok N8 8 A8 B8 E28 = true. Proof. vm_compute. reflexivity. Qed.
Lemma dop_order5 : order_ok N8 5 (last_q A8 B8) B8_5 E27 = true. Proof. vm_compute. reflexivity. Qed.
Lemma dop_order3 : order_ok N8 3 (last_q A8 B8) B8_3 E28 = true. Proof. vm_compute. reflexivity. Qed.
Lemma dop_not9 : defect_gt (2 # 100000) A8 B8 (bush 8) = true. Proof. vm_compute. reflexivity. Qed.
Lemma dop_not6 : defect_gt (4 # 10000) (last_q A8 B8) B8_5 (bush 5) = true. Proof. vm_compute. reflexivity. Qed.
Lemma dop_not4 : defect_gt (2 # 100) (last_q A8 B8) B8_3 (bush 3) = true. Proof. vm_compute. reflexivity. Qed.
Lemma dop_shape : lowerQ 0 A8 && rowsumQ_within (1 # 10000000000000000000000000000) C8 A8 = true. Proof. vm_compute. reflexivity. Qed.
Lemma emb5 : embedded DOP853 (err5_weights DOP853) = map qr B8_5.
Proof.
  change (err5_weights DOP853) with (map qr dop_E5). rewrite (emb_q _ _ _ _ dop_E5 tab_8 eq_refl), <- red_list. f_equal.
Qed.
Lemma emb3 : embedded DOP853 (err3_weights DOP853) = map qr B8_3.
Proof.
  change (err3_weights DOP853) with (@dop_E3 Rops). rewrite E3_list, (emb_q _ _ _ _ E3_q tab_8 eq_refl), <- red_list. f_equal.
Qed.
Lemma sharper_q N p A B E e k : order_ok N p A B E = true -> (0 < E)%Z -> defect_gt e A B (bush k) = true -> size (bush k) = S p ->
  sharper (/ IZR E) (Q2R e) p (map (map qr) A) (map qr B).
Proof.
  intros H1 HE H2 Hs. split; [now apply (order_ok_sound N p A B E)|]. exists (bush k). split; [exact Hs|now apply defect_gt_sound].
Qed.
Lemma C32_dop_lemma : let m := DOP853 in
  sharper (1 / 10 ^ 28) (2 / 10 ^ 5) 8 (A_rk m) (B_rk m) /\ lower (A_rk m) /\ row_sums_within (1 / 10 ^ 28) (A_rk m) (C_rk m) /\
  sharper (1 / 10 ^ 27) (4 / 10 ^ 4) 5 (A_last m) (embedded m (err5_weights m)) /\
  sharper (1 / 10 ^ 28) (2 / 10 ^ 2) 3 (A_last m) (embedded m (err3_weights m)) /\
  exponent_order m = 7%Z.
Proof.
  intros m. unfold m. rewrite emb5, emb3, (A_last_q _ _ _ _ tab_8). destruct tab_8 as (-> & -> & ->).
  assert (P28 : 1 / 10 ^ 28 = / IZR E28) by (unfold E28; lra).
  assert (P27 : 1 / 10 ^ 27 = / IZR E27) by (unfold E27; lra).
  pose proof dop_shape as Sh. apply andb_true_iff in Sh as (S1 & S2).
  split. { replace (2 / 10 ^ 5) with (Q2R (2 # 100000)) by (unfold Q2R; cbn; lra). rewrite P28. apply (sharper_q N8 8 _ _ _ _ 8 dop_order8 eq_refl dop_not9 eq_refl). }
  split. { intros i j Hij. apply (lowerQ_sound A8 0 S1). lia. }
  split. { replace (1 / 10 ^ 28) with (Q2R (1 # 10000000000000000000000000000)) by (unfold Q2R; cbn [Qnum Qden]; lra). now apply rowsumQ_within_sound. }
  split. { replace (4 / 10 ^ 4) with (Q2R (4 # 10000)) by (unfold Q2R; cbn; lra). rewrite P27. apply (sharper_q N8 5 _ _ _ _ 5 dop_order5 eq_refl dop_not6 eq_refl). }
  split. { replace (2 / 10 ^ 2) with (Q2R (2 # 100)) by (unfold Q2R; cbn; lra). rewrite P28. apply (sharper_q N8 3 _ _ _ _ 3 dop_order3 eq_refl dop_not4 eq_refl). }
  reflexivity.
Qed.

(** ** steps *)
Section Steps.
Context {E : @Env Rops}.
Lemma rk_table_quad m p : In (m, p) rk_table -> exists A B C, m = @Erk Rops A B C /\ quad_meth m p.
Proof.
  intros H. cbn [rk_table In] in H. destruct H as [H|[H|[H|[H|[H|[]]]]]]; injection H as <- <-; do 3 eexists; (split; [reflexivity|]).
  - apply Runge2_quad. - apply Runge3_quad. - apply Heun3_quad. - apply RungeKutta4_quad. - apply RungeKutta3_8_quad.
Qed.
Lemma C31_poly_lemma m p rhs Ps fuelc o tb (s s' : @st Rops) : In (m, p) rk_table ->
  reachable (E := E) rhs m fuelc o tb s -> dims (length Ps) s -> quadrature rhs Ps -> Forall (degree_le p) Ps ->
  took_step (solver_of (E := E) m fuelc o rhs tb) s s' ->
  now s' = now s + hstep s /\ length (state s') = length Ps /\
  forall i, (i < length Ps)%nat ->
    cmp i (state s') - cmp i (state s) = peval (nth i Ps []) (now s') - peval (nth i Ps []) (now s).
Proof.
  intros H G D Hq HP St. apply reach_good in G. destruct (rk_table_quad m p H) as (A & B & C & -> & Q).
  apply took_core in St. cbn [s_core solver_of] in St.
  destruct (erk_poly_step A B C p Ps fuelc o rhs s s' Q G D Hq HP St) as (H1 & _ & H2 & H3). auto.
Qed.
Lemma lin_poly m p r : In (m, p, r) rk_lin_table -> exists A B C, m = @Erk Rops A B C /\ length C = length A /\ A <> [] /\
  forall z, 1 + z * dot B (lin_stages z (skipn 1 A) [1]) = taylor p z + r * z ^ S p.
Proof.
  intros H. cbn [rk_lin_table In] in H. destruct H as [H|[H|[H|[H|[H|[]]]]]]; injection H as <- <- <-;
  cbv [Runge2 Runge3 Heun3 RungeKutta4 RungeKutta3_8 litm]; rewrite ?Rops_lits, ?Rops_over; cbn [map Qnum Qden];
  rewrite ?Rops_lits, ?Rops_over; cbn [map Qnum Qden]; do 3 eexists; (split; [reflexivity|]); (split; [reflexivity|]); (split; [discriminate|]);
  intros z; cbn [skipn lin_stages dot length firstn app taylor fact Nat.add Nat.mul INR pow]; field.
Qed.
Lemma C31_exp_lemma m p r rhs lam fuelc o tb (s s' : @st Rops) : In (m, p, r) rk_lin_table ->
  reachable (E := E) rhs m fuelc o tb s -> linear rhs lam -> took_step (solver_of (E := E) m fuelc o rhs tb) s s' ->
  let z := hstep s * lam in
  now s' = now s + hstep s /\ state s' = @vscale Rops (taylor p z + r * z ^ S p) (state s).
Proof.
  intros H G Hl St z. apply reach_good in G. destruct (lin_poly m p r H) as (A & B & C & -> & LC & HA & HZ).
  destruct (rk_took (Erk A B C) fuelc o rhs tb s s' A B C eq_refl (fun x => x) LC HA G St) as (h & K & Hr & Ht & _ & Hh & _).
  rewrite (Hh eq_refl) in *. split; [exact Ht|]. unfold z. rewrite <- HZ.
  pose proof (good_last _ _ _ G) as Hd. pose proof (eq_trans (eq_sym Hd) (Hl _ _)) as e. injection e as e. rewrite e in Hr.
  exact (rk_lin lam rhs A B C _ _ _ K _ Hl Hr).
Qed.
End Steps.
Lemma C32_refuted_lemma : ~ has_order 1 (A_rk DOP853) (B_rk DOP853).
Proof. destruct tab_8 as (-> & -> & _). apply (not_order 1 A8 B8 (Node [])). vm_compute. reflexivity. Qed.
