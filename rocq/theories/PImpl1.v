(** Order conditions of tableaux with entries a + b sqrt(d). *)
From Coq Require Import List ZArith QArith Bool Arith Lia Reals Lra Qreals.
From Verif Require Import Base Scalar Vec MBuffer MZeros MSteps MApi MDop853 MClasses MImplicit Laws
  PVecR SpecRK SpecMS PMS PRK2 SpecOrder POrd1 POrd2 POrd3 SpecStab SpecImpl.
Import ListNotations.
Open Scope R_scope.

(** ** all ordered forests with at most n nodes *)
Fixpoint forests (n : nat) : list (list tree) :=
  match n with
  | O => [[]]
  | S m => [] :: filter (fun ts => Nat.leb (fsize ts) (S m)) (flat_map (fun ts => map (fun r => Node ts :: r) (forests m)) (forests m))
  end.
Lemma forests_all n : forall ts, (fsize ts <= n)%nat -> In ts (forests n).
Proof.
  induction n as [|n IH]; intros [|[cs] ts] H; try (left; reflexivity).
  - rewrite fsize_cons, size_node in H. lia.
  - right. apply filter_In. split; [|now apply Nat.leb_le]. rewrite fsize_cons, size_node in H.
    apply in_flat_map. exists cs. split; [apply IH; lia|]. apply in_map. apply IH. lia.
Qed.
Definition trees (p : nat) : list tree := match p with O => [] | S q => map Node (forests q) end.
Lemma trees_all p t : (size t <= p)%nat -> In t (trees p).
Proof. destruct t as [ts]. rewrite size_node. intros H. destruct p as [|p]; [lia|]. apply in_map, forests_all. lia. Qed.

(** ** the field Q(sqrt d) *)
Definition qd : Type := Q * Q.
Section Field.
Variable d : Q. Variable s : R.
Hypothesis Hs : s * s = Q2R d.
Definition ev (x : qd) : R := Q2R (fst x) + Q2R (snd x) * s.
Definition addd (x y : qd) : qd := (Qred (fst x + fst y), Qred (snd x + snd y))%Q.
Definition muld (x y : qd) : qd := (Qred (fst x * fst y + d * (snd x * snd y)), Qred (fst x * snd y + snd x * fst y))%Q.
Lemma addd_ev x y : ev (addd x y) = ev x + ev y.
Proof. unfold ev, addd. cbn [fst snd]. rewrite !(Qeq_eqR _ _ (Qred_correct _)), !Q2R_plus. lra. Qed.
Lemma muld_ev x y : ev (muld x y) = ev x * ev y.
Proof.
  unfold ev, muld. cbn [fst snd]. rewrite !(Qeq_eqR _ _ (Qred_correct _)), !Q2R_plus, !Q2R_mult, <- Hs. ring.
Qed.
Lemma ev_0 : ev (0, 0)%Q = 0. Proof. unfold ev, Q2R. cbn. lra. Qed.
Lemma ev_1 : ev (1, 0)%Q = 1. Proof. unfold ev, Q2R. cbn. lra. Qed.
Fixpoint dotd (a b : list qd) : qd := match a, b with x :: a', y :: b' => addd (muld x y) (dotd a' b') | _, _ => (0, 0)%Q end.
Lemma dotd_ev a : forall b, dot (map ev a) (map ev b) = ev (dotd a b).
Proof. induction a as [|x a IH]; intros [|y b]; cbn [map dot dotd]; try (symmetry; apply ev_0). rewrite IH, addd_ev, muld_ev. reflexivity. Qed.
Fixpoint weightsd (A : list (list qd)) (t : tree) : list qd :=
  match t with Node ts => map (fun a => fold_right (fun c x => muld (dotd a (weightsd A c)) x) (1, 0)%Q ts) A end.
Lemma weightsd_ev A t : stage_weights (map (map ev) A) t = map ev (weightsd A t).
Proof.
  induction t as [ts IH] using tree_ind'. cbn [stage_weights weightsd]. rewrite !map_map. apply map_ext. intros a.
  induction IH as [|c ts Hc _ IHl]; cbn [fold_right]; [symmetry; apply ev_1|]. now rewrite Hc, dotd_ev, IHl, muld_ev.
Qed.
Definition weightd (A : list (list qd)) (B : list qd) (t : tree) : qd := dotd B (weightsd A t).
Lemma weightd_ev A B t : weight (map (map ev) A) (map ev B) t = ev (weightd A B t).
Proof. unfold weight, weightd. now rewrite weightsd_ev, dotd_ev. Qed.
Definition equald (x y : qd) : bool := Qeq_bool (fst x) (fst y) && Qeq_bool (snd x) (snd y).
Lemma equald_ev x y : equald x y = true -> ev x = ev y.
Proof. intros H. apply andb_true_iff in H as (H1 & H2). apply Qeq_bool_iff in H1, H2. unfold ev. now rewrite (Qeq_eqR _ _ H1), (Qeq_eqR _ _ H2). Qed.
Definition inv_density (t : tree) : qd := (1 # Z.to_pos (densityZ t), 0)%Q.
Lemma inv_density_ev t : ev (inv_density t) = / density t.
Proof.
  unfold ev, inv_density. cbn [fst snd]. rewrite densityZ_R. unfold Q2R. cbn [Qnum Qden]. rewrite Z2Pos.id by apply size_density. lra.
Qed.
Lemma order_d p A B : forallb (fun t => equald (weightd A B t) (inv_density t)) (trees p) = true -> has_order p (map (map ev) A) (map ev B).
Proof.
  intros H t Ht. rewrite forallb_forall in H. specialize (H t (trees_all p t Ht)). apply equald_ev in H.
  rewrite weightd_ev, H. apply inv_density_ev.
Qed.
(** a tree whose weight is rational and wrong *)
Lemma not_order_d p A B t : (size t <=? p)%nat && (Qeq_bool (snd (weightd A B t)) 0 && negb (Qeq_bool (fst (weightd A B t)) (fst (inv_density t)))) = true ->
  ~ has_order p (map (map ev) A) (map ev B).
Proof.
  intros H Ho. apply andb_true_iff in H as (H1 & H2). apply andb_true_iff in H2 as (H2 & H3). apply Nat.leb_le in H1.
  specialize (Ho t H1). rewrite weightd_ev, <- inv_density_ev in Ho. unfold ev in Ho. apply Qeq_bool_iff in H2. rewrite (Qeq_eqR _ _ H2) in Ho.
  apply negb_true_iff in H3. apply Qeq_bool_neq in H3. apply H3. apply eqR_Qeq. cbn [inv_density snd] in Ho.
  assert (Q2R 0 = 0) by (unfold Q2R; cbn; lra). rewrite H in Ho. lra.
Qed.
Lemma rowsum_d A C : map (fun a => fold_right Rplus 0 a) (map (map ev) A) = map ev C ->
  row_sums (map (map ev) A) (map ev C).
Proof. intros H. unfold row_sums. now rewrite H. Qed.
Fixpoint sumd (a : list qd) : qd := match a with [] => (0, 0)%Q | x :: a' => addd x (sumd a') end.
Lemma sumd_ev a : fold_right Rplus 0 (map ev a) = ev (sumd a).
Proof. induction a as [|x a IH]; cbn [map fold_right sumd]; [symmetry; apply ev_0|]. now rewrite IH, addd_ev. Qed.
Lemma rows_d A C : Nat.eqb (length A) (length C) && forallb (fun p => equald (sumd (fst p)) (snd p)) (combine A C) = true -> row_sums (map (map ev) A) (map ev C).
Proof.
  intros H. apply andb_true_iff in H as (H1 & H2). apply Nat.eqb_eq in H1. unfold row_sums. revert C H1 H2. induction A as [|a A IH]; intros [|c C] H1 H2; try discriminate; [reflexivity|].
  cbn [combine forallb] in H2. apply andb_true_iff in H2 as (H2 & H3). cbn [map]. rewrite <- (IH C); [|cbn in H1; lia|exact H3]. f_equal.
  rewrite sumd_ev. symmetry. now apply equald_ev.
Qed.
End Field.

(** ** the Radau tableaux *)
Lemma s6_sq : sqrt 6 * sqrt 6 = Q2R 6. Proof. rewrite sqrt_sqrt by lra. unfold Q2R. cbn. lra. Qed.
Definition IA3_A : list (list qd) := [[(1#4,0);(-1#4,0)];[(1#4,0);(5#12,0)]]%Q.
Definition IA3_B : list qd := [(1#4,0);(3#4,0)]%Q.
Definition IA3_C : list qd := [(0,0);(2#3,0)]%Q.
Definition IIA3_A : list (list qd) := [[(5#12,0);(-1#12,0)];[(3#4,0);(1#4,0)]]%Q.
Definition IIA3_B : list qd := [(3#4,0);(1#4,0)]%Q.
Definition IIA3_C : list qd := [(1#3,0);(1,0)]%Q.
Definition IIA_A : list (list qd) :=
  [[(88#360,-7#360);(296#1800,-169#1800);(-2#225,3#225)];
   [(296#1800,169#1800);(88#360,7#360);(-2#225,-3#225)];
   [(16#36,-1#36);(16#36,1#36);(1#9,0)]]%Q.
Definition IIA_B : list qd := [(16#36,-1#36);(16#36,1#36);(1#9,0)]%Q.
Definition IIA_C : list qd := [(4#10,-1#10);(4#10,1#10);(1,0)]%Q.
Ltac tabs := unfold RadauIA3_A, RadauIA3_B, RadauIA3_C, RadauIIA3_A, RadauIIA3_B, RadauIIA3_C, RadauIIA_A, RadauIIA_B, RadauIIA_C, over,
    IA3_A, IA3_B, IA3_C, IIA3_A, IIA3_B, IIA3_C, IIA_A, IIA_B, IIA_C, s6, ev, Q2R;
  cbn [map fst snd lit sqrtT mul sub add div opp Rops Qnum Qden]; change (@T Rops) with R;
  replace (6 / 1) with 6 by lra;
  repeat (apply f_equal2; [|]); try reflexivity; try field.
Lemma IA3_A_ev : @RadauIA3_A Rops = map (map (ev (sqrt 6))) IA3_A. Proof. tabs. Qed.
Lemma IA3_B_ev : @RadauIA3_B Rops = map (ev (sqrt 6)) IA3_B. Proof. tabs. Qed.
Lemma IA3_C_ev : @RadauIA3_C Rops = map (ev (sqrt 6)) IA3_C. Proof. tabs. Qed.
Lemma IIA3_A_ev : @RadauIIA3_A Rops = map (map (ev (sqrt 6))) IIA3_A. Proof. tabs. Qed.
Lemma IIA3_B_ev : @RadauIIA3_B Rops = map (ev (sqrt 6)) IIA3_B. Proof. tabs. Qed.
Lemma IIA3_C_ev : @RadauIIA3_C Rops = map (ev (sqrt 6)) IIA3_C. Proof. tabs. Qed.
Lemma IIA_A_ev : @RadauIIA_A Rops = map (map (ev (sqrt 6))) IIA_A. Proof. tabs. Qed.
Lemma IIA_B_ev : @RadauIIA_B Rops = map (ev (sqrt 6)) IIA_B. Proof. tabs. Qed.
Lemma IIA_C_ev : @RadauIIA_C Rops = map (ev (sqrt 6)) IIA_C. Proof. tabs. Qed.

Lemma C74_order_lemma r : In r radau_table ->
  has_order (r_order r) (r_A r) (r_B r) /\ ~ has_order (S (r_order r)) (r_A r) (r_B r) /\ row_sums (r_A r) (r_C r).
Proof.
  intros H. cbn [radau_table In] in H. destruct H as [<-|[<-|[<-|[]]]]; cbn [r_order r_A r_B r_C].
  - rewrite IA3_A_ev, IA3_B_ev, IA3_C_ev. split; [|split].
    + apply (order_d 6 (sqrt 6) s6_sq). vm_compute. reflexivity.
    + apply (not_order_d 6 (sqrt 6) s6_sq _ _ _ (tall 3)). vm_compute. reflexivity.
    + apply rows_d. vm_compute. reflexivity.
  - rewrite IIA3_A_ev, IIA3_B_ev, IIA3_C_ev. split; [|split].
    + apply (order_d 6 (sqrt 6) s6_sq). vm_compute. reflexivity.
    + apply (not_order_d 6 (sqrt 6) s6_sq _ _ _ (tall 3)). vm_compute. reflexivity.
    + apply rows_d. vm_compute. reflexivity.
  - rewrite IIA_A_ev, IIA_B_ev, IIA_C_ev. split; [|split].
    + apply (order_d 6 (sqrt 6) s6_sq). vm_compute. reflexivity.
    + apply (not_order_d 6 (sqrt 6) s6_sq _ _ _ (tall 5)). vm_compute. reflexivity.
    + apply rows_d. vm_compute. reflexivity.
Qed.
(** ** Fehlberg45 *)
Definition F45_A : list (list Q) :=
  [[0; 0; 0; 0; 0; 0]; [1 # 4; 0; 0; 0; 0; 0]; [3 # 32; 9 # 32; 0; 0; 0; 0];
   [1932 # 2197; -7200 # 2197; 7296 # 2197; 0; 0; 0];
   [439 # 216; -8 # 1; 3680 # 513; -845 # 4104; 0; 0];
   [-8 # 27; 2; -3544 # 2565; 1859 # 4104; -11 # 40; 0]]%Q.
Definition F45_B : list Q := [25 # 216; 0; 1408 # 2565; 2197 # 4104; -1 # 5; 0]%Q.
Definition F45_B2 : list Q := [16 # 135; 0; 6656 # 12825; 28561 # 56430; -9 # 50; 2 # 55]%Q.
Definition F45_C : list Q := [0; 1 # 4; 3 # 8; 12 # 13; 1; 1 # 2]%Q.
Definition lcm_dens (l : list Q) : Z := fold_right (fun q z => Z.lcm (Zpos (Qden q)) z) 1%Z l.
Definition F45_N : Z := Eval vm_compute in Z.lcm (lcm_dens (concat F45_A)) (Z.lcm (lcm_dens F45_B) (lcm_dens F45_B2)).
Lemma F45_A_qr : @Fehlberg45_A Rops = map (map qr) F45_A. Proof. reflexivity. Qed.
Lemma F45_B_qr : @Fehlberg45_B Rops = map qr F45_B. Proof. reflexivity. Qed.
Lemma F45_B2_qr : @Fehlberg45_B2 Rops = map qr F45_B2. Proof. reflexivity. Qed.
Lemma F45_C_qr : @Fehlberg45_C Rops = map qr F45_C. Proof. reflexivity. Qed.
Lemma C75_lemma :
  has_order 4 (@Fehlberg45_A Rops) (@Fehlberg45_B Rops) /\ ~ has_order 5 (@Fehlberg45_A Rops) (@Fehlberg45_B Rops) /\
  has_order 5 (@Fehlberg45_A Rops) (@Fehlberg45_B2 Rops) /\ ~ has_order 6 (@Fehlberg45_A Rops) (@Fehlberg45_B2 Rops) /\
  lower (@Fehlberg45_A Rops) /\ row_sums (@Fehlberg45_A Rops) (@Fehlberg45_C Rops).
Proof.
  rewrite F45_A_qr, F45_B_qr, F45_B2_qr, F45_C_qr. split; [|split; [|split; [|split; [|split]]]].
  - apply (order_ok_sound F45_N 4 F45_A F45_B 0); vm_compute; reflexivity.
  - apply (not_order 5 F45_A F45_B (tall 4)). vm_compute. reflexivity.
  - apply (order_ok_sound F45_N 5 F45_A F45_B2 0); vm_compute; reflexivity.
  - apply (not_order 6 F45_A F45_B2 (bush 5)). vm_compute. reflexivity.
  - intros i j Hij. apply (lowerQ_sound F45_A 0); [vm_compute; reflexivity|lia].
  - apply rowsumQ_sound. vm_compute. reflexivity.
Qed.
