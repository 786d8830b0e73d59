(** C79: the values run returns. *)
From Coq Require Import List ZArith QArith Bool Arith Lia Reals Lra.
From Verif Require Import Base Scalar Vec MBuffer MZeros MSteps MApi MDop853 MClasses Laws Spec SpecInst
  PStep PKeeps PCore PHist PRun PInterp PBound PVecR SpecRK PDim PRK PFwd PTerm SpecZeros PZeros PZeros2 SpecMS PMS PMS2 PRK2 PRK3 PMS3 PMS5 SpecOrder SpecConv PConv1 PConv2 PConv3 PConv4 PConv5 PConv6
  SpecConv3 PHi1 PHi2 PHi3 PHi4 PHi5 PGlob PLmm1 PLmm2 PLmm3 SpecLmm PLmm4 PLmm5 PLmm6 PLmm7.
Import ListNotations.
Open Scope R_scope.

Section Wide.
Context {E : @Env Rops}.
Variables (rhs : @rhs_t Rops) (n : nat) (L t0 te Bd : R) (y : R -> list R) (D : nat -> R -> list R).
Hypothesis HL : lipschitz n L rhs.
Hypothesis HB : 0 <= Bd.
Hypothesis D0 : forall t, D 0%nat t = y t.
Hypothesis HR : forall t, t0 <= t <= te -> rhs t (D 0%nat t) = Ret (D 1%nat t).
Hypothesis HDl : forall t j, t0 <= t <= te -> (j <= 4)%nat -> length (D j t) = n.
Hypothesis HDt : forall j m t x i, (j + m <= 4)%nat -> (i < n)%nat -> t0 <= t -> 0 <= x -> t + x <= te ->
  Rabs (cmp i (D j (t + x)) - tpoly (fun q => cmp i (D (j + q)%nat t)) m x) <= Bd * x ^ m.

(** the interpolant over the whole window *)
Lemma hermite_wide N e c h t a : 0 <= e -> 0 <= h ->
  buf_len (S (S N)) c -> wnear rhs t0 y (S (S N)) e c (buf_t c) h -> buf_t c <= te -> buf_t0 c <= t <= buf_t c ->
  hermite (OT := Rops) t c = Ret a ->
  near (5 * e + INR (S N) * h * (L * e) + 4 * (Bd * (INR (S N) * h) ^ 4)) (deref c a) (y t).
Proof.
  intros He Hh0 Bl W Hte Ht H. pose proof Bl as (B1 & B2 & B3). assert (HL0 : 0 <= L) by apply HL.
  destruct (wnear_top rhs t0 y (S N) e c (buf_t c) h W) as (U1 & V1).
  destruct (W (S N) ltac:(lia)) as (ti & yi & fi & A1 & A2 & A3 & V0 & A5 & A6 & U0).
  apply (rev_first _ (S N) _ (@zero Rops) B1) in A1. apply (rev_first _ (S N) _ [] B2) in A2. apply (rev_first _ (S N) _ [] B3) in A3.
  assert (E1 : buf_t0 c = ti) by (rewrite <- A1; unfold buf_t0; destruct (ts c); reflexivity).
  assert (E2 : buf_y0 c = yi) by (rewrite <- A2; unfold buf_y0; destruct (ys c); reflexivity).
  assert (E3 : buf_f0 c = fi) by (rewrite <- A3; unfold buf_f0; destruct (fs c); reflexivity).
  rewrite <- E1, <- E2, <- E3 in *. clear A1 A2 A3 E1 E2 E3 ti yi fi.
  set (w := INR (S N) * h) in *. assert (Hh : 0 <= w) by (apply Rmult_le_pos; [apply pos_INR|exact Hh0]).
  set (a0 := buf_t0 c) in *. set (b0 := buf_t c) in *.
  assert (P2 : 0 <= L * e) by (apply Rmult_le_pos; auto).
  assert (P3 : 0 <= w * (L * e)) by (apply Rmult_le_pos; auto).
  assert (P4 : 0 <= Bd * w ^ 4) by (apply Rmult_le_pos; auto; apply pow_le; auto).
  assert (Hl : forall t, t0 <= t <= te -> length (y t) = n) by (intros; rewrite <- D0; apply HDl; auto; lia).
  pose proof (Hl a0 ltac:(lra)) as La1. pose proof (Hl b0 ltac:(lra)) as Lb1. pose proof (Hl t ltac:(lra)) as Lt1.
  destruct (Req_dec t a0) as [->|Hne].
  - assert (Ha : a = CacheRow 0).
    { unfold hermite in H. fold a0 in H. replace (@eqb Rops a0 a0) with true in H by (symmetry; now apply Reqb_true). now injection H. }
    subst a. cbn [deref]. replace (nth 0 (ys c) []) with (buf_y0 c) by (unfold buf_y0; destruct (ys c); reflexivity).
    eapply near_mono; [|exact U0]. lra.
  - assert (Hab : a0 < b0) by lra.
    pose proof (HDl a0 1 ltac:(lra) ltac:(lia)) as La2. pose proof (HDl b0 1 ltac:(lra) ltac:(lia)) as Lb2.
    assert (N0 : near (L * e) (buf_f0 c) (D 1%nat a0)) by (apply (rhs_near' rhs n L t0 te y D HL D0 HR HDl a0 (buf_y0 c)); auto; lra).
    assert (N1 : near (L * e) (buf_f c) (D 1%nat b0)) by (apply (rhs_near' rhs n L t0 te y D HL D0 HR HDl b0 (buf_y c)); auto; lra).
    destruct U0 as (U0l & U0). destruct U1 as (U1l & U1). destruct N0 as (N0l & N0). destruct N1 as (N1l & N1).
    assert (SD : same_dim n c). { split; [|split; [|split]]; eapply eq_trans; eauto. }
    assert (Ln : length (deref c a) = n).
    { destruct (Nat.eq_dec n 0) as [En|En].
      - pose proof (hermite_eval c t Hne Hab) as He'. cbn zeta in He'. rewrite He' in H. injection H as <-. cbn [deref].
        destruct SD as (S1 & S2 & S3 & S4). auto 10 with vlen.
      - destruct (hermite_cmp c n t 0 SD ltac:(lia) Hab Hne) as (a' & Ha & Hln & _). rewrite Ha in H. injection H as <-. exact Hln. }
    split; [exact (eq_trans Ln (eq_sym Lt1))|].
    intros i Hi0. assert (Hin : (i < n)%nat) by (eapply Nat.lt_le_trans; [exact Hi0|apply Nat.eq_le_incl; exact Ln]).
    destruct (hermite_cmp c n t i SD Hin Hab Hne) as (a' & Ha & _ & Hv). rewrite Ha in H. injection H as <-. cbn zeta in Hv.
    refine (eq_ind_r (fun z => Rabs (z - cmp i (y t)) <= _) _ Hv). fold a0 b0.
    specialize (U0 i ltac:(rewrite U0l, La1; exact Hin)). specialize (U1 i ltac:(rewrite U1l, Lb1; exact Hin)).
    specialize (N0 i ltac:(rewrite N0l, La2; exact Hin)). specialize (N1 i ltac:(rewrite N1l, Lb2; exact Hin)).
    assert (Hw : b0 - a0 <= w) by exact A6.
    set (X := (t - a0) / (b0 - a0)).
    assert (X0 : 0 <= X) by (unfold X, Rdiv; apply Rmult_le_pos; [lra|left; apply Rinv_0_lt_compat; lra]).
    assert (X1 : X <= 1). { unfold X. apply (Rmult_le_reg_r (b0 - a0)); [lra|]. unfold Rdiv. rewrite Rmult_assoc, Rinv_l, Rmult_1_r by lra. lra. }
    pose proof (cubic_exact (fun j x => cmp i (D j x)) a0 b0 t Bd HB Hab Ht ltac:(intros; apply HDt; auto; lra)) as Ex.
    pose proof (cubic_bound X (b0 - a0) _ _ _ _ e (L * e) (conj X0 X1) ltac:(lra) U0 U1 N0 N1) as Pe.
    cbv beta in Ex. rewrite !D0 in Ex. fold X in Ex.
    assert (Q1 : (b0 - a0) * (L * e) <= w * (L * e)) by (apply Rmult_le_compat_r; lra).
    assert (Q2 : (b0 - a0) ^ 4 <= w ^ 4) by (apply pow_incr; lra).
    assert (Q3 : Bd * (b0 - a0) ^ 4 <= Bd * w ^ 4) by (apply Rmult_le_compat_l; lra).
    eapply Rle_trans; [|apply Rle_trans with (5 * e + (b0 - a0) * (L * e) + 4 * (Bd * (b0 - a0) ^ 4)); [apply Rplus_le_compat; [exact Pe|exact Ex]|lra]].
    eapply Rle_trans; [|apply Rabs_triang]. right. f_equal. unfold cubic. change (@T Rops) with R. ring.
Qed.

(** runs under an invariant *)
Variables (m : @meth Rops) (e h : R) (fuelc : nat) (o : @options Rops) (tb : @ext Rops) (I : @st Rops -> Prop).
Hypothesis Pos : 0 <= e /\ 0 < h.
Hypothesis Fx : is_fixed m = true.
Hypothesis Hint : interp_of (E := E) m rhs = interp_default.
Hypothesis Cl : forall x x', I x -> core_of (E := E) m fuelc o rhs x = (Ret tt, x') -> I x'.
Hypothesis Ig : forall x, I x -> good rhs m x /\ hstep x = h.
Hypothesis Iw : forall x, I x -> now x <= te -> wnear rhs t0 y (len_history m) e (cache x) (now x) h.
Notation sv := (solver_of (E := E) m fuelc o rhs tb).

Lemma inv_push x x' : I x -> core_of (E := E) m fuelc o rhs x = (Ret tt, x') ->
  now x' = now x + h /\ exists y' f', cache x' = push (cache x) (now x + h) y' f'.
Proof.
  intros Hi Hc. destruct (Ig x Hi) as (G & Hx). apply core_of_ok in Hc; [|apply wf_stages; apply G].
  destruct Hc as (_ & _ & E1 & t' & y' & f' & (P1 & P2) & P3). specialize (P3 Fx). rewrite Hx in P3. subst t'.
  destruct (len_history_pos m) as (N & HN). pose proof G as ((Wb & _) & _). rewrite HN in Wb.
  split; [|exists y', f'; exact P1]. unfold now at 1. rewrite P1. apply (push_t (S N)). exact Wb.
Qed.
Lemma inv_chain b x l x1 : chain sv b x l x1 -> I x -> I x1 /\ now x <= now x1.
Proof.
  induction 1 as [|s s1 l s2 (_ & Hc) _ IH]; intros Hi; [split; [auto|lra]|].
  cbn [s_core solver_of] in Hc. pose proof (Cl _ _ Hi Hc) as I1. destruct (IH I1) as (I2 & Hle).
  destruct (inv_push _ _ Hi Hc) as (Hn & _). split; [exact I2|]. rewrite Hn in Hle. lra.
Qed.
Lemma inv_window b x l x1 ti : chain sv b x l x1 -> Forall (fun z => @ltb Rops (now z) ti = true) (removelast (x :: l)) ->
  I x -> now x1 <= te -> l = [] /\ x1 = x \/ buf_t0 (cache x1) <= ti.
Proof.
  induction 1 as [|s s1 l s2 (_ & Hc) Hch IH]; intros F Hi Hte; [auto|]. right.
  cbn [s_core solver_of] in Hc. pose proof (Cl _ _ Hi Hc) as I1. destruct (inv_push _ _ Hi Hc) as (Hn & y' & f' & Hp).
  destruct (inv_chain _ _ _ _ Hch I1) as (I2 & Hle).
  change (removelast (s :: s1 :: l)) with (s :: removelast (s1 :: l)) in F. inversion F as [|? ? F1 F2]; subst.
  destruct (IH F2 I1 Hte) as [(-> & ->)|Hw]; [|exact Hw].
  apply Rltb_true in F1. rewrite Hp. destruct (Ig s Hi) as (G & _). pose proof (Iw s Hi) as W. destruct (len_history_pos m) as (N & HN).
  pose proof G as ((Wb & _) & _). rewrite HN in *. specialize (W ltac:(rewrite Hn in Hle; lra)).
  pose proof (oldest_old rhs t0 y h (cache s) N (now s) _ (now s + h) y' f' Wb W). lra.
Qed.
Lemma inv_sampled x tl vs x3 : sampled sv x tl vs x3 -> I x -> I x3 /\ now x <= now x3.
Proof.
  induction 1 as [|s ti l s1 a s2 tl vs s3 (Hch & _) _ Hi _ IH]; intros Ix; [split; [auto|lra]|].
  cbn [s_interp solver_of] in Hi. rewrite Hint in Hi. unfold interp_default in Hi. injection Hi as _ <-.
  destruct (inv_chain _ _ _ _ Hch Ix) as (I1 & L1). destruct (IH I1) as (I3 & L3). split; [exact I3|]. lra.
Qed.
Definition wide : R := 5 * e + INR (len_history m - 1) * h * (L * e) + 4 * (Bd * (INR (len_history m - 1) * h) ^ 4).
Lemma sampled_wide x tl vs x3 : sampled sv x tl vs x3 -> I x -> now x3 <= te -> @is_sorted Rops tl = true -> (forall t tl', tl = t :: tl' -> buf_t0 (cache x) <= t) ->
  Forall2 (fun t v => near wide v (y t)) tl vs.
Proof.
  intros Hs. induction Hs as [|s ti l s1 a s2 tl vs s3 (Hch & Hlt) Hge Hin Hs IH]; intros Hi Hte Ho Hw; [constructor|].
  cbn [s_interp solver_of] in Hin. rewrite Hint in Hin. unfold interp_default in Hin. injection Hin as Hin <-.
  destruct (inv_chain _ _ _ _ Hch Hi) as (I1 & L1). destruct (inv_sampled _ _ _ _ Hs I1) as (I3 & L3).
  assert (Hte1 : now s1 <= te) by lra. apply Rltb_false in Hge.
  assert (Hlo : buf_t0 (cache s1) <= ti).
  { destruct (inv_window _ _ _ _ _ Hch Hlt Hi Hte1) as [(-> & ->)|H]; [|exact H]. apply (Hw ti tl). reflexivity. }
  constructor.
  - destruct (Ig s1 I1) as (G & _). pose proof (Iw s1 I1 Hte1) as Wn. destruct (len_history_pos m) as (N & HN).
    pose proof G as ((Wb & _) & _). rewrite HN in Wb, Wn. unfold wide. replace (len_history m - 1)%nat with (S N) by lia.
    apply (hermite_wide N e (cache s1) h ti a); auto; try lra.
  - apply IH; auto.
    + destruct tl as [|b tl]; auto. cbn [is_sorted] in Ho. now apply andb_true_iff in Ho as (_ & Ho).
    + intros t tl' ->. cbn [is_sorted] in Ho. apply andb_true_iff in Ho as (Ho & _). apply Rleb_true in Ho. lra.
Qed.
Lemma run_wide fuel t rows (s s' : @st Rops) : I s -> is_sorted t = true -> run (E := E) sv fuel t s = (Ret rows, s') -> now s' <= te ->
  Forall (fun r => near wide (snd r) (y (fst r))) rows.
Proof.
  intros Hi Hs Hr Hn. destruct (C13_lemma m fuelc o rhs tb fuel t s rows s' Hs Hr) as (s1 & R1 & R2 & R3).
  destruct (inv_sampled _ _ _ _ R2 Hi) as (I1 & L1).
  assert (Hn1 : now s1 <= te).
  { destruct R3 as [(_ & ->)|(tj & _ & l & (Hch & _) & _)]; auto. destruct (inv_chain _ _ _ _ Hch I1) as (_ & L2). lra. }
  rewrite <- (combine_split_id rows). apply (Forall2_combine (fun t v => near wide v (y t))).
  apply (sampled_wide s _ _ s1 R2 Hi Hn1).
  - rewrite R1. now apply sorted_firstn.
  - intros t1 tl' Ht. destruct t as [|ta tr]; [destruct rows; discriminate|].
    destruct rows as [|r rows]; [discriminate|]. rewrite R1 in Ht. cbn [length firstn] in Ht. injection Ht as -> _.
    rewrite run_sorted_eq in Hr by auto. destruct (ltb t1 _) eqn:e1; [discriminate|]. apply Rltb_false in e1. lra.
Qed.
End Wide.

Lemma rev_pos {X} (l : list X) d j : (j < length l)%nat -> nth_error (rev l) j = Some (nth (length l - S j) l d).
Proof. intros Hj. rewrite (nth_error_nth' (rev l) d) by (now rewrite rev_length). now rewrite rev_nth. Qed.
Lemma sub_le (a b : R) : 0 <= b -> a - b <= a. Proof. lra. Qed.
Lemma recorded_wnear rhs y t0 d N (x : @st Rops) h : buf_len N (cache x) -> hstep x = h -> 0 <= h -> recorded N rhs y t0 d x -> wnear rhs t0 y N d (cache x) (now x) h.
Proof.
  intros (L1 & L2 & L3) Hh Ph (R1 & R2) j Hj. destruct (R2 (N - S j)%nat ltac:(lia)) as (E1 & E2 & E3).
  assert (A1 : lastn N (ts (cache x)) = ts (cache x)) by (rewrite <- L1; apply lastn_all).
  assert (A2 : lastn N (ys (cache x)) = ys (cache x)) by (rewrite <- L2; apply lastn_all).
  assert (A3 : lastn N (MBuffer.fs (cache x)) = MBuffer.fs (cache x)) by (rewrite <- L3; apply lastn_all).
  rewrite A1 in E1, E2, E3. rewrite A2 in E2, E3. rewrite A3 in E2. rewrite Hh in *.
  replace (N - 1 - (N - S j))%nat with j in E1 by lia.
  set (ti := nth (N - S j) (ts (cache x)) 0) in *. exists ti, (nth (N - S j) (ys (cache x)) []), (nth (N - S j) (MBuffer.fs (cache x)) []).
  assert (B : 0 <= INR j * h <= INR (N - 1) * h). { split; [apply Rmult_le_pos; [apply pos_INR|lra]|]. apply Rmult_le_compat_r; [lra|]. apply le_INR. lia. }
  split; [|split; [|split; [|split; [exact E2|split; [|split; [|exact E3]]]]]].
  - exact (eq_trans (rev_pos (ts (cache x)) 0 j (eq_ind_r (fun q => (j < q)%nat) Hj L1)) (f_equal (fun q => Some (nth (q - S j) (ts (cache x)) 0)) L1)).
  - exact (eq_trans (rev_pos (ys (cache x)) [] j (eq_ind_r (fun q => (j < q)%nat) Hj L2)) (f_equal (fun q => Some (nth (q - S j) (ys (cache x)) [])) L2)).
  - exact (eq_trans (rev_pos (MBuffer.fs (cache x)) [] j (eq_ind_r (fun q => (j < q)%nat) Hj L3)) (f_equal (fun q => Some (nth (q - S j) (MBuffer.fs (cache x)) [])) L3)).
  - assert (E1' : ti = now x - INR j * h) by exact E1. change (@T Rops) with R in *. lra.
  - assert (E1' : ti = now x - INR j * h) by exact E1. change (@T Rops) with R in *. lra.
Qed.
(** classes of order one need no first stepper *)
Lemma start_one {E : @Env Rops} (A B : list R) (Bn : R) rhs t0 u g h fs fuel s0 : length A = 1%nat -> garbage_ok (@ImplMS Rops A B Bn) g ->
  init_ms (E := E) (@ImplMS Rops A B Bn) g rhs t0 u (Some h) fs fuel = Ret s0 ->
  len_history (@ImplMS Rops A B Bn) = 2%nat /\ exists f, rhs t0 u = Ret f /\ cache s0 = @mkbuf Rops [t0; t0] [u; u] [f; f].
Proof.
  intros e1 Hg Hi. unfold init_ms in Hi.
  destruct (init_base (@ImplMS Rops A B Bn) g rhs t0 u (Some h)) as [sb| |] eqn:eb; try discriminate. cbn [obind] in Hi.
  apply init_base_spec in eb as (Gb & f & Hf & Hc & Hhb); auto.
  assert (Lh : len_history (@ImplMS Rops A B Bn) = 2%nat) by (cbn [len_history]; unfold ms_len; change (@length (@T Rops) A) with (@length R A); rewrite e1; reflexivity).
  split; [exact Lh|]. exists f. split; [exact Hf|].
  assert (e2 : Nat.eqb (ms_order (@ImplMS Rops A B Bn)) 1 = true) by (cbn [ms_order]; change (@length (@T Rops) A) with (@length R A); rewrite e1; reflexivity).
  rewrite e2 in Hi. rewrite Lh in Hi. injection Hi as <-. unfold set_cache. cbn [cache]. rewrite Hc, Lh. reflexivity.
Qed.

Section RunMain.
Context {E : @Env Rops}.
Variables (rhs : @rhs_t Rops) (n : nat) (L t0 te : R) (y : R -> list R).
Hypothesis HL : lipschitz n L rhs.
Hypothesis Hte : t0 <= te.

Definition taylor4 (D : nat -> R -> list R) (Bd : R) : Prop :=
  0 <= Bd /\ (forall t, D 0%nat t = y t) /\ (forall t, t0 <= t <= te -> rhs t (D 0%nat t) = Ret (D 1%nat t)) /\
  (forall t j, t0 <= t <= te -> (j <= 4)%nat -> length (D j t) = n) /\
  (forall j m t x i, (j + m <= 4)%nat -> (i < n)%nat -> t0 <= t -> 0 <= x -> t + x <= te ->
    Rabs (cmp i (D j (t + x)) - tpoly (fun q => cmp i (D (j + q)%nat t)) m x) <= Bd * x ^ m).
(** an invariant of an instance of [m] that keeps the whole window near the solution *)
Definition kept (m : @meth Rops) (fuelc : nat) (o : @options Rops) (h e : R) (J : @st Rops -> Prop) : Prop :=
  0 <= e /\ (forall x x', J x -> core_of (E := E) m fuelc o rhs x = (Ret tt, x') -> J x') /\
  (forall x, J x -> good rhs m x /\ hstep x = h) /\
  (forall x, J x -> now x <= te -> wnear rhs t0 y (len_history m) e (cache x) (now x) h).
Lemma taylor4_ex : Ck_solution 5 rhs n t0 te y -> exists D Bd, taylor4 D Bd.
Proof.
  intros HC5. destruct (taylor_facts 5 rhs n t0 te y ltac:(lia) Hte HC5) as (D & Bd & HBd & D0 & DR & Dl & _ & Dt). exists D, Bd.
  split; [exact HBd|]. split; [exact D0|]. split; [exact DR|]. split; [intros; apply Dl; auto; lia|intros; apply Dt; auto; lia].
Qed.
Lemma kept_run D Bd m fuelc o tb h e J fuel t rows s s' : taylor4 D Bd -> is_fixed m = true -> interp_of (E := E) m rhs = interp_default -> 0 < h ->
  kept m fuelc o h e J -> J s -> is_sorted t = true -> run (E := E) (solver_of (E := E) m fuelc o rhs tb) fuel t s = (Ret rows, s') -> now s' <= te ->
  Forall (fun r => near (wide L Bd m e h) (snd r) (y (fst r))) rows.
Proof.
  intros (HBd & D0 & DR & Dl & Dt) Fx Hint Hh (Pe & JC & Jg & Jw) Js Hsort Hrun Hn'.
  exact (run_wide (E := E) rhs n L t0 te Bd y D HL HBd D0 DR Dl Dt m e h fuelc o tb J (conj Pe Hh) Fx Hint JC Jg Jw fuel t rows s s' Js Hsort Hrun Hn').
Qed.

(** from any way of starting that leaves a history within C h^p of the solution *)
Lemma started_gen k m p (St : R -> @first_stepper Rops -> Prop) C hS : Ck_solution (Nat.max 5 (k + 1)) rhs n t0 te y -> In (k, m) (am_table ++ bdf_table) -> (p <= 4)%nat ->
  0 <= C -> 0 < hS ->
  (forall A B Bn h g fs fuel s0, m = @ImplMS Rops A B Bn -> 0 < h <= hS -> garbage_ok m g -> St h fs -> init_ms (E := E) m g rhs t0 (y t0) (Some h) fs fuel = Ret s0 ->
    good rhs m s0 /\ hstep s0 = h /\ (now s0 <= te -> dims n s0 /\ recorded (length A) rhs y t0 (C * h ^ p) s0)) ->
  exists D Bd K h0, taylor4 D Bd /\ 0 <= K /\ 0 < h0 /\ is_fixed m = true /\ interp_of (E := E) m rhs = interp_default /\
  forall h rho g fs fuel0 fuelc o tb fuel cs s0 s, 0 < h <= h0 -> garbage_ok m g ->
    St h fs -> init_ms (E := E) m g rhs t0 (y t0) (Some h) fs fuel0 = Ret s0 ->
    0 <= rho -> (forall A B Bn, m = @ImplMS Rops A B Bn -> length A = length B -> h * (L * Rabs Bn) <= 1 / 2 -> solves_to (E := E) rhs n te A B Bn fuelc o h rho s0) ->
    s = session (E := E) (solver_of (E := E) m fuelc o rhs tb) fuel cs s0 ->
    exists e J, kept m fuelc o h e J /\ J s /\ wide L Bd m e h <= K * (h ^ Nat.min k p + rho / h).
Proof.
  intros HC Hm Hp4 PC PhS HS'. destruct (implicit_stable k m Hm) as (A & B & Bn & -> & ZS).
  pose proof ZS as (Hk & HA & LAB & _).
  assert (LA : (0 < length A)%nat) by (destruct A; [contradiction|cbn; lia]).
  assert (HC' : Ck_solution (k + 1) rhs n t0 te y) by (apply (Ck_mono _ (Nat.max 5 (k + 1))); auto; lia).
  assert (HC5 : Ck_solution 5 rhs n t0 te y) by (apply (Ck_mono _ (Nat.max 5 (k + 1))); auto; lia).
  destruct (taylor4_ex HC5) as (D & Bd & T4). pose proof T4 as (HBd & _).
  assert (HS := fun h g fs fuel s0 => HS' A B Bn h g fs fuel s0 eq_refl). clear HS'.
  destruct (converge_inv (E := E) rhs n L t0 te y A B Bn k HL Hte HC' ZS) as (K & h9 & HK & Hh9 & HB & H).
  set (h0 := Rmin h9 hS). pose proof (Rmin_l h9 hS) as Hl. pose proof (Rmin_r h9 hS) as Hr. assert (Hh0 : 0 < h0) by (unfold h0; apply Rmin_glb_lt; lra). fold h0 in Hl, Hr.
  assert (Pl : 0 <= L) by apply HL. pose proof (pos_INR (length A)) as PN.
  set (M := @ImplMS Rops A B Bn) in *. set (w := INR (len_history M - 1)). assert (Pw : 0 <= w) by apply pos_INR.
  set (K1 := (1 + INR (length A)) * (K * (1 + C)) + C). assert (PKC : 0 <= K * (1 + C)) by (apply Rmult_le_pos; lra).
  assert (PK1 : 0 <= K1) by (unfold K1; assert (0 <= (1 + INR (length A)) * (K * (1 + C))) by (apply Rmult_le_pos; lra); lra).
  exists D, Bd, (5 * K1 + w * (L * K1) + 4 * (Bd * w ^ 4)), h0. split; [exact T4|].
  split. { assert (0 <= w * (L * K1)) by (apply Rmult_le_pos; [exact Pw|now apply Rmult_le_pos]). assert (0 <= Bd * w ^ 4) by (apply Rmult_le_pos; [exact HBd|now apply pow_le]). lra. }
  split; [lra|]. split; [reflexivity|]. split; [reflexivity|].
  intros h rho g fs fuel0 fuelc o tb fuel cs s0 s Hh Hg Hst Hi Hrho Hsol Es.
  assert (Hb' : h * (L * Rabs Bn) <= 1 / 2). { eapply Rle_trans; [apply Rmult_le_compat_r; [exact (LBn_pos rhs n L Bn HL)|eapply Rle_trans; [apply Hh|exact Hl]]|exact HB]. }
  destruct (HS h g fs fuel0 s0 ltac:(lra) Hg Hst Hi) as (G0 & H0 & Rec).
  assert (Pp : 0 <= h ^ p) by (apply pow_le; lra). assert (PCp : 0 <= C * h ^ p) by (now apply Rmult_le_pos).
  destruct (H h rho (C * h ^ p) fuelc o s0 ltac:(lra) Hrho PCp (Hsol A B Bn eq_refl LAB Hb') G0 H0 Rec) as (I & I1 & I2 & I0 & I3).
  set (b := h ^ Nat.min k p + rho / h). assert (Prh : 0 <= rho / h) by (apply Rmult_le_pos; [exact Hrho|left; apply Rinv_0_lt_compat; lra]).
  assert (Pmin : 0 <= h ^ Nat.min k p) by (apply pow_le; lra).
  assert (Pb : 0 <= b) by (unfold b; lra).
  assert (Hb1 : h ^ k + C * h ^ p + rho / h <= (1 + C) * b).
  { pose proof (min_pow h (Nat.min k p) k ltac:(lra) ltac:(lia)) as Q1. pose proof (min_pow h (Nat.min k p) p ltac:(lra) ltac:(lia)) as Q2. unfold b.
    assert (C * h ^ p <= C * h ^ Nat.min k p) by (apply Rmult_le_compat_l; auto). assert (0 <= C * (rho / h)) by (apply Rmult_le_pos; auto). lra. }
  assert (Hb2 : C * h ^ p <= C * b).
  { apply Rmult_le_compat_l; [exact PC|]. pose proof (min_pow h (Nat.min k p) p ltac:(lra) ltac:(lia)) as Q2. unfold b. lra. }
  set (e := K1 * b). assert (Pe : 0 <= e) by (now apply Rmult_le_pos).
  assert (Hb3 : K * (h ^ k + C * h ^ p + rho / h) <= e).
  { eapply Rle_trans; [apply Rmult_le_compat_l; [exact HK|exact Hb1]|]. unfold e, K1. rewrite <- Rmult_assoc. apply Rmult_le_compat_r; [exact Pb|].
    assert (0 <= INR (length A) * (K * (1 + C))) by (apply Rmult_le_pos; lra). lra. }
  assert (Hb4 : C * h ^ p <= e).
  { eapply Rle_trans; [exact Hb2|]. unfold e, K1. apply Rmult_le_compat_r; [exact Pb|]. assert (0 <= (1 + INR (length A)) * (K * (1 + C))) by (apply Rmult_le_pos; lra). lra. }
  set (J := fun x => I x /\ (now x <= te -> wnear rhs t0 y (len_history M) e (cache x) (now x) h)).
  assert (J0 : J s0).
  { split; [exact I0|]. intros Hn0. destruct (Rec Hn0) as (_ & Rc). destruct (Nat.eq_dec (length A) 1) as [eA|eA].
    - destruct (start_one (E := E) A B Bn rhs t0 (y t0) g h fs fuel0 s0 eA Hg Hi) as (Lh & f & Hf & Ec). fold M in Lh.
      assert (Nw : now s0 = t0) by (unfold now; rewrite Ec; reflexivity). rewrite Nw, Ec.
      pose proof (wnear_init rhs t0 y M t0 (y t0) f h e Pe ltac:(lra) (Rle_refl t0) Hf (near_refl e (y t0) Pe)) as Q. rewrite Lh in *. exact Q.
    - assert (Lh : len_history M = length A). { unfold M. cbn [len_history]. unfold ms_len. change (@length (@T Rops) A) with (@length R A). apply Nat.max_l. clear -LA eA. change (@length (@T Rops) A) with (@length R A) in *. lia. }
      rewrite Lh. eapply wnear_mono; [exact Hb4|]. apply recorded_wnear; auto; try lra. rewrite <- Lh. apply G0. }
  assert (JC : forall x x', J x -> core_of (E := E) M fuelc o rhs x = (Ret tt, x') -> J x').
  { intros x x' (Ix & Wx) Hc. pose proof (I1 x Ix) as Ix'. rewrite Hc in Ix'. cbn [snd] in Ix'. split; [exact Ix'|]. intros Hle.
    destruct (I3 x Ix) as (Gx & Hx & _). destruct (I3 x' Ix') as (Gx' & Hx' & Q). destruct (Q Hle) as (Nr & _ & Rr).
    pose proof Hc as Hc2. apply core_of_ok in Hc2; [|apply wf_stages; apply Gx].
    destruct Hc2 as (_ & _ & _ & t' & y' & f' & (P1 & P2) & P3). specialize (P3 eq_refl). rewrite Hx in P3. subst t'.
    destruct (len_history_pos M) as (N & HN). pose proof Gx as ((Wb & _) & _). rewrite HN in Wb.
    assert (Nt : now x' = now x + h) by (unfold now at 1; rewrite P1; apply (push_t (S N)); exact Wb).
    assert (Ey : state x' = y') by (unfold state; rewrite P1; exact (push_y (S N) _ _ _ _ Wb)).
    assert (Ef : deriv x' = f') by (unfold deriv; rewrite P1; exact (push_f (S N) _ _ _ _ Wb)).
    pose proof (good_last rhs M x' Gx') as Gl. rewrite Nt, Ey, Ef in Gl. rewrite Ey, Nt in Nr. rewrite HN in *.
    assert (Hle0 : now x <= te) by (rewrite Nt in Hle; lra). destruct (I3 x Ix) as (_ & _ & Q'). destruct (Q' Hle0) as (_ & _ & R1 & _). rewrite Hx in R1.
    assert (0 <= INR (length A - 1) * h) by (apply Rmult_le_pos; [apply pos_INR|lra]).
    assert (Ht0 : t0 <= now x) by exact (Rle_trans _ _ _ R1 (sub_le _ _ H1)).
    rewrite P1, Nt. apply (wnear_push rhs t0 y (S N) e); auto; try lra. eapply near_mono; [exact Hb3|exact Nr]. }
  assert (JI : forall ti x, J x -> J (snd (interp_of (E := E) M rhs ti x))).
  { intros ti x (Ix & Wx). pose proof (I2 ti x Ix) as Ix'. split; [exact Ix'|]. destruct (interp_of (E := E) M rhs ti x) as [r x'] eqn:ei. cbn [snd] in *.
    apply interp_of_ok in ei as (E1 & _). unfold now in *. rewrite E1. exact Wx. }
  assert (Js : J s).
  { rewrite Es. apply session_inv; [|exact JI|exact J0]. intros b0 x _ _ Jx. cbn [s_core solver_of]. destruct (core_of (E := E) M fuelc o rhs x) as [r x'] eqn:ec. cbn [snd].
    destruct r as [[]|ex|]; [eapply JC; eauto| |]. all: pose proof (I1 x (proj1 Jx)) as Ix'; rewrite ec in Ix'; cbn [snd] in Ix'; split; [exact Ix'|];
    apply core_of_ok in ec; [|apply wf_stages; apply (I3 x (proj1 Jx))]; destruct ec as (_ & _ & _ & E2); unfold now; rewrite E2; exact (proj2 Jx). }
  exists e, J. split; [exact (conj Pe (conj JC (conj (fun x Jx => conj (proj1 (I3 x (proj1 Jx))) (proj1 (proj2 (I3 x (proj1 Jx))))) (fun x Jx => proj2 Jx))))|].
  split; [exact Js|]. unfold wide. fold w.
  assert (Q4 : h ^ 4 <= b). { pose proof (min_pow h (Nat.min k p) 4 ltac:(lra) ltac:(lia)). unfold b. lra. }
  assert (T1 : w * h * (L * e) <= w * (L * e)).
  { rewrite (Rmult_comm w h), Rmult_assoc. assert (0 <= w * (L * e)) by (repeat apply Rmult_le_pos; lra). assert (h * (w * (L * e)) <= 1 * (w * (L * e))) by (apply Rmult_le_compat_r; lra). lra. }
  assert (T2 : Bd * (w * h) ^ 4 <= Bd * w ^ 4 * b).
  { rewrite Rpow_mult_distr, <- Rmult_assoc. apply Rmult_le_compat_l; [|exact Q4]. apply Rmult_le_pos; [exact HBd|apply pow_le; exact Pw]. }
  replace ((5 * K1 + w * (L * K1) + 4 * (Bd * w ^ 4)) * b) with (5 * e + w * (L * e) + 4 * (Bd * w ^ 4 * b)) by (unfold e; ring). lra.
Qed.
Lemma started_inv k m m1 p : Ck_solution (Nat.max 5 (k + 1)) rhs n t0 te y -> smooth_along rhs n t0 te y -> In (k, m) (am_table ++ bdf_table) -> In (m1, p) rk_table ->
  exists D Bd K h0, taylor4 D Bd /\ 0 <= K /\ 0 < h0 /\ is_fixed m = true /\ interp_of (E := E) m rhs = interp_default /\
  forall h rho g fs fuel0 fuelc o tb fuel cs s0 s, 0 < h <= h0 -> garbage_ok m g ->
    starts (E := E) rhs t0 (y t0) h (Some m1) fs -> init_ms (E := E) m g rhs t0 (y t0) (Some h) fs fuel0 = Ret s0 ->
    0 <= rho -> (forall A B Bn, m = @ImplMS Rops A B Bn -> length A = length B -> h * (L * Rabs Bn) <= 1 / 2 -> solves_to (E := E) rhs n te A B Bn fuelc o h rho s0) ->
    s = session (E := E) (solver_of (E := E) m fuelc o rhs tb) fuel cs s0 ->
    exists e J, kept m fuelc o h e J /\ J s /\ wide L Bd m e h <= K * (h ^ Nat.min k p + rho / h).
Proof.
  intros HC HJ Hm Hp. destruct (implicit_stable k m Hm) as (A & B & Bn & Em & ZS).
  assert (LA : (0 < length A)%nat) by (destruct ZS as (_ & HA & _); destruct A; [contradiction|cbn; lia]).
  assert (HC5 : Ck_solution 5 rhs n t0 te y) by (apply (Ck_mono _ (Nat.max 5 (k + 1))); auto; lia).
  destruct (start_rec (E := E) rhs n L t0 te y HL Hte A B Bn m1 p HC5 HJ Hp LA) as (C & PC & HS).
  assert (Hp4 : (p <= 4)%nat). { clear -Hp. cbn in Hp. repeat (destruct Hp as [[= _ <-]|Hp]; [lia|]). destruct Hp. }
  apply (started_gen k m p (fun h fs => starts (E := E) rhs t0 (y t0) h (Some m1) fs) C 1 HC Hm Hp4 PC); auto; [lra|].
  intros A' B' Bn' h g fs fuel s0 E' Hh Hg Hst Hi. rewrite Em in E'. injection E' as <- <- <-. rewrite Em in *. exact (HS h g fs fuel s0 Hh Hg Hst Hi).
Qed.
Lemma C79_run_lemma k m m1 p : Ck_solution (Nat.max 5 (k + 1)) rhs n t0 te y -> smooth_along rhs n t0 te y -> In (k, m) (am_table ++ bdf_table) -> In (m1, p) rk_table ->
  solve_dim (E := E) ->
  exists K h0, 0 < h0 /\ forall h rho g fs fuel0 fuelc o tb fuel cs s0 s fuel' t rows s', 0 < h <= h0 -> 0 <= rho -> garbage_ok m g ->
    starts (E := E) rhs t0 (y t0) h (Some m1) fs -> init_ms (E := E) m g rhs t0 (y t0) (Some h) fs fuel0 = Ret s0 ->
    leaves_at_most rho te m (solver_of (E := E) m fuelc o rhs PInf) s0 ->
    s = session (E := E) (solver_of (E := E) m fuelc o rhs tb) fuel cs s0 ->
    is_sorted t = true -> run (E := E) (solver_of (E := E) m fuelc o rhs tb) fuel' t s = (Ret rows, s') -> now s' <= te ->
    Forall (fun r => near (K * (h ^ Nat.min k p + rho / h)) (snd r) (y (fst r))) rows.
Proof.
  intros HC HJ Hm Hp Sd. destruct (started_inv k m m1 p HC HJ Hm Hp) as (D & Bd & K & h0 & T4 & _ & Hh0 & Fx & Hint & H).
  exists K, h0. split; [exact Hh0|]. intros h rho g fs fuel0 fuelc o tb fuel cs s0 s fuel' t rows s' Hh Hrho Hg Hst Hi Lv Es Hsort Hrun Hn'.
  destruct (H h rho g fs fuel0 fuelc o tb fuel cs s0 s Hh Hg Hst Hi Hrho (leaves_solves (E := E) rhs n L te HL k m h rho fuelc o s0 Hm Sd (proj1 Hh) Lv) Es) as (e & J & Hk & Js & Hw).
  pose proof (kept_run D Bd m fuelc o tb h e J fuel' t rows s s' T4 Fx Hint (proj1 Hh) Hk Js Hsort Hrun Hn') as Q.
  eapply Forall_impl; [|exact Q]. intros r Hr. eapply near_mono; [exact Hw|exact Hr].
Qed.
End RunMain.
