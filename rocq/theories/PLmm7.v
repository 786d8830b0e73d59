(** C79: start of the implicit multistep classes by a Runge-Kutta class, and their
    order of convergence. *)
From Coq Require Import List ZArith QArith Bool Arith Lia Reals Lra.
From Verif Require Import Base Scalar Vec MBuffer MZeros MSteps MApi MClasses Laws Spec SpecInst PStep PKeeps PCore PHist PBound PVecR SpecRK PDim PTerm SpecZeros PZeros PZeros2 SpecMS PMS PMS2 PRK2 PRK3 PMS3 PMS5
  SpecOrder SpecConv PConv1 SpecConv3 PHi1 PHi3 PHi4 PGlob PLmm1 PLmm2 PLmm3 SpecLmm PLmm4 PLmm5 PLmm6.
Import ListNotations.
Open Scope R_scope.

Lemma Ck_mono j k rhs n t0 te y : (1 <= j <= k)%nat -> Ck_solution k rhs n t0 te y -> Ck_solution j rhs n t0 te y.
Proof.
  intros Hj (D & D0 & H). exists D. split; [exact D0|]. intros t Ht. destruct (H t Ht) as (H1 & H2 & H3).
  split; [exact H1|]. split; [intros i Hi; apply H2; lia|]. intros i Hi. destruct (H3 i Hi) as (H4 & H5).
  split; [intros q Hq; apply H4; lia|]. destruct (Nat.eq_dec j k) as [->|e]; [exact H5|].
  apply derivable_continuous_pt. exists (cmp i (D (S j) t)). apply H4. lia.
Qed.

Section Start.
Context {E : @Env Rops}.
Variables (rhs : @rhs_t Rops) (n : nat) (t0 te : R) (y : R -> list R).

Definition brec (N : nat) (c : @buffer Rops) (t h d : R) : Prop := forall j, (j < N)%nat ->
  let tj := nth j (lastn N (ts c)) 0 in let yj := nth j (lastn N (ys c)) [] in
  tj = t - INR (N - 1 - j) * h /\ rhs tj yj = Ret (nth j (lastn N (fs c)) []) /\ (tj <= te -> near d yj (y tj)).

Lemma brec_grow k (c : @buffer Rops) (t h d : R) (y' f' : list R) q : buf_len (S q) c -> (k <= q)%nat -> brec k c t h d ->
  rhs (t + h) y' = Ret f' -> (t + h <= te -> near d y' (y (t + h))) -> brec (S k) (@push Rops c (t + h) y' f') (t + h) h d.
Proof.
  intros (L1 & L2 & L3) Hk Br Hf Hn. pose proof (nonnil_len _ _ L1) as N1. pose proof (nonnil_len _ _ L2) as N2. pose proof (nonnil_len _ _ L3) as N3.
  unfold brec. rewrite push_ts, push_ys, push_fs by auto. rewrite !(lastn_grow k _ _ q) by auto.
  intros j Hj. cbv zeta.
  assert (M1 : length (lastn k (ts c)) = k) by (apply lastn_length; lia).
  assert (M2 : length (lastn k (ys c)) = k) by (apply lastn_length; lia).
  assert (M3 : length (lastn k (fs c)) = k) by (apply lastn_length; lia).
  destruct (Nat.eq_dec j k) as [->|e].
  - pose proof (nth_middle (lastn k (ts c)) [] (t + h) 0) as E1. pose proof (nth_middle (lastn k (ys c)) [] y' []) as E2. pose proof (nth_middle (lastn k (fs c)) [] f' []) as E3.
    rewrite M1 in E1. rewrite M2 in E2. rewrite M3 in E3. 
    rewrite E1, E2, E3. replace (S k - 1 - k)%nat with 0%nat by lia. cbn [INR]. split; [rring|]. auto.
  - destruct (Br j ltac:(lia)) as (E1 & E2 & E3). rewrite (app_nth1 (lastn k (ys c))), (app_nth1 (lastn k (fs c))) by lia.
    rewrite (app_nth1 (lastn k (ts c))) by lia.
    split; [|auto]. refine (eq_trans E1 _). replace (S k - 1 - j)%nat with (S (k - 1 - j)) by lia. rewrite S_INR. rring.
Qed.

Lemma loop_rec m1 h d fuel1 o1 (P : @st Rops -> Prop) : 
  (forall x x', P x -> core_of (E := E) m1 fuel1 o1 rhs x = (Ret tt, x') -> P x' /\ now x' = now x + h /\ rhs (now x') (state x') = Ret (deriv x')) ->
  (forall x, P x -> now x <= te -> near d (state x) (y (now x))) ->
  forall N s1 c c' k q, P s1 -> buf_len (S q) c -> (k + N <= S q)%nat -> brec k c (now s1) h d ->
  fs_fixed_loop N (solver_of (E := E) m1 fuel1 o1 rhs PInf) s1 c = Ret c' ->
  brec (k + N) c' (now s1 + INR N * h) h d /\ buf_len (S q) c'.
Proof.
  intros HP Hn. induction N as [|N IH]; intros s1 c c' k q P1 Bl Hk Tr H; cbn [fs_fixed_loop] in H.
  - injection H as <-. rewrite Nat.add_0_r. cbn [INR]. rewrite Rmult_0_l, Rplus_0_r. auto.
  - rewrite step_none in H by reflexivity. cbn [s_core solver_of] in H.
    destruct (core_of m1 fuel1 o1 rhs s1) as [[[]| |] s'] eqn:e; try discriminate.
    destruct (HP s1 s' P1 e) as (P' & Nt & Nf). fold (now s') (state s') (deriv s') in H.
    assert (Tr' : brec (S k) (@push Rops c (now s') (state s') (deriv s')) (now s') h d).
    { pose proof (Hn s' P') as Nn. rewrite Nt in *. apply (brec_grow k c _ h d _ _ q); auto. lia. }
    destruct (IH s' _ c' (S k) q P' (push_len _ _ _ _ _ Bl) ltac:(lia) Tr' H) as (IH1 & IH2).
    split; [|exact IH2]. rewrite <- Nat.add_succ_comm. rewrite Nt in IH1. rewrite S_INR.
    replace (now s1 + (INR N + 1) * h) with (now s1 + h + INR N * h) by ring. exact IH1.
Qed.

Lemma last_nth {X} (l : list X) d : last l d = nth (length l - 1) l d.
Proof.
  induction l as [|x [|z l] IH]; [reflexivity|reflexivity|]. change (last (x :: z :: l) d) with (last (z :: l) d). rewrite IH. cbn [length Nat.sub nth]. now rewrite Nat.sub_0_r.
Qed.
Lemma brec_now N (c : @buffer Rops) q t h d : buf_len (S q) c -> (0 < N <= S q)%nat -> brec N c t h d -> buf_t c = t.
Proof.
  intros (L1 & _) HN Br. destruct (Br (N - 1)%nat ltac:(lia)) as (E1 & _). replace (N - 1 - (N - 1))%nat with 0%nat in E1 by lia. cbn [INR] in E1.
  unfold buf_t. rewrite <- (last_lastn N) by lia. rewrite last_nth, (lastn_length N) by lia. rewrite zero_R. rewrite E1. rring.
Qed.
End Start.

Section Main.
Context {E : @Env Rops}.
Variables (rhs : @rhs_t Rops) (n : nat) (L t0 te : R) (y : R -> list R).
Hypothesis HL : lipschitz n L rhs.
Hypothesis Hte : t0 <= te.

Lemma starts_inv m1 u h fs : starts (E := E) rhs t0 u h (Some m1) fs -> exists g1 s1 fuel1 o1, garbage_ok m1 g1 /\ init_rk m1 g1 rhs t0 u (Some h) = Ret s1 /\
  fs = FSFixed (fun _ _ _ => Ret (solver_of (E := E) m1 fuel1 o1 rhs PInf, s1)).
Proof. intros H. inversion H as [|? g1 s1 fuel1 o1 Hg1 Hi1]; subst. exists g1, s1, fuel1, o1. auto. Qed.
Lemma start_rec (A B : list R) (Bn : R) m1 p : Ck_solution 5 rhs n t0 te y -> smooth_along rhs n t0 te y -> In (m1, p) rk_table -> (0 < length A)%nat ->
  exists C, 0 <= C /\ forall h g fs fuel s0, 0 < h <= 1 -> garbage_ok (@ImplMS Rops A B Bn) g ->
  starts (E := E) rhs t0 (y t0) h (Some m1) fs -> init_ms (E := E) (@ImplMS Rops A B Bn) g rhs t0 (y t0) (Some h) fs fuel = Ret s0 ->
  good rhs (@ImplMS Rops A B Bn) s0 /\ hstep s0 = h /\ (now s0 <= te -> dims n s0 /\ recorded (length A) rhs y t0 (C * h ^ p) s0).
Proof.
  intros HC HJ Hm LA. destruct (hi_inv_core (E := E) rhs n L t0 te y HL Hte HC HJ m1 p Hm) as (Ca & H1 & H3).
  set (Cc := accp Ca Ca 1 (te - t0)). assert (PC : 0 <= Cc) by (apply accp_pos; lra).
  exists Cc. split; [exact PC|]. intros h g fs fuel s0 Hh Hg Hst Hi.
  assert (Hp : 0 <= h ^ p) by (apply pow_le; lra). assert (Pd : 0 <= Cc * h ^ p) by (now apply Rmult_le_pos).
  pose proof HC as (D & D0 & HD). destruct (HD t0 ltac:(lra)) as (HD1 & HD2 & _). pose proof (HD2 0%nat ltac:(lia)) as Ly0. rewrite D0 in Ly0. pose proof (HD2 1%nat ltac:(lia)) as Lf0.
  destruct (starts_inv _ _ _ _ Hst) as (g1 & s1 & fuel1 & o1 & Hg1 & Hi1 & ->). clear Hst.
  destruct (hi_inv_init rhs t0 te y m1 Ca (h ^ p) g1 h s1 H1 Hp Hg1 Hi1) as (I1 & Nw1).
  destruct (rk_table_tab4 m1 p Hm) as (Ar & Br & Cr & Em & _).
  assert (G0 : good rhs (@ImplMS Rops A B Bn) s0).
  { apply (built_good (E := E)). pose proof I1 as (_ & Hh1 & _). apply (built_ms_fixed (E := E) rhs _ g t0 (y t0) (Some h) fuel s0 m1 s1 fuel1 o1); auto.
    - exact I.
    - now rewrite Em.
    - apply (built_rk (E := E) rhs m1 g1 t0 (y t0) (Some h)); auto. rewrite Em. exact I.
    - unfold init_rk in Hi1. apply init_base_spec in Hi1 as (_ & f & _ & Hc & _); auto. destruct (len_history_pos m1) as (q & Hq).
      unfold state, buf_y. rewrite Hc, Hq. apply last_repeat. lia. }
  split; [exact G0|]. unfold init_ms in Hi.
  destruct (init_base (@ImplMS Rops A B Bn) g rhs t0 (y t0) (Some h)) as [sb| |] eqn:eb; try discriminate. cbn [obind] in Hi.
  apply init_base_spec in eb as (Gb & f & Hf & Hc & Hhb); auto. cbn in Hhb.
  assert (Ef : f = D 1%nat t0) by congruence.
  destruct (Nat.eqb_spec (ms_order (@ImplMS Rops A B Bn)) 1) as [e1|e1]; cbn [ms_order] in e1; change (@length (@T Rops) A) with (@length R A) in e1.
  - injection Hi as <-. split; [exact Hhb|]. intros _.
    assert (Lh : len_history (@ImplMS Rops A B Bn) = 2%nat) by (cbn [len_history]; unfold ms_len; change (@length (@T Rops) A) with (@length R A); rewrite e1; reflexivity).
    assert (Ec : cache (set_cache (iterate (len_history (@ImplMS Rops A B Bn) - 1) (fun c => push c (buf_t c) (buf_y c) (buf_f c)) (cache sb)) sb) = @mkbuf Rops [t0; t0] [y t0; y t0] [f; f]).
    { rewrite Hc, Lh. reflexivity. }
    set (sx := set_cache _ sb) in *. split.
    + unfold dims. rewrite Ec. cbn [ys fs MBuffer.fs]. rewrite Ef. repeat constructor; auto.
    + rewrite e1. unfold recorded, now. rewrite Ec. cbn. split; [right; rring|]. intros j Hj. assert (j = 0)%nat as -> by lia. cbn.
      split; [rring|]. split; [exact Hf|]. now apply near_refl.
  - cbn [fst snd] in Hi. destruct (fs_fixed_loop _ _ _ _) as [c'| |] eqn:el; try discriminate. cbn [obind] in Hi. injection Hi as <-.
    split; [exact Hhb|]. intros Hn0.
    cbn [ms_order] in el. change (@length (@T Rops) A) with (@length R A) in el. destruct (length A) as [|[|q]] eqn:eA; try lia.
    assert (Lh : len_history (@ImplMS Rops A B Bn) = S (S q)) by (cbn [len_history]; unfold ms_len; change (@length (@T Rops) A) with (@length R A); rewrite eA; apply Nat.max_l; lia).
    assert (Bl : buf_len (S (S q)) (cache sb)) by (rewrite <- Lh; apply Gb).
    assert (Tr : brec rhs te y 1 (cache sb) (now s1) h (Cc * h ^ p)).
    { intros j Hj. assert (j = 0)%nat as -> by lia. rewrite Hc, Lh. cbn [ts ys MBuffer.fs]. rewrite !lastn_rep by lia. cbn [repeat nth Nat.sub INR].
      split; [rewrite Nw1; rring|]. split; [exact Hf|]. intros _. now apply near_refl. }
    destruct (loop_rec (E := E) rhs te y m1 h (Cc * h ^ p) fuel1 o1 (hi_inv rhs t0 te y m1 Ca (h ^ p) h)) with (N := (S (S q) - 1)%nat) (s1 := s1) (c := cache sb) (c' := c') (k := 1%nat) (q := S q) as (Tr' & Bl'); auto.
    { intros x x' Ix Hx. exact (H3 h fuel1 o1 x x' Hh Ix Hx). }
    { intros x (_ & _ & It & In) Hx. eapply near_mono; [|exact (In Hx)].
      eapply Rle_trans; [apply (accp_mono Ca Ca (h ^ p) _ (te - t0)); lra|]. unfold Cc, accp. lra. }
    replace (1 + (S (S q) - 1))%nat with (S (S q)) in Tr' by lia.
    set (sx := set_cache c' sb) in *.
    assert (Nw : now sx = now s1 + INR (S (S q) - 1) * h) by (apply (brec_now rhs te y (S (S q)) c' (S q) _ h _ Bl' ltac:(lia) Tr')).
    assert (Hs : hstep sx = h) by exact Hhb.
    assert (Rw : forall j, (j < S (S q))%nat -> nth j (lastn (S (S q)) (ts c')) 0 <= te).
    { intros j Hj. destruct (Tr' j Hj) as (E1 & _). refine (Rle_trans _ _ _ (Req_le _ _ E1) _). rewrite <- Nw. assert (0 <= INR (S (S q) - 1 - j) * h) by (apply Rmult_le_pos; [apply pos_INR|lra]).
      refine (Rle_trans _ _ _ _ Hn0). change (@T Rops) with R in *. lra. }
    assert (Rec : recorded (S (S q)) rhs y t0 (Cc * h ^ p) sx).
    { split; [rewrite Nw, Hs, Nw1; right; rring|]. intros j Hj. destruct (Tr' j Hj) as (E1 & E2 & E3). rewrite Hs, Nw. split; [exact E1|]. split; [exact E2|]. apply E3, Rw, Hj. }
    split; [|exact Rec].
    destruct Bl' as (L1 & L2 & L3).
    assert (Ey : lastn (S (S q)) (ys c') = ys c') by (rewrite <- L2; apply lastn_all). assert (Efs : lastn (S (S q)) (MBuffer.fs c') = MBuffer.fs c') by (rewrite <- L3; apply lastn_all).
    assert (X : forall j, (j < S (S q))%nat -> length (nth j (ys c') []) = n /\ length (nth j (MBuffer.fs c') []) = n).
    { intros j Hj. destruct (Tr' j Hj) as (E1 & E2 & E3). specialize (E3 (Rw j Hj)). rewrite Ey in E2, E3. rewrite Efs in E2.
      assert (Z : length (nth j (ys c') []) = n).
      { destruct E3 as (E3 & _). refine (eq_trans E3 _). set (tj := nth j (lastn (S (S q)) (ts c')) 0) in *.
        assert (t0 <= tj). { refine (Rle_trans _ _ _ _ (Req_le _ _ (eq_sym E1))). rewrite Nw1. assert (INR (S (S q) - 1 - j) * h <= INR (S (S q) - 1) * h) by (apply Rmult_le_compat_r; [lra|apply le_INR; lia]). lra. }
        destruct (HD tj (conj H (Rw j Hj))) as (_ & Hl & _). pose proof (Hl 0%nat ltac:(lia)) as Hl0. rewrite D0 in Hl0. exact Hl0. }
      split; [exact Z|]. exact (proj1 (proj2 HL) _ _ _ Z E2). }
    change (Forall (fun v : @vec Rops => length v = n) (ys c') /\ Forall (fun v : @vec Rops => length v = n) (MBuffer.fs c')).
    split; apply Forall_forall; intros v Hv; apply (In_nth _ _ []) in Hv as (j & Hj & <-); apply X; change (list (@T Rops)) with (@vec Rops) in Hj; lia.
Qed.

(** from any recorded history *)
Lemma C79_history_lemma k m : Ck_solution (k + 1) rhs n t0 te y -> In (k, m) (am_table ++ bdf_table) -> solve_dim (E := E) ->
  exists K h0, 0 < h0 /\ forall h d rho fuelc o tb fuel cs s0 s, 0 < h <= h0 -> 0 <= d -> 0 <= rho ->
    built (E := E) rhs m s0 -> dims n s0 -> hstep s0 = h -> recorded (ms_order m) rhs y t0 d s0 -> leaves_at_most rho te m (solver_of (E := E) m fuelc o rhs PInf) s0 ->
    s = session (E := E) (solver_of (E := E) m fuelc o rhs tb) fuel cs s0 -> now s <= te ->
    dims n s /\ recorded (ms_order m) rhs y t0 (K * (h ^ k + d + rho / h)) s.
Proof.
  intros HC Hm Sd. destruct (implicit_stable k m Hm) as (A & B & Bn & -> & ZS).
  destruct (converge (E := E) rhs n L t0 te y A B Bn k HL Hte HC ZS) as (K & h0 & HK & Hh0 & HB & H).
  exists ((1 + INR (length A)) * K), h0. split; [lra|]. intros h d rho fuelc o tb fuel cs s0 s Hh Hd Hrho Hb D0 Hs0 Rec Lv Es Hn. rewrite Rmult_assoc.
  assert (Hb' : h * (L * Rabs Bn) <= 1 / 2). { eapply Rle_trans; [apply Rmult_le_compat_r; [exact (LBn_pos rhs n L Bn HL)|apply Hh]|exact HB]. }
  pose proof ZS as (_ & _ & LAB & _).
  apply (H h rho d fuelc o tb fuel cs s0 s); auto; try lra.
  - apply (solves_leaves (E := E) rhs n L A B Bn HL LAB Sd); auto; lra.
  - exact (built_good _ _ _ Hb).
Qed.
Lemma C79_lemma k m : Ck_solution (k + 1) rhs n t0 te y -> In (k, m) (am_table ++ bdf_table) -> solve_dim (E := E) ->
  exists K h0, 0 < h0 /\ forall h d rho fuelc o tb fuel cs s0 s, 0 < h <= h0 -> 0 <= d -> 0 <= rho ->
    built (E := E) rhs m s0 -> dims n s0 -> hstep s0 = h -> recorded (ms_order m) rhs y t0 d s0 -> leaves_at_most rho te m (solver_of (E := E) m fuelc o rhs PInf) s0 ->
    s = session (E := E) (solver_of (E := E) m fuelc o rhs tb) fuel cs s0 -> now s <= te ->
    near (K * (h ^ k + d + rho / h)) (state s) (y (now s)).
Proof.
  intros HC Hm Sd. destruct (implicit_stable k m Hm) as (A & B & Bn & -> & ZS).
  destruct (converge (E := E) rhs n L t0 te y A B Bn k HL Hte HC ZS) as (K & h0 & HK & Hh0 & HB & H).
  exists K, h0. split; [lra|]. intros h d rho fuelc o tb fuel cs s0 s Hh Hd Hrho Hb D0 Hs0 Rec Lv Es Hn.
  assert (Hb' : h * (L * Rabs Bn) <= 1 / 2). { eapply Rle_trans; [apply Rmult_le_compat_r; [exact (LBn_pos rhs n L Bn HL)|apply Hh]|exact HB]. }
  pose proof ZS as (_ & _ & LAB & _).
  apply (H h rho d fuelc o tb fuel cs s0 s); auto; try lra.
  - apply (solves_leaves (E := E) rhs n L A B Bn HL LAB Sd); auto; lra.
  - exact (built_good _ _ _ Hb).
Qed.
Lemma C79_affine_lemma k m a b : n = 1%nat -> affine1 rhs a b -> Ck_solution (k + 1) rhs n t0 te y -> In (k, m) (am_table ++ bdf_table) ->
  exists K h0, 0 < h0 /\ forall h d fuelc o tb fuel cs s0 s, 0 < h <= h0 -> 0 <= d ->
    built (E := E) rhs m s0 -> dims n s0 -> hstep s0 = h -> recorded (ms_order m) rhs y t0 d s0 ->
    s = session (E := E) (solver_of (E := E) m fuelc o rhs tb) fuel cs s0 -> now s <= te ->
    near (K * (h ^ k + d)) (state s) (y (now s)).
Proof.
  intros Hn1 Af HC Hm. destruct (implicit_stable k m Hm) as (A & B & Bn & -> & ZS).
  destruct (converge (E := E) rhs n L t0 te y A B Bn k HL Hte HC ZS) as (K & h0 & HK & Hh0 & HB & H).
  exists K, h0. split; [lra|]. intros h d fuelc o tb fuel cs s0 s Hh Hd Hb D0 Hs0 Rec Es Hn.
  assert (Hb' : h * (L * Rabs Bn) <= 1 / 2). { eapply Rle_trans; [apply Rmult_le_compat_r; [exact (LBn_pos rhs n L Bn HL)|apply Hh]|exact HB]. }
  pose proof ZS as (_ & _ & LAB & _).
  replace (h ^ k + d) with (h ^ k + d + 0 / h) by (unfold Rdiv; ring).
  apply (H h 0 d fuelc o tb fuel cs s0 s); auto; try lra.
  - apply (solves_affine (E := E) rhs n L A B Bn HL LAB) with (a := a) (b := b); auto; lra.
  - exact (built_good _ _ _ Hb).
Qed.
Lemma min_pow h a b : 0 < h <= 1 -> (a <= b)%nat -> h ^ b <= h ^ a.
Proof.
  intros Hh Hab. replace b with (a + (b - a))%nat by lia. rewrite pow_add. rewrite <- (Rmult_1_r (h ^ a)) at 2.
  apply Rmult_le_compat_l; [apply pow_le; lra|]. rewrite <- (pow1 (b - a)). apply pow_incr. lra.
Qed.
(** started by a Runge-Kutta class *)
Lemma started_gen k m m1 p : Ck_solution (Nat.max 5 (k + 1)) rhs n t0 te y -> smooth_along rhs n t0 te y -> In (k, m) (am_table ++ bdf_table) -> In (m1, p) rk_table ->
  exists K h0, 0 < h0 /\ forall h rho g fs fuel0 fuelc o tb fuel cs s0 s, 0 < h <= h0 -> garbage_ok m g ->
    starts (E := E) rhs t0 (y t0) h (Some m1) fs -> init_ms (E := E) m g rhs t0 (y t0) (Some h) fs fuel0 = Ret s0 ->
    0 <= rho -> (forall A B Bn, m = @ImplMS Rops A B Bn -> length A = length B -> h * (L * Rabs Bn) <= 1 / 2 -> solves_to (E := E) rhs n te A B Bn fuelc o h rho s0) ->
    s = session (E := E) (solver_of (E := E) m fuelc o rhs tb) fuel cs s0 -> now s <= te ->
    near (K * (h ^ Nat.min k p + rho / h)) (state s) (y (now s)).
Proof.
  intros HC HJ Hm Hp. destruct (implicit_stable k m Hm) as (A & B & Bn & -> & ZS).
  pose proof ZS as (Hk & HA & LAB & _).
  assert (LA : (0 < length A)%nat) by (destruct A; [contradiction|cbn; lia]).
  assert (HC' : Ck_solution (k + 1) rhs n t0 te y) by (apply (Ck_mono _ (Nat.max 5 (k + 1))); auto; lia).
  assert (HC5 : Ck_solution 5 rhs n t0 te y) by (apply (Ck_mono _ (Nat.max 5 (k + 1))); auto; lia).
  destruct (start_rec A B Bn m1 p HC5 HJ Hp LA) as (C & PC & HS).
  destruct (converge (E := E) rhs n L t0 te y A B Bn k HL Hte HC' ZS) as (K & h0 & HK & Hh0 & HB & H).
  exists (K * (1 + C)), h0. split; [lra|]. intros h rho g fs fuel0 fuelc o tb fuel cs s0 s Hh Hg Hst Hi Hrho Hsol Es Hn.
  assert (Hb' : h * (L * Rabs Bn) <= 1 / 2). { eapply Rle_trans; [apply Rmult_le_compat_r; [exact (LBn_pos rhs n L Bn HL)|apply Hh]|exact HB]. }
  destruct (HS h g fs fuel0 s0 ltac:(lra) Hg Hst Hi) as (G0 & H0 & Rec).
  assert (Pp : 0 <= h ^ p) by (apply pow_le; lra).
  eapply near_mono; [|apply (H h rho (C * h ^ p) fuelc o tb fuel cs s0 s); auto; try lra].
  - rewrite Rmult_assoc. apply Rmult_le_compat_l; [exact HK|].
    pose proof (min_pow h (Nat.min k p) k ltac:(lra) ltac:(lia)) as Q1. pose proof (min_pow h (Nat.min k p) p ltac:(lra) ltac:(lia)) as Q2.
    assert (C * h ^ p <= C * h ^ Nat.min k p) by (apply Rmult_le_compat_l; auto).
    assert (0 <= rho / h) by (apply Rmult_le_pos; [exact Hrho|left; apply Rinv_0_lt_compat; lra]).
    assert (0 <= C * (rho / h)) by (apply Rmult_le_pos; auto). lra.
  - now apply Rmult_le_pos.
Qed.
(** the steps of the classes solve their equations up to what they leave of them *)
Lemma leaves_solves k m h rho fuelc o s0 : In (k, m) (am_table ++ bdf_table) -> solve_dim (E := E) -> 0 < h ->
  leaves_at_most rho te m (solver_of (E := E) m fuelc o rhs PInf) s0 ->
  forall A B Bn, m = @ImplMS Rops A B Bn -> length A = length B -> h * (L * Rabs Bn) <= 1 / 2 -> solves_to (E := E) rhs n te A B Bn fuelc o h rho s0.
Proof. intros _ Sd Hh Hl A B Bn -> LAB Hb. exact (solves_leaves (E := E) rhs n L A B Bn HL LAB Sd te fuelc o h rho s0 Hh Hb Hl). Qed.
Lemma C79_started_lemma k m m1 p : Ck_solution (Nat.max 5 (k + 1)) rhs n t0 te y -> smooth_along rhs n t0 te y -> In (k, m) (am_table ++ bdf_table) -> In (m1, p) rk_table ->
  solve_dim (E := E) ->
  exists K h0, 0 < h0 /\ forall h rho g fs fuel0 fuelc o tb fuel cs s0 s, 0 < h <= h0 -> 0 <= rho -> garbage_ok m g ->
    starts (E := E) rhs t0 (y t0) h (Some m1) fs -> init_ms (E := E) m g rhs t0 (y t0) (Some h) fs fuel0 = Ret s0 ->
    leaves_at_most rho te m (solver_of (E := E) m fuelc o rhs PInf) s0 ->
    s = session (E := E) (solver_of (E := E) m fuelc o rhs tb) fuel cs s0 -> now s <= te ->
    near (K * (h ^ Nat.min k p + rho / h)) (state s) (y (now s)).
Proof.
  intros HC HJ Hm Hp Sd. destruct (started_gen k m m1 p HC HJ Hm Hp) as (K & h0 & Hh0 & H). exists K, h0. split; [exact Hh0|].
  intros h rho g fs fuel0 fuelc o tb fuel cs s0 s Hh Hrho Hg Hst Hi Lv Es Hn. apply (H h rho g fs fuel0 fuelc o tb fuel cs s0 s Hh Hg Hst Hi Hrho); auto.
  exact (leaves_solves k m h rho fuelc o s0 Hm Sd (proj1 Hh) Lv).
Qed.
Lemma C79_started_affine_lemma k m m1 p a b : n = 1%nat -> affine1 rhs a b -> Ck_solution (Nat.max 5 (k + 1)) rhs n t0 te y -> smooth_along rhs n t0 te y -> In (k, m) (am_table ++ bdf_table) -> In (m1, p) rk_table ->
  exists K h0, 0 < h0 /\ forall h g fs fuel0 fuelc o tb fuel cs s0 s, 0 < h <= h0 -> garbage_ok m g ->
    starts (E := E) rhs t0 (y t0) h (Some m1) fs -> init_ms (E := E) m g rhs t0 (y t0) (Some h) fs fuel0 = Ret s0 ->
    s = session (E := E) (solver_of (E := E) m fuelc o rhs tb) fuel cs s0 -> now s <= te ->
    near (K * h ^ Nat.min k p) (state s) (y (now s)).
Proof.
  intros Hn1 Af HC HJ Hm Hp. destruct (started_gen k m m1 p HC HJ Hm Hp) as (K & h0 & Hh0 & H).
  exists K, h0. split; [exact Hh0|]. intros h g fs fuel0 fuelc o tb fuel cs s0 s Hh Hg Hst Hi Es Hn.
  replace (h ^ Nat.min k p) with (h ^ Nat.min k p + 0 / h) by (unfold Rdiv; ring). apply (H h 0 g fs fuel0 fuelc o tb fuel cs s0 s); auto; [lra|].
  intros A B Bn _ LAB Hb. apply (solves_affine (E := E) rhs n L A B Bn HL LAB) with (a := a) (b := b); auto. lra.
Qed.
End Main.
