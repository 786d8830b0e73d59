(** The rows taken from the default first stepper, to second order. *)
From Coq Require Import List ZArith QArith Bool Arith Lia Reals Lra Classical.
From Verif Require Import Base Scalar Vec MBuffer MZeros MSteps MApi MClasses Laws Spec SpecInst
  PStep PKeeps PCore PHist PBound PVecR SpecRK PRK PDim PRun PRun2 PRun3 PFwd PTerm SpecMS PMS PMS2 PMS3 SpecDense PDense PC1 PC2 PTop2 SpecOrder SpecConv SpecConv2 SpecConv3 SpecLmm SpecLive
  PConv1 PConv2 PConv6 PConv7 PRK2 PRK3 PHi1 PHi3 PLmm5 PLmm6 PLmm7 SpecCtl SpecVar SpecVL PConv9 PVar3 PVL3 PVL4 PVL5 SpecSolve PSolve1 PSolve2 PSolve3 PSolve4 PSolve5.
Import ListNotations.
Open Scope R_scope.

Lemma Rsum_abs f n : Rabs (Rsum f n) <= Rsum (fun k => Rabs (f k)) n.
Proof.
  unfold Rsum. induction (seq 0 n) as [|a l IH]; cbn [map fold_right]; [rewrite Rabs_R0; lra|].
  eapply Rle_trans; [apply Rabs_triang|]. lra.
Qed.
Lemma Rsum_le f g n : (forall k, (k < n)%nat -> f k <= g k) -> Rsum f n <= Rsum g n.
Proof.
  intros H. unfold Rsum. assert (G : forall k, In k (seq 0 n) -> f k <= g k) by (intros k Hk; apply in_seq in Hk; apply H; lia).
  induction (seq 0 n) as [|a l IH]; cbn [map fold_right]; [lra|]. apply Rplus_le_compat; [apply G; now left|]. apply IH. intros k Hk. apply G. now right.
Qed.
Lemma Rsum_scale c f n : Rsum (fun k => c * f k) n = c * Rsum f n.
Proof. unfold Rsum. induction (seq 0 n) as [|a l IH]; cbn [map fold_right]; [ring|]. rewrite IH. ring. Qed.
Lemma Rsum_first f n : (0 < n)%nat -> (forall k, (0 < k < n)%nat -> f k = 0) -> Rsum f n = f 0%nat.
Proof.
  intros Hn H. destruct n as [|n]; [lia|]. rewrite Rsum_S. rewrite (Rsum_ext _ (fun _ => 0 * 0)) by (intros k Hk; rewrite H by lia; ring).
  rewrite Rsum_scale. ring.
Qed.

(** the dense output starts with the slope of the first stage *)
Lemma dense_quad P B y0 H K : 0 < H -> P_ok P B (length K) -> exists Q, 0 <= Q /\ forall i t, (i < length y0)%nat -> 0 <= t <= H ->
  Rabs (cmp i (rk_dense P 0 y0 H K t) - (cmp i y0 + t * cmp i (nth 0 K []))) <= Q * t ^ 2.
Proof.
  intros HH (P1 & P2 & _ & P3). set (w := length (hd [] P)) in *.
  set (S0 := fun i j => Rsum (fun k => nth j (nth k P []) 0 * cmp i (nth k K [])) (length K)).
  set (Qi := fun i => Rsum (fun j => Rabs (S0 i j)) w / H).
  assert (Qp : forall i, 0 <= Qi i). { intros i. unfold Qi. apply Rmult_le_pos; [|left; now apply Rinv_0_lt_compat]. eapply Rle_trans; [apply Rabs_pos|]. eapply Rle_trans; [apply Rsum_abs|].
    right. apply Rsum_ext. intros k _. apply Rabs_pos_eq, Rabs_pos. }
  exists (Rsum Qi (length y0)). split; [eapply Rle_trans; [apply Rabs_pos|]; eapply Rle_trans; [apply Rsum_abs|]; right; apply Rsum_ext; intros k _; now apply Rabs_pos_eq|].
  intros i t Hi Ht.
  assert (Eg : cmp i (rk_dense P 0 y0 H K t) = cmp i y0 + H * Rsum (fun j => ((t - 0) / H) ^ (S j) * S0 i j) w).
  { unfold rk_dense. exact (nth_map_seq _ (length y0) i 0 Hi). }
  assert (E0 : S0 i 0%nat = cmp i (nth 0 K [])).
  { unfold S0. rewrite Rsum_first; [|lia|].
    - destruct (P3 0%nat ltac:(lia)) as (Z & _). cbv zeta in Z. cbn [Nat.eqb] in Z. rewrite Z. ring.
    - intros k Hk. destruct (P3 k ltac:(lia)) as (Z & _). cbv zeta in Z. destruct k as [|k]; [lia|]. cbn [Nat.eqb] in Z. rewrite Z. ring. }
  rewrite Eg, Rminus_0_r. destruct w as [|w'] eqn:ew; [lia|]. rewrite Rsum_S, E0.
  replace (cmp i y0 + H * ((t / H) ^ 1 * cmp i (nth 0 K []) + Rsum (fun k => (t / H) ^ S (S k) * S0 i (S k)) w') - (cmp i y0 + t * cmp i (nth 0 K [])))
    with (H * Rsum (fun k => (t / H) ^ S (S k) * S0 i (S k)) w') by (field; lra).
  rewrite Rabs_mult, (Rabs_pos_eq H) by lra.
  assert (Hx : 0 <= t / H <= 1). { split; [apply Rmult_le_pos; [lra|left; now apply Rinv_0_lt_compat]|]. apply (Rmult_le_reg_r H); [exact HH|]. unfold Rdiv. rewrite Rmult_assoc, Rinv_l by lra. lra. }
  assert (G : Rabs (Rsum (fun k => (t / H) ^ S (S k) * S0 i (S k)) w') <= (t / H) ^ 2 * Rsum (fun k => Rabs (S0 i (S k))) w').
  { eapply Rle_trans; [apply Rsum_abs|]. rewrite <- Rsum_scale. apply Rsum_le. intros k _. rewrite Rabs_mult. apply Rmult_le_compat_r; [apply Rabs_pos|].
    rewrite <- RPow_abs, (Rabs_pos_eq (t / H)) by lra. cbn [pow]. assert (0 <= (t / H) ^ k <= 1) by (split; [apply pow_le; lra|rewrite <- (pow1 k); apply pow_incr; lra]).
    assert (0 <= t / H * (t / H)) by (apply Rmult_le_pos; lra). nra. }
  assert (Qle : Qi i <= Rsum Qi (length y0)).
  { clear -Qp Hi. revert i Hi. generalize Qi Qp. clear. intros f Hf. induction (length y0) as [|m IH] in f, Hf |- *; intros i Hi; [lia|]. rewrite Rsum_S. destruct i as [|i].
    - assert (0 <= Rsum (fun k => f (S k)) m). { eapply Rle_trans; [apply Rabs_pos|]. eapply Rle_trans; [apply Rsum_abs|]. right. apply Rsum_ext. intros k _. apply Rabs_pos_eq, Hf. } lra.
    - specialize (IH (fun k => f (S k)) (fun k => Hf (S k)) i ltac:(lia)). cbn beta in IH. specialize (Hf 0%nat). lra. }
  assert (T2 : 0 <= t ^ 2) by (apply pow2_ge_0).
  apply Rle_trans with (Qi i * t ^ 2); [|now apply Rmult_le_compat_r].
  apply Rle_trans with (H * ((t / H) ^ 2 * Rsum (fun k => Rabs (S0 i (S k))) w')); [apply Rmult_le_compat_l; [lra|exact G]|].
  apply Rle_trans with (Rsum (fun k => Rabs (S0 i (S k))) w' / H * t ^ 2); [right; field; lra|].
  apply Rmult_le_compat_r; [exact T2|]. unfold Qi. apply Rmult_le_compat_r; [left; now apply Rinv_0_lt_compat|]. rewrite Rsum_S. pose proof (Rabs_pos (S0 i 0%nat)). lra.
Qed.

Lemma Ck_C2 k rhs n t0 te y : (2 <= k)%nat -> Ck_solution k rhs n t0 te y -> C2_solution rhs n t0 te y.
Proof.
  intros Hk HC. apply (Ck_mono 2 k) in HC; [|lia]. destruct HC as (D & D0 & H). exists (D 1%nat), (D 2%nat).
  intros t Ht. destruct (H t Ht) as (H1 & H2 & H3). pose proof (H2 0%nat ltac:(lia)) as L0. rewrite D0 in L0.
  split; [exact L0|]. split; [exact H1|]. intros i Hi. destruct (H3 i Hi) as (H4 & H5). split; [|split; [apply H4; lia|exact H5]].
  pose proof (H4 0%nat ltac:(lia)) as Q. intros e He. destruct (Q e He) as (d & Hd). exists d. intros z Hz Hzd. specialize (Hd z Hz Hzd). now rewrite !D0 in Hd.
Qed.

Lemma combine_quad a b c f x Q M q h : 0 <= Q -> 0 <= M -> 0 <= x <= q * h -> Rabs (a - (c + x * f)) <= Q * x ^ 2 -> Rabs (b - c - x * f) <= M * (x * x) ->
  Rabs (a - b) <= (Q + M) * q ^ 2 * h ^ 2.
Proof.
  intros HQ HM Hx H1 H2. replace (a - b) with ((a - (c + x * f)) - (b - c - x * f)) by ring.
  eapply Rle_trans; [apply Rabs_triang|]. rewrite Rabs_Ropp.
  apply Rle_trans with ((Q + M) * (x * x)); [cbn [pow] in H1; nra|].
  replace ((Q + M) * q ^ 2 * h ^ 2) with ((Q + M) * ((q * h) * (q * h))) by ring. apply Rmult_le_compat_l; [lra|]. apply Rmult_le_compat; lra.
Qed.
Lemma near_eq2 e (u v w : list R) : u = v -> near e u w -> near e v w.
Proof. now intros ->. Qed.
Lemma stages_prefix (rhs : @rhs_t Rops) t y h rows cs K K' : stages_of rhs t y h rows cs K K' -> exists K2, K' = K ++ K2.
Proof.
  induction 1 as [K|a rows c cs K k K' Hr _ (K2 & ->)]; [exists []; now rewrite app_nil_r|]. exists (k :: K2). now rewrite <- app_assoc.
Qed.
Section D.
Context {E : @Env Rops}.
Variables (rhs : @rhs_t Rops) (n : nat) (L te : R) (y : R -> list R).
Hypothesis HL : lipschitz n L rhs.
Let Hk : keeps_dim (OT := Rops) n rhs := proj1 (proj2 HL).
Hypothesis Hte : 0 <= te.
Hypothesis HC : C2_solution rhs n 0 te y.

Lemma first_near H0 q : 0 < H0 -> (0 < q)%nat ->
  exists Cq hmax, 0 <= Cq /\ 0 < hmax /\ forall h g1 sel s1 fuel1 fuel rows s2, 0 < h <= hmax -> garbage_ok RungeKutta45 g1 ->
    init_var RungeKutta45 g1 rhs 0 (y 0) default_options sel None = Ret s1 -> hstep s1 = H0 ->
    run (E := E) (solver_of (E := E) RungeKutta45 fuel1 default_options rhs PInf) fuel (map (fun i => @mul Rops (@ofnat Rops i) h) (seq 1 q)) s1 = (Ret rows, s2) ->
    forall j r, nth_error rows j = Some r -> fst r = INR (S j) * h /\ (j < q)%nat /\ (fst r <= te -> near (Cq * h ^ 2) (snd r) (y (fst r))).
Proof.
  intros HH Hq. pose proof (C2_dim _ _ _ _ _ HC Hte) as Ly.
  destruct (C2_sol_ok rhs n 0 te y Hte Hk HC) as (dy & M & HS & HD). pose proof HS as (PM & HSl & _ & HS2).
  destruct default_sane as (Hs & P1 & P2).
  destruct (@RungeKutta45 Rops) as [| | |A B C Ew order P|] eqn:em; try discriminate.
  pose proof P_ok_45 as HP. rewrite em in HP.
  assert (Hsh : length C = length A /\ A <> []) by (injection em as <- <- <- <- <- <-; split; [reflexivity|discriminate]).
  assert (Hor : (0 <= order)%Z) by (injection em as <- <- <- <- <- <-; lia).
  assert (PQ : 0 < INR (S q)) by (apply lt_0_INR; lia).
  destruct (classic (exists f0 l y1 f1 h1, rhs 0 (y 0) = Ret f0 /\ attempts rhs A B C (fsal_error default_options Ew) default_options order 0 (y 0) f0 H0 l y1 f1 h1)) as [(f0 & l & y1 & f1 & h1 & Hf0 & Ha)|Hno].
  - destruct (attempts_last _ _ _ _ _ _ _ _ _ _ _ _ _ _ _ Ha) as (K & HK & Hf1).
    pose proof (attempts_pos _ _ _ _ _ _ _ _ _ _ _ _ _ _ _ P1 P2 Ha HH) as HHp. set (H := last_h l) in *.
    assert (LK : length (K ++ [f1]) = (length A + 1)%nat).
    { destruct HK as (HK & _). apply stages_len in HK as (Q & _). rewrite app_length, Q. destruct A as [|a0 A0]; [destruct Hsh; congruence|]. reflexivity. }
    assert (K0 : nth 0 (K ++ [f1]) [] = f0).
    { destruct HK as (HK & _). destruct (stages_prefix _ _ _ _ _ _ _ _ HK) as (K' & ->). reflexivity. }
    destruct (dense_quad P B (y 0) H (K ++ [f1]) HHp (eq_ind_r (P_ok P B) HP LK)) as (Q & PQ' & HQ').
    assert (HQ : forall i t, (i < length (y 0))%nat -> 0 <= t <= H -> Rabs (cmp i (rk_dense P 0 (y 0) H (K ++ [f1]) t) - (cmp i (y 0) + t * cmp i f0)) <= Q * t ^ 2)
      by (intros i t A1 A2; exact (eq_ind _ (fun z => Rabs (cmp i (rk_dense P 0 (y 0) H (K ++ [f1]) t) - (cmp i (y 0) + t * cmp i z)) <= Q * t ^ 2) (HQ' i t A1 A2) _ K0)).
    exists ((Q + M) * INR q ^ 2), (H / INR (S q)).
    split; [apply Rmult_le_pos; [lra|apply pow2_ge_0]|]. split; [now apply Rdiv_lt_0_compat|].
    intros h g1 sel s1 fuel1 fuel rows s2 Hh Hg Hi Hh1 Hr j r Hj.
    assert (Bd : INR q * h < H).
    { destruct Hh as (Hh & Hle). apply (Rmult_le_compat_l (INR (S q))) in Hle; [|lra]. replace (INR (S q) * (H / INR (S q))) with H in Hle by (field; lra). rewrite S_INR in Hle. lra. }
    destruct (start_rows (E := E) A B C Ew order P default_options Hsh Hs Hor rhs n L te M y dy HL HS H0 g1 sel s1 fuel1 fuel h q rows s2 Hte HH Hg Hi Hh1 (proj1 Hh) Hq Hr) as (f0' & l' & y1' & f1' & h1' & Q0 & Qa & Qr).
    assert (f0' = f0) by (assert (Qx := eq_trans (eq_sym Q0) Hf0); now injection Qx). subst f0'.
    destruct (attempts_det _ _ _ _ _ _ _ _ _ _ _ _ _ _ _ Ha _ _ _ _ Qa) as (<- & <- & <-). fold H in Qr.
    destruct (Qr K HK HHp Bd j r Hj) as (V1 & V2 & V3). split; [exact V1|]. split; [exact V2|]. intros Hq'.
    assert (J0 : 0 <= INR (S j)) by apply pos_INR. assert (Jq : INR (S j) <= INR q) by (apply le_INR; lia).
    assert (Tr : 0 <= fst r <= INR q * h). { rewrite V1. split; [apply Rmult_le_pos; lra|apply Rmult_le_compat_r; lra]. }
    assert (Lg : length (rk_dense P 0 (y 0) H (K ++ [f1]) (fst r)) = n) by (unfold rk_dense; now rewrite map_length, seq_length).
    apply (near_eq2 _ _ _ _ (eq_sym V3)). split; [rewrite Lg; symmetry; apply HSl; lra|]. intros i Hi'. rewrite Lg in Hi'.
    pose proof (HQ i (fst r) (eq_ind_r (fun z => (i < z)%nat) Hi' Ly) ltac:(lra)) as W1.
    pose proof (HS2 0 (fst r) i ltac:(lra) ltac:(lra) Hi') as W2.
    assert (D0 : dy 0 = f0) by (pose proof (HD 0 ltac:(lra)) as Z; rewrite Hf0 in Z; now injection Z). rewrite D0, Rminus_0_r in W2.
    set (a := cmp i (rk_dense P 0 (y 0) H (K ++ [f1]) (fst r))) in *. set (b := cmp i (y (fst r))) in *. set (c := cmp i (y 0)) in *. set (f := cmp i f0) in *.
    apply (combine_quad a b c f (fst r) Q M (INR q) h); auto; lra.
  - exists 0, 1. split; [lra|]. split; [lra|]. intros h g1 sel s1 fuel1 fuel rows s2 Hh Hg Hi Hh1 Hr j r Hj. exfalso.
    destruct (start_rows (E := E) A B C Ew order P default_options Hsh Hs Hor rhs n L te M y dy HL HS H0 g1 sel s1 fuel1 fuel h q rows s2 Hte HH Hg Hi Hh1 (proj1 Hh) Hq Hr) as (f0 & l & y1 & f1 & h1 & Q0 & Qa & _).
    apply Hno. exists f0, l, y1, f1, h1. auto.
Qed.

Lemma rows_count m1 fuel1 fuel s1 h q rows s2 : 0 < h ->
  run (E := E) (solver_of (E := E) m1 fuel1 default_options rhs PInf) fuel (map (fun i => @mul Rops (@ofnat Rops i) h) (seq 1 q)) s1 = (Ret rows, s2) -> length rows = q.
Proof.
  intros Hh Hr. apply (C13_lemma (E := E)) in Hr; [|now apply times_sorted]. destruct Hr as (s3 & Hf & Hsm & Hend).
  destruct Hend as [(Hend & _)|(tj & _ & l & _ & _ & Hw)]; [now rewrite map_length, seq_length in Hend|]. discriminate Hw.
Qed.
Lemma push_rec (h d : R) : forall (rows : list (R * list R)) (c c' : @buffer Rops) k q (t : R), buf_len (S q) c -> (k + length rows <= S q)%nat -> brec rhs te y k c t h d ->
  (forall j r, nth_error rows j = Some r -> fst r = t + INR (S j) * h /\ (fst r <= te -> near d (snd r) (y (fst r)))) ->
  fs_push_all (OT := Rops) rhs rows c = Ret c' -> brec rhs te y (k + length rows) c' (t + INR (length rows) * h) h d /\ buf_len (S q) c'.
Proof.
  induction rows as [|[tr v] rows IH]; intros c c' k q t Bl Hk' Tr Hr H; cbn [fs_push_all] in H.
  - injection H as <-. cbn [length INR]. rewrite Nat.add_0_r, Rmult_0_l, Rplus_0_r. auto.
  - destruct (rhs tr v) as [f| |] eqn:ef; try discriminate. cbn [obind] in H.
    destruct (Hr 0%nat (tr, v) eq_refl) as (E1 & E2). cbn [fst snd INR] in E1, E2. rewrite Rmult_1_l in E1. subst tr.
    cbn [length] in Hk'. assert (Tr' : brec rhs te y (S k) (@push Rops c (t + h) v f) (t + h) h d) by (apply (brec_grow rhs te y k c t h d v f q); auto; lia).
    destruct (IH _ c' (S k) q (t + h) (push_len _ _ _ _ _ Bl) ltac:(lia) Tr') as (IH1 & IH2); [|exact H|].
    { intros j r Hj. destruct (Hr (S j) r Hj) as (R1 & R2). split; [|exact R2]. rewrite R1, !S_INR. ring. }
    split; [|exact IH2]. cbn [length]. rewrite <- Nat.add_succ_comm, S_INR.
    replace (t + (INR (length rows) + 1) * h) with (t + h + INR (length rows) * h) by ring. exact IH1.
Qed.

Lemma default_rec (A B : list R) (Bn : R) H0 : 0 < H0 -> (0 < length A)%nat ->
  exists C hmax, 0 <= C /\ 0 < hmax /\ forall h g fs fuel s0, 0 < h <= hmax -> garbage_ok (@ImplMS Rops A B Bn) g ->
  starts_default (E := E) rhs 0 (y 0) H0 fs -> init_ms (E := E) (@ImplMS Rops A B Bn) g rhs 0 (y 0) (Some h) fs fuel = Ret s0 ->
  good rhs (@ImplMS Rops A B Bn) s0 /\ hstep s0 = h /\ (now s0 <= te -> dims n s0 /\ recorded (length A) rhs y 0 (C * h ^ 2) s0).
Proof.
  intros HH LA. pose proof HC as (dy & ddy & HD). destruct (HD 0 ltac:(lra)) as (Ly0 & Hf0 & _). pose proof (Hk _ _ _ Ly0 Hf0) as Lf0.
  assert (Hrows : exists C hmax, 0 <= C /\ 0 < hmax /\ (length A <> 1%nat -> forall h g1 sel s1 fuel1 fuel rows s2, 0 < h <= hmax -> garbage_ok RungeKutta45 g1 ->
    init_var RungeKutta45 g1 rhs 0 (y 0) default_options sel None = Ret s1 -> hstep s1 = H0 ->
    run (E := E) (solver_of (E := E) RungeKutta45 fuel1 default_options rhs PInf) fuel (map (fun i => @mul Rops (@ofnat Rops i) h) (seq 1 (length A - 1))) s1 = (Ret rows, s2) ->
    forall j r, nth_error rows j = Some r -> fst r = INR (S j) * h /\ (j < length A - 1)%nat /\ (fst r <= te -> near (C * h ^ 2) (snd r) (y (fst r))))).
  { destruct (Nat.eq_dec (length A) 1) as [e|e]; [exists 0, 1; split; [lra|]; split; [lra|contradiction]|].
    destruct (first_near H0 (length A - 1) HH ltac:(lia)) as (C & hmax & C1 & C2 & C3). exists C, hmax. split; [exact C1|]. split; [exact C2|]. intros _. exact C3. }
  destruct Hrows as (C & hmax & PC & Ph & Hrows). exists C, hmax. split; [exact PC|]. split; [exact Ph|].
  intros h g fs fuel s0 Hh Hg Hst Hi. inversion Hst as [g1 sel s1 fuel1 G1 G2 G3]; subst fs.
  assert (G0 : good rhs (@ImplMS Rops A B Bn) s0) by (apply (init_ms_good (E := E)) in Hi; [exact Hi|exact Hg|exact I]).
  split; [exact G0|]. unfold init_ms in Hi.
  assert (Hp : 0 <= h ^ 2) by apply pow2_ge_0. assert (Pd : 0 <= C * h ^ 2) by (now apply Rmult_le_pos).
  destruct (init_base (@ImplMS Rops A B Bn) g rhs 0 (y 0) (Some h)) as [sb| |] eqn:eb; try discriminate. cbn [obind] in Hi.
  apply init_base_spec in eb as (Gb & f & Hf & Hc & Hhb); auto. cbn in Hhb.
  assert (Ef : f = dy 0) by congruence.
  destruct (Nat.eqb_spec (ms_order (@ImplMS Rops A B Bn)) 1) as [e1|e1]; cbn [ms_order] in e1; change (@length (@T Rops) A) with (@length R A) in e1.
  - injection Hi as <-.
    assert (Lh : len_history (@ImplMS Rops A B Bn) = 2%nat) by (cbn [len_history]; unfold ms_len; change (@length (@T Rops) A) with (@length R A); rewrite e1; reflexivity).
    assert (Ec : cache (set_cache (iterate (len_history (@ImplMS Rops A B Bn) - 1) (fun c => push c (buf_t c) (buf_y c) (buf_f c)) (cache sb)) sb) = @mkbuf Rops [0; 0] [y 0; y 0] [f; f]).
    { rewrite Hc, Lh. reflexivity. }
    set (sx := set_cache _ sb) in *. split; [exact Hhb|intros _; split].
    + unfold dims. rewrite Ec. cbn [ys fs MBuffer.fs]. rewrite Ef. repeat constructor; auto.
    + rewrite e1. unfold recorded, now. rewrite Ec. cbn. split; [right; rring|]. intros j Hj. assert (j = 0)%nat as -> by lia. cbn.
      split; [rring|]. split; [exact Hf|]. now apply near_refl.
  - cbn [fst snd] in Hi. rewrite Hhb in Hi. destruct (run _ _ _ _) as [[rows| |] s2] eqn:er in Hi; try discriminate.
    destruct (fs_push_all rhs rows (cache sb)) as [c'| |] eqn:ep; try discriminate. cbn [obind] in Hi. injection Hi as <-.
    split; [exact Hhb|]. intros Hn0.
    cbn [ms_order] in er. change (@length (@T Rops) A) with (@length R A) in er.
    specialize (Hrows e1 h g1 sel s1 fuel1 fuel rows s2 Hh G1 G2 G3 er).
    assert (Lr : length rows = (length A - 1)%nat) by (exact (rows_count _ _ _ _ h _ _ _ (proj1 Hh) er)).
    destruct (length A) as [|[|q]] eqn:eA; try lia.
    assert (Lh : len_history (@ImplMS Rops A B Bn) = S (S q)) by (cbn [len_history]; unfold ms_len; change (@length (@T Rops) A) with (@length R A); rewrite eA; apply Nat.max_l; lia).
    assert (Bl : buf_len (S (S q)) (cache sb)) by (rewrite <- Lh; apply Gb).
    assert (Tr : brec rhs te y 1 (cache sb) 0 h (C * h ^ 2)).
    { intros j Hj. assert (j = 0)%nat as -> by lia. rewrite Hc, Lh. cbn [ts ys MBuffer.fs]. rewrite !lastn_rep by lia. cbn [repeat nth Nat.sub INR].
      split; [rring|]. split; [exact Hf|]. intros _. now apply near_refl. }
    destruct (push_rec h (C * h ^ 2) rows (cache sb) c' 1 (S q) 0 Bl) as (Tr' & Bl'); auto.
    { change (@length (@T Rops * @vec Rops) rows) with (@length (R * list R) rows) in *. lia. }
    { intros j r Hj. destruct (Hrows j r Hj) as (V1 & _ & V2). split; [rewrite Rplus_0_l; exact V1|exact V2]. }
    change (@length (R * list R) rows) with (@length (@T Rops * @vec Rops) rows) in *. rewrite Lr in Tr'. replace (1 + (S (S q) - 1))%nat with (S (S q)) in Tr' by lia.
    set (sx := set_cache c' sb) in *.
    assert (Nw : now sx = 0 + INR (S (S q) - 1) * h) by (apply (brec_now rhs te y (S (S q)) c' (S q) _ h _ Bl' ltac:(lia) Tr')).
    assert (Hs : hstep sx = h) by exact Hhb.
    assert (Rw : forall j, (j < S (S q))%nat -> nth j (lastn (S (S q)) (ts c')) 0 <= te).
    { intros j Hj. destruct (Tr' j Hj) as (E1 & _). refine (Rle_trans _ _ _ (Req_le _ _ E1) _). rewrite <- Nw. assert (0 <= INR (S (S q) - 1 - j) * h) by (apply Rmult_le_pos; [apply pos_INR|lra]).
      refine (Rle_trans _ _ _ _ Hn0). change (@T Rops) with R in *. lra. }
    assert (Rec : recorded (S (S q)) rhs y 0 (C * h ^ 2) sx).
    { split; [rewrite Nw, Hs; right; rring|]. intros j Hj. destruct (Tr' j Hj) as (E1 & E2 & E3). rewrite Hs, Nw. split; [exact E1|]. split; [exact E2|]. apply E3, Rw, Hj. }
    split; [|exact Rec].
    destruct Bl' as (L1 & L2 & L3).
    assert (Ey : lastn (S (S q)) (ys c') = ys c') by (rewrite <- L2; apply lastn_all). assert (Efs : lastn (S (S q)) (MBuffer.fs c') = MBuffer.fs c') by (rewrite <- L3; apply lastn_all).
    assert (X : forall j, (j < S (S q))%nat -> length (nth j (ys c') []) = n /\ length (nth j (MBuffer.fs c') []) = n).
    { intros j Hj. destruct (Tr' j Hj) as (E1 & E2 & E3). specialize (E3 (Rw j Hj)). rewrite Ey in E2, E3. rewrite Efs in E2.
      assert (Z : length (nth j (ys c') []) = n).
      { destruct E3 as (E3 & _). refine (eq_trans E3 _). set (tj := nth j (lastn (S (S q)) (ts c')) 0) in *.
        assert (0 <= tj). { refine (Rle_trans _ _ _ _ (Req_le _ _ (eq_sym E1))). assert (INR (S (S q) - 1 - j) * h <= INR (S (S q) - 1) * h) by (apply Rmult_le_compat_r; [lra|apply le_INR; lia]). lra. }
        exact (proj1 (HD tj (conj H (Rw j Hj)))). }
      split; [exact Z|]. exact (Hk _ _ _ Z E2). }
    change (Forall (fun v : @vec Rops => length v = n) (ys c') /\ Forall (fun v : @vec Rops => length v = n) (MBuffer.fs c')).
    split; apply Forall_forall; intros v Hv; apply (In_nth _ _ []) in Hv as (j & Hj & <-); apply X; change (list (@T Rops)) with (@vec Rops) in Hj; lia.
Qed.
End D.
