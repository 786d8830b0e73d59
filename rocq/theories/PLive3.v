(** Implicit multistep instances that follow a solution do not fail (C83_run). *)
From Coq Require Import List ZArith QArith Bool Arith Lia Reals Lra.
From Verif Require Import Base Scalar Vec MBuffer MZeros MSteps MApi MClasses Laws Spec SpecInst PStep PKeeps PCore PHist PBound PVecR SpecRK PDim PTerm PTop1 SpecZeros PZeros PZeros2 SpecMS PMS PMS2 PRK2 PMS5 PMS3
  SpecOrder SpecConv PConv1 SpecConv3 PHi1 PHi3 PGlob PLmm1 PLmm2 PLmm3 SpecLmm PLmm4 PLmm5 PLmm6 PLmm7 SpecLive PLive1 PLive2.
Import ListNotations.
Open Scope R_scope.

(** the residual of the equation at the current state *)
Lemma residual_small rhs n L t0 te y A B Bn k : lipschitz n L rhs -> defined_on n rhs -> t0 <= te -> zero_stable A B Bn k -> Ck_solution (k + 1) rhs n t0 te y ->
  exists Bd C, 0 <= Bd /\ 1 <= C /\ (forall t i, t0 <= t <= te -> (i < n)%nat -> Rabs (cmp i (y t)) <= Bd) /\
  forall (s : @st Rops) h e f0, wf (@ImplMS Rops A B Bn) s -> dims n s -> hstep s = h -> 0 < h <= 1 -> 0 <= e ->
  recorded (length A) rhs y t0 e s -> near e (state s) (y (now s)) -> now s + h <= te -> rhs (now s + h) (state s) = Ret f0 ->
  forall i, (i < n)%nat -> Rabs (cmp i (lm_residual A B Bn s (state s) f0)) <= C * (e + h).
Proof.
  intros HL Hdef Hte ZS HC. destruct (truncation A B Bn k rhs n t0 te y ZS Hte HC) as (dy & tau & Htau & Hsol & Htr).
  destruct (taylor_facts (k + 1) rhs n t0 te y ltac:(lia) Hte HC) as (D & Bd & HB & D0 & DR & Dl & Db & Dt).
  pose proof ZS as (_ & HA & LAB & _). pose proof HL as (HL0 & HK & HLip).
  exists Bd, (1 + sumA A + Bd + tau + (sumA B * L + Rabs Bn * (L * (1 + Bd)))).
  assert (PB : 0 <= sumA B) by apply sumA_pos. assert (PA : 0 <= sumA A) by apply sumA_pos. pose proof (Rabs_pos Bn) as PBn.
  assert (P1 : 0 <= sumA B * L) by (apply Rmult_le_pos; auto). assert (P2 : 0 <= Rabs Bn * (L * (1 + Bd))) by (repeat apply Rmult_le_pos; lra).
  split; [exact HB|]. split; [lra|]. split; [intros t i Ht Hi; rewrite <- D0; apply Db; auto; lia|].
  intros s h e f0 W Dm Hst Hh He (Ht0 & Hr) Ns Hn Hf i Hi. rewrite Hst in Ht0, Hr.
  set (N := length A) in *. assert (HN : exists p, N = S p) by (unfold N; destruct A; [contradiction|eexists; reflexivity]). destruct HN as (p & HN).
  set (a := now s - INR (N - 1) * h) in *.
  set (rt := fun j => nth j (lastn N (ts (cache s))) 0). set (ry := fun j => nth j (lastn N (ys (cache s))) []). set (rf := fun j => nth j (lastn N (fs (cache s))) []).
  assert (Ea : forall j, (j < N)%nat -> rt j = a + INR j * h).
  { intros j Hj. destruct (Hr j Hj) as (E1 & _). refine (eq_trans E1 _). unfold a. rewrite (minus_INR (N - 1) j) by lia. rring. }
  assert (EN : a + INR N * h = now s + h). { unfold a. rewrite (minus_INR N 1) by lia. cbn [INR]. ring. }
  pose proof (wf_state_dim _ _ _ W Dm) as Hs.
  destruct (wf_pos _ _ W) as (q & (L1 & L2 & L3) & Lh). cbn in Lh. unfold ms_len in Lh. change (@length (@T Rops) A) with N in Lh.
  assert (Ll2 : length (lastn N (ys (cache s))) = N) by (apply lastn_length; lia).
  assert (Ll3 : length (lastn N (fs (cache s))) = N) by (apply lastn_length; lia).
  assert (Hjn : 0 <= INR (N - 1) * h) by (apply Rmult_le_pos; [apply pos_INR|lra]).
  assert (Hnow : t0 <= now s <= te) by (unfold a in Ht0; lra).
  destruct (Hsol (now s) Hnow) as (Ly & Ry & Ldy). destruct (Hsol (now s + h) ltac:(lra)) as (Ly' & Ry' & Ldy').
  assert (Dy : forall i, (i < n)%nat -> Rabs (cmp i (y (now s + h)) - cmp i (y (now s))) <= Bd * h).
  { intros z Hz. pose proof (Dt 0%nat 1%nat (now s) h z ltac:(lia) Hz ltac:(lra) ltac:(lra) ltac:(lra)) as Q. rewrite !D0 in Q. rewrite pow_1 in Q.
    match type of Q with Rabs (_ - ?tp) <= _ => replace tp with (cmp z (y (now s))) in Q end; [exact Q|]. unfold tpoly. cbn. rewrite D0. lra. }
  assert (Ns' : near (e + Bd * h) (state s) (y (now s + h))).
  { destruct Ns as (_ & Ns). split; [exact (eq_trans Hs (eq_sym Ly'))|]. intros z Hz. specialize (Ns z Hz). assert (Hz' : (z < n)%nat) by (eapply Nat.lt_le_trans; [exact Hz|]; apply Nat.eq_le_incl; exact Hs).
    specialize (Dy z Hz'). match goal with |- Rabs (?u - ?w) <= _ => replace (u - w) with ((u - cmp z (y (now s))) + - (cmp z (y (now s + h)) - cmp z (y (now s)))) by ring end.
    eapply Rle_trans; [apply Rabs_triang|]. rewrite Rabs_Ropp. apply Rplus_le_compat; assumption. }
  pose proof (HLip _ _ _ _ _ _ Hs Ly' Ns' Hf Ry') as Nf. pose proof (HK _ _ _ Hs Hf) as Lf0.
  assert (Hfd : Rabs (dot B (map (fun j => cmp i (rf j)) (seq 0 N)) - dot B (map (fun j => cmp i (dy (a + INR j * h))) (seq 0 N))) <= sumA B * (L * e)).
  { apply dot_diff; [apply Rmult_le_pos; lra|]. intros j Hj. apply in_seq in Hj. destruct (Hr j ltac:(lia)) as (E1 & E2 & E3). fold (rt j) (ry j) (rf j) in E1, E2, E3.
    assert (Hin : t0 <= rt j <= te).
    { rewrite (Ea j ltac:(lia)). assert (0 <= INR j * h) by (apply Rmult_le_pos; [apply pos_INR|lra]). assert (INR j * h <= INR N * h) by (apply Rmult_le_compat_r; [lra|apply le_INR; lia]). lra. }
    destruct (Hsol _ Hin) as (Lj & Rj & Ldj). assert (Lr : length (ry j) = n) by (exact (eq_trans (proj1 E3) Lj)).
    pose proof (HLip _ _ _ _ _ _ Lr Lj E3 E2 Rj) as Nr2. rewrite (Ea j ltac:(lia)) in Nr2. apply Nr2. exact (eq_ind_r (fun q => (i < q)%nat) Hi (HK _ _ _ Lr E2)). }
  assert (Had : Rabs (dot A (map (fun j => cmp i (ry j)) (seq 0 N)) - dot A (map (fun j => cmp i (y (a + INR j * h))) (seq 0 N))) <= sumA A * e).
  { apply dot_diff; [lra|]. intros j Hj. apply in_seq in Hj. destruct (Hr j ltac:(lia)) as (E1 & E2 & E3). fold (rt j) (ry j) (rf j) in E1, E2, E3.
    assert (Hin : t0 <= rt j <= te).
    { rewrite (Ea j ltac:(lia)). assert (0 <= INR j * h) by (apply Rmult_le_pos; [apply pos_INR|lra]). assert (INR j * h <= INR N * h) by (apply Rmult_le_compat_r; [lra|apply le_INR; lia]). lra. }
    destruct (Hsol _ Hin) as (Lj & Rj & Ldj). rewrite <- (Ea j ltac:(lia)). apply E3. exact (eq_ind_r (fun q => (i < q)%nat) Hi (eq_trans (proj1 E3) Lj)). }
  specialize (Htr a h i ltac:(lra) Hi Ht0 ltac:(fold N; lra)). fold N in Htr. rewrite EN in Htr.
  assert (Hsi : Rabs (cmp i (state s) - cmp i (y (now s + h))) <= e + Bd * h) by (apply Ns'; exact (eq_ind_r (fun q => (i < q)%nat) Hi Hs)).
  assert (Hfi : Rabs (cmp i f0 - cmp i (dy (now s + h))) <= L * (e + Bd * h)) by (apply Nf; exact (eq_ind_r (fun q => (i < q)%nat) Hi Lf0)).
  assert (Er : cmp i (lm_residual A B Bn s (state s) f0) = cmp i (state s) + dot A (map (fun j => cmp i (ry j)) (seq 0 N)) - h * (dot B (map (fun j => cmp i (rf j)) (seq 0 N)) + Bn * cmp i f0)).
  { unfold lm_residual. rewrite nth_map_sq by (rewrite Hs; exact Hi). rewrite <- LAB, Hst. fold N.
    rewrite (map_nth_seq (fun z => cmp i z) (lastn N (ys (cache s))) [] N Ll2). rewrite (map_nth_seq (fun z => cmp i z) (lastn N (fs (cache s))) [] N Ll3). reflexivity. }
  rewrite Er. set (u1 := cmp i (state s) : R) in *. set (u2 := cmp i (y (now s + h))) in *. set (u3 := dot A (map (fun j => cmp i (ry j)) (seq 0 N))) in *.
  set (u4 := dot A (map (fun j => cmp i (y (a + INR j * h))) (seq 0 N))) in *.
  set (u5 := dot B (map (fun j => cmp i (rf j)) (seq 0 N))) in *. set (u6 := dot B (map (fun j => cmp i (dy (a + INR j * h))) (seq 0 N))) in *.
  set (u7 := cmp i f0) in *. set (u8 := cmp i (dy (now s + h))) in *.
  change (Rabs (u1 - u2) <= e + Bd * h) in Hsi. change (Rabs (u7 - u8) <= L * (e + Bd * h)) in Hfi.
  replace (u1 + u3 - h * (u5 + Bn * u7)) with ((u2 + u4 - h * (u6 + Bn * u8)) + ((u1 - u2) + ((u3 - u4) + - (h * ((u5 - u6) + Bn * (u7 - u8)))))) by ring.
  assert (T1 : Rabs (h * ((u5 - u6) + Bn * (u7 - u8))) <= (sumA B * L + Rabs Bn * (L * (1 + Bd))) * (e + h)).
  { rewrite Rabs_mult, (Rabs_pos_eq h) by lra. apply Rle_trans with (1 * ((sumA B * L + Rabs Bn * (L * (1 + Bd))) * (e + h))); [|lra].
    apply Rmult_le_compat; [lra|apply Rabs_pos|lra|]. eapply Rle_trans; [apply Rabs_triang|]. rewrite Rmult_plus_distr_r. apply Rplus_le_compat.
    - eapply Rle_trans; [exact Hfd|]. rewrite Rmult_assoc. apply Rmult_le_compat_l; [exact PB|]. apply Rmult_le_compat_l; lra.
    - rewrite Rabs_mult, Rmult_assoc. apply Rmult_le_compat_l; [exact PBn|]. eapply Rle_trans; [exact Hfi|]. rewrite Rmult_assoc. apply Rmult_le_compat_l; [exact HL0|].
      assert (0 <= Bd * e) by (apply Rmult_le_pos; auto). lra. }
  assert (T2 : tau * h ^ (k + 1) <= tau * h).
  { apply Rmult_le_compat_l; [exact Htau|]. rewrite Nat.add_1_r. cbn [pow]. assert (Pk : h ^ k <= 1) by (rewrite <- (pow1 k); apply pow_incr; lra).
    apply Rle_trans with (h * 1); [apply Rmult_le_compat_l; lra|lra]. }
  eapply Rle_trans; [apply Rabs_triang|]. pose proof (Rabs_triang (u1 - u2) ((u3 - u4) + - (h * ((u5 - u6) + Bn * (u7 - u8))))) as T3.
  pose proof (Rabs_triang (u3 - u4) (- (h * ((u5 - u6) + Bn * (u7 - u8))))) as T4. rewrite Rabs_Ropp in T4.
  assert (0 <= sumA A * h) by (apply Rmult_le_pos; lra). assert (0 <= Bd * e) by (apply Rmult_le_pos; lra). assert (0 <= tau * e) by (apply Rmult_le_pos; lra). lra.
Qed.

Section Run.
Context {E : @Env Rops}.
Variables (rhs : @rhs_t Rops) (n : nat) (L t0 te : R) (y : R -> list R).
Hypothesis HL : lipschitz n L rhs.
Hypothesis Hdef : defined_on n rhs.
Hypothesis Hte : t0 <= te.

Lemma C83_inv_lemma k m : Ck_solution (k + 1) rhs n t0 te y -> In (k, m) (am_table ++ bdf_table) -> solve_dim (E := E) -> (1 <= n)%nat ->
  n = 1%nat \/ solves_regular (E := E) n ->
  exists h0, 0 < h0 /\ forall h d fuelc o s0, 0 < h <= h0 -> 0 <= d <= 1 ->
    good rhs m s0 -> dims n s0 -> hstep s0 = h -> recorded (ms_order m) rhs y t0 d s0 ->
    exists I : @st Rops -> Prop, (forall x, I x -> I (snd (core_of (E := E) m fuelc o rhs x))) /\ (forall t x, I x -> I (snd (interp_of (E := E) m rhs t x))) /\ I s0 /\
    forall tb s, I s -> now s + h <= te -> ~ would_pass tb s ->
    exists s', took_step (solver_of (E := E) m fuelc o rhs tb) s s' /\ now s' = now s + h.
Proof.
  intros HC Hm Sd Hn1 Sol. destruct (implicit_stable k m Hm) as (A & B & Bn & -> & ZS).
  destruct (converge_inv (E := E) rhs n L t0 te y A B Bn k HL Hte HC ZS) as (K & h0 & HK & Hh0 & HB & H).
  destruct (residual_small rhs n L t0 te y A B Bn k HL Hdef Hte ZS HC) as (Bd & C & PBd & PC & Hy & Hres).
  pose proof ZS as (_ & _ & LAB & _). pose proof HL as (PL & _). pose proof (LBn_pos rhs n L Bn HL) as PLB. set (lb := L * Rabs Bn) in *.
  pose proof (pos_INR (length A)) as PN. assert (P1 : 1 <= INR n) by (apply (le_INR 1); auto).
  set (K1 := (1 + INR (length A)) * K). assert (PK1 : 0 <= K1) by (apply Rmult_le_pos; lra).
  set (q1 := lb * (3 * INR n + 2)). assert (Pq1 : 0 <= q1) by (apply Rmult_le_pos; lra).
  set (W0 := C * (3 * K1 + 1) + (1 + Bd + 3 * K1)). assert (PW0 : 0 <= W0) by (unfold W0; assert (0 <= C * (3 * K1 + 1)) by (apply Rmult_le_pos; lra); lra).
  set (q2 := INR n * (q1 * q1 * W0)). assert (Pq2 : 0 <= q2) by (unfold q2; apply Rmult_le_pos; [lra|]; apply Rmult_le_pos; [apply Rmult_le_pos|]; assumption).
  set (Z := 100000000 * (1 + q1 + q2)). assert (PZ : 1 <= Z) by (unfold Z; lra).
  exists (Rmin h0 (/ Z)). assert (PiZ : 0 < / Z) by (apply Rinv_0_lt_compat; lra).
  split; [apply Rmin_glb_lt; lra|]. intros h d fuelc o s0 Hh Hd G0 D0 Hs0 Rec.
  pose proof (Rmin_l h0 (/ Z)) as Ra. pose proof (Rmin_r h0 (/ Z)) as Rb.
  assert (HZ : h * Z <= 1). { rewrite <- (Rinv_l Z) by lra. apply Rmult_le_compat_r; lra. }
  assert (HZ2 : 100000000 * h + 100000000 * (h * q1) + 100000000 * (h * q2) <= 1) by (unfold Z in HZ; lra).
  assert (Z1 : 0 <= h * q1) by (apply Rmult_le_pos; lra). assert (Z2 : 0 <= h * q2) by (apply Rmult_le_pos; lra).
  assert (Hb' : h * lb <= 1 / 2). { eapply Rle_trans; [apply Rmult_le_compat_r; [exact PLB|apply Rle_trans with (1 := proj2 Hh); exact Ra]|exact HB]. }
  destruct (H h (444 / 10000000000) d fuelc o s0) as (I & I1 & I2 & I0 & I3); auto; try lra.
  { apply (solves_any (E := E) rhs n L A B Bn HL LAB Sd); auto; lra. }
  exists I. split; [exact I1|]. split; [exact I2|]. split; [exact I0|]. intros tb s Is Hnow Hw.
  destruct (I3 s Is) as (Gs & Hst & I4). destruct (I4 ltac:(lra)) as (N1 & Ds & Rs). clear I4.
  set (Er := h ^ k + d + 444 / 10000000000 / h) in *.
  assert (Ph : 0 < / h) by (apply Rinv_0_lt_compat; lra). assert (Hi1 : 1 <= / h) by (rewrite <- Rinv_1; apply Rinv_le_contravar; lra).
  assert (Phk : 0 <= h ^ k <= 1) by (split; [apply pow_le; lra|rewrite <- (pow1 k); apply pow_incr; lra]).
  assert (PEr : 0 <= Er <= 3 * / h) by (unfold Er; lra).
  assert (PK0 : 0 <= K * Er) by (apply Rmult_le_pos; lra).
  set (e := K1 * Er). assert (Pe : 0 <= e) by (apply Rmult_le_pos; lra).
  assert (Be : e <= 3 * K1 * / h). { unfold e. replace (3 * K1 * / h) with (K1 * (3 * / h)) by ring. apply Rmult_le_compat_l; lra. }
  assert (Ee : (1 + INR (length A)) * (K * Er) = e) by (unfold e, K1; ring).
  assert (Rs' : recorded (length A) rhs y t0 e s) by (rewrite <- Ee; exact Rs). clear Rs. rename Rs' into Rs.
  assert (Ns : near e (state s) (y (now s))). { eapply near_mono; [|exact N1]. rewrite <- Ee. assert (0 <= INR (length A) * (K * Er)) by (apply Rmult_le_pos; auto). lra. }
  pose proof (proj1 Gs) as W. pose proof (wf_state_dim _ _ _ W Ds) as Hsd.
  destruct (Hdef (now s + h) (state s) Hsd) as (f0 & Hf0).
  assert (Ht0 : t0 <= now s). { destruct Rs as (Q & _). rewrite Hst in Q. assert (0 <= INR (length A - 1) * h) by (apply Rmult_le_pos; [apply pos_INR|lra]). lra. }
  specialize (Hres s h e f0 W Ds Hst ltac:(lra) Pe Rs Ns Hnow Hf0).
  destruct (live_step (E := E) rhs n L A B Bn HL Hdef LAB fuelc o tb s f0 (C * (e + h)) (e + Bd) (h * q1) W Ds Hn1 Sol) as (s' & St & Ls); auto.
  - rewrite Hst, (Rabs_pos_eq h) by lra. fold lb. replace (h * lb * (3 * INR n + 2)) with (h * q1) by (unfold q1; ring). lra.
  - lra.
  - rewrite Hst. exact Hf0.
  - intros i Hi. split; [exact (Hres i Hi)|]. destruct Ns as (_ & Ns). specialize (Ns i (eq_ind_r (fun q => (i < q)%nat) Hi Hsd)). specialize (Hy (now s) i ltac:(lra) Hi).
    match goal with |- Rabs ?x <= _ => replace x with ((x - cmp i (y (now s))) + cmp i (y (now s))) by (match goal with |- @eq _ ?a ?b => change (@eq R a b) end; ring) end.
    eapply Rle_trans; [apply Rabs_triang|]. apply Rplus_le_compat; [exact Ns|exact Hy].
  - assert (B1 : C * (e + h) + (1 + (e + Bd)) <= W0 * / h).
    { assert (C * (e + h) <= C * ((3 * K1 + 1) * / h)) by (apply Rmult_le_compat_l; lra). unfold W0. assert (Bd <= Bd * / h) by (rewrite <- (Rmult_1_r Bd) at 1; apply Rmult_le_compat_l; lra). lra. }
    assert (Q : (h * q1) ^ 49 <= h * q1 * (h * q1)).
    { change 49%nat with (2 + 47)%nat. rewrite pow_add. assert ((h * q1) ^ 47 <= 1) by (rewrite <- (pow1 47); apply pow_incr; lra). assert (P2 : 0 <= (h * q1) ^ 2) by (apply pow_le; lra).
      assert ((h * q1) ^ 2 * (h * q1) ^ 47 <= (h * q1) ^ 2 * 1) by (apply Rmult_le_compat_l; lra). replace (h * q1 * (h * q1)) with ((h * q1) ^ 2) by ring. lra. }
    assert (P49 : 0 <= (h * q1) ^ 49) by (apply pow_le; lra). assert (PC0 : 0 <= C * (e + h)) by (apply Rmult_le_pos; lra).
    eapply Rle_trans; [apply Rmult_le_compat_l; [lra|]; apply Rmult_le_compat; [exact P49|lra|exact Q|exact B1]|].
    replace (INR n * (h * q1 * (h * q1) * (W0 * / h))) with (h * q2) by (unfold q2; field; lra). lra.
  - exists s'. split; [exact St|]. destruct (impl_step_gen A B Bn fuelc o rhs tb s s' (proj1 W) St) as (Ht & _). rewrite Ht, Hst. reflexivity.
Qed.
Lemma C83_run_lemma k m : Ck_solution (k + 1) rhs n t0 te y -> In (k, m) (am_table ++ bdf_table) -> solve_dim (E := E) -> (1 <= n)%nat ->
  n = 1%nat \/ solves_regular (E := E) n ->
  exists h0, 0 < h0 /\ forall h d fuelc o tb fuel cs s0 s, 0 < h <= h0 -> 0 <= d <= 1 ->
    built (E := E) rhs m s0 -> dims n s0 -> hstep s0 = h -> recorded (ms_order m) rhs y t0 d s0 ->
    s = session (E := E) (solver_of (E := E) m fuelc o rhs tb) fuel cs s0 -> now s + h <= te -> ~ would_pass tb s ->
    exists s', took_step (solver_of (E := E) m fuelc o rhs tb) s s' /\ now s' = now s + h.
Proof.
  intros HC Hm Sd Hn1 Sol. destruct (C83_inv_lemma k m HC Hm Sd Hn1 Sol) as (h0 & Hh0 & H). exists h0. split; [exact Hh0|].
  intros h d fuelc o tb fuel cs s0 s Hh Hd Hb D0 Hs0 Rec -> Hnow Hw.
  destruct (H h d fuelc o s0 Hh Hd (built_good _ _ _ Hb) D0 Hs0 Rec) as (I & I1 & I2 & I0 & I3).
  apply I3; auto. apply session_inv; [|exact I2|exact I0]. intros b x _ _ Hx. exact (I1 x Hx).
Qed.
End Run.
