(** Error of one step of a zero-stable implicit multistep formula. *)
From Coq Require Import List ZArith QArith Bool Arith Lia Reals Lra.
From Verif Require Import Base Scalar Vec MBuffer MZeros MSteps MApi MClasses Laws Spec SpecInst PStep PKeeps PCore PHist PBound PVecR SpecRK PDim SpecMS PMS PMS2 PRK2 PMS5 SpecConv PConv1 SpecConv3 PHi1 PHi3 PLmm1 PLmm2 PLmm3 SpecLmm.
Import ListNotations.
Open Scope R_scope.

Lemma nth_skip1 {X} (l : list X) x d j q : length l = S q -> (j < q)%nat -> nth j (skipn 1 l ++ [x]) d = nth (S j) l d.
Proof.
  intros Hl Hj. destruct l as [|a l]; [discriminate|]. cbn [skipn nth]. apply app_nth1. cbn in Hl. lia.
Qed.
Lemma nth_skip1_last {X} (l : list X) x d q : length l = S q -> nth q (skipn 1 l ++ [x]) d = x.
Proof.
  intros Hl. destruct l as [|a l]; [discriminate|]. cbn [skipn]. rewrite app_nth2 by (cbn in Hl; lia). cbn in Hl. replace (q - length l)%nat with 0%nat by lia. reflexivity.
Qed.
Lemma map_nth_seq {X Y} (f : X -> Y) (l : list X) d N : length l = N -> map f l = map (fun j => f (nth j l d)) (seq 0 N).
Proof.
  intros <-. induction l as [|a l IH]; [reflexivity|]. cbn [length seq map]. f_equal. rewrite <- seq_shift, map_map. exact IH.
Qed.
Lemma dot_map_sub {X} (c : list R) (f g : X -> R) : forall l, dot c (map (fun j => f j - g j) l) = dot c (map f l) - dot c (map g l).
Proof. induction c as [|x c IH]; intros [|j l]; cbn [map dot]; try lra. rewrite IH. lra. Qed.

Section Step.
Variables (rhs : @rhs_t Rops) (n : nat) (L t0 te tau : R) (y dy : R -> list R).
Variables (A B : list R) (Bn : R) (k m : nat) (th : R).
Hypothesis HL : lipschitz n L rhs.
Hypothesis HA : A <> [].
Hypothesis LAB : length A = length B.
Hypothesis Hsum : sumR A = -1.
Hypothesis Hc : contracts (psums 0 A) m th.
Hypothesis Htau : 0 <= tau.
Hypothesis Hsol : forall t, t0 <= t <= te -> length (y t) = n /\ rhs t (y t) = Ret (dy t) /\ length (dy t) = n.
Hypothesis Htr : forall a h i, 0 <= h -> (i < n)%nat -> t0 <= a -> a + INR (length A) * h <= te ->
  Rabs (cmp i (y (a + INR (length A) * h)) + dot A (map (fun j => cmp i (y (a + INR j * h))) (seq 0 (length A)))
    - h * (dot B (map (fun j => cmp i (dy (a + INR j * h))) (seq 0 (length A))) + Bn * cmp i (dy (a + INR (length A) * h)))) <= tau * h ^ (k + 1).
Notation N := (length A).

Definition rt (c : @buffer Rops) j : R := nth j (lastn N (ts c)) 0.
Definition ry (c : @buffer Rops) j : list R := nth j (lastn N (ys c)) [].
Definition rf (c : @buffer Rops) j : list R := nth j (lastn N (fs c)) [].
Definition errs (i : nat) (c : @buffer Rops) : list R := map (fun j => cmp i (ry c j) - cmp i (y (rt c j))) (seq 0 N).
Definition norm (i : nat) (c : @buffer Rops) : R := nrm A m th (errs i c).
(** the invariant *)
Definition window (h v : R) (x : @st Rops) : Prop :=
  (exists q, (N <= S q)%nat /\ buf_len (S q) (cache x)) /\ dims n x /\ hstep x = h /\ 0 <= v /\ t0 <= now x - INR (N - 1) * h /\
  (forall j, (j < N)%nat -> rt (cache x) j = now x - INR (N - 1 - j) * h /\ length (ry (cache x) j) = n /\ rhs (rt (cache x) j) (ry (cache x) j) = Ret (rf (cache x) j)) /\
  (forall i, (i < n)%nat -> norm i (cache x) <= v).

Definition sS : R := sumA (psums 0 A).
Definition Lb : R := L * sumA B * (1 + INR N).
Definition Lam : R := Lb + 2 * (L * Rabs Bn) * (1 + sS + Lb).
Definition G : R := gain A m th.
Lemma Lb_pos : 0 <= Lb. Proof. unfold Lb. destruct HL as (H & _). pose proof (sumA_pos B). pose proof (pos_INR N). repeat apply Rmult_le_pos; lra. Qed.
Lemma sS_pos : 0 <= sS. Proof. apply sumA_pos. Qed.
Lemma LBn_pos : 0 <= L * Rabs Bn. Proof. destruct HL as (H & _). pose proof (Rabs_pos Bn). apply Rmult_le_pos; lra. Qed.
Lemma Lam_pos : 0 <= Lam.
Proof. unfold Lam. pose proof Lb_pos. pose proof sS_pos. pose proof LBn_pos. assert (0 <= L * Rabs Bn * (1 + sS + Lb)) by (apply Rmult_le_pos; lra). lra. Qed.
Lemma G_pos : 1 <= G. Proof. exact (gain_ge1 A m th Hc). Qed.

Lemma Npos : exists q, N = S q. Proof. destruct A; [congruence|]. eexists. reflexivity. Qed.
Lemma window_near h v x j : window h v x -> now x <= te -> (j < N)%nat -> 0 <= h -> near ((1 + INR N) * v) (ry (cache x) j) (y (rt (cache x) j)) /\ t0 <= rt (cache x) j <= te.
Proof.
  intros (_ & _ & _ & Hv & Ht0 & Hr & Hn) Hte Hj Hh. destruct (Hr j Hj) as (E1 & E2 & E3).
  assert (Hjj : INR (N - 1 - j) <= INR (N - 1)) by (apply le_INR; lia). pose proof (pos_INR (N - 1 - j)).
  assert (INR (N - 1 - j) * h <= INR (N - 1) * h) by (apply Rmult_le_compat_r; lra). assert (0 <= INR (N - 1 - j) * h) by (apply Rmult_le_pos; lra).
  assert (Hin : t0 <= rt (cache x) j <= te) by (rewrite E1; lra). split; [|exact Hin].
  destruct (Hsol _ Hin) as (Ly & _ & _). split; [congruence|]. intros i Hi. rewrite E2 in Hi.
  eapply Rle_trans; [apply (nrm_in A m th Hc (errs i (cache x)))|].
  - unfold errs. now rewrite map_length, seq_length.
  - unfold errs. apply in_map_iff. exists j. split; [reflexivity|]. apply in_seq. lia.
  - pose proof (pos_INR N). apply Rmult_le_compat_l; [lra|]. now apply Hn.
Qed.
Lemma rows_push h v x x' : window h v x -> pushed x x' ->
  forall j, (j < N)%nat -> rt (cache x') j = (if S j =? N then now x' else rt (cache x) (S j))%nat /\
    ry (cache x') j = (if S j =? N then state x' else ry (cache x) (S j))%nat /\ rf (cache x') j = (if S j =? N then deriv x' else rf (cache x) (S j))%nat.
Proof.
  intros ((q & Hq & (L1 & L2 & L3)) & _) P j Hj. destruct Npos as (p & Hp).
  assert (N1 : ts (cache x) <> []) by (eapply nonnil_len; eauto). assert (N2 : ys (cache x) <> []) by (eapply nonnil_len; eauto). assert (N3 : fs (cache x) <> []) by (eapply nonnil_len; eauto).
  unfold pushed in P. assert (Pc : cache x' = push (cache x) (now x') (state x') (deriv x')) by (rewrite P at 1; reflexivity).
  unfold rt, ry, rf. rewrite Pc. 
  assert (Lt : lastn N (ts (push (cache x) (now x') (state x') (deriv x'))) = skipn 1 (lastn N (ts (cache x))) ++ [now x']) by (rewrite push_ts by exact N1; eapply lastn_push; [exact L1|lia]).
  assert (Ly : lastn N (ys (push (cache x) (now x') (state x') (deriv x'))) = skipn 1 (lastn N (ys (cache x))) ++ [state x']) by (rewrite push_ys by exact N2; eapply lastn_push; [exact L2|lia]).
  assert (Lf : lastn N (fs (push (cache x) (now x') (state x') (deriv x'))) = skipn 1 (lastn N (fs (cache x))) ++ [deriv x']) by (rewrite push_fs by exact N3; eapply lastn_push; [exact L3|lia]).
  rewrite Lt, Ly, Lf.
  assert (Q1 : length (lastn N (ts (cache x))) = S p) by (rewrite <- Hp; apply lastn_length; lia).
  assert (Q2 : length (lastn N (ys (cache x))) = S p) by (rewrite <- Hp; apply lastn_length; lia).
  assert (Q3 : length (lastn N (fs (cache x))) = S p) by (rewrite <- Hp; apply lastn_length; lia).
  destruct (Nat.eqb_spec (S j) N) as [e|e].
  - assert (j = p) by lia. subst j. rewrite !(nth_skip1_last _ _ _ p); auto.
  - rewrite !(nth_skip1 _ _ _ j p); auto; lia.
Qed.

Lemma errs_push h v x x' i : window h v x -> pushed x x' -> errs i (cache x') = skipn 1 (errs i (cache x)) ++ [cmp i (state x') - cmp i (y (now x'))].
Proof.
  intros W P. pose proof (rows_push h v x x' W P) as Hr. destruct Npos as (q & Hq). unfold errs. rewrite Hq in *.
  replace (skipn 1 (map (fun j => cmp i (ry (cache x) j) - cmp i (y (rt (cache x) j))) (seq 0 (S q))))
    with (map (fun j => cmp i (ry (cache x) (S j)) - cmp i (y (rt (cache x) (S j)))) (seq 0 q)) by (cbn [seq map skipn]; rewrite <- seq_shift, map_map; reflexivity).
  rewrite seq_S, map_app. cbn [map Nat.add]. f_equal.
  - apply map_ext_in. intros j Hj. apply in_seq in Hj. destruct (Hr j ltac:(lia)) as (-> & -> & _). replace (S j =? S q)%nat with false by (symmetry; apply Nat.eqb_neq; lia). reflexivity.
  - destruct (Hr q ltac:(lia)) as (-> & -> & _). rewrite Nat.eqb_refl. reflexivity.
Qed.

Lemma window_step h v rho x x' : window h v x -> 0 < h <= 1 -> h * (L * Rabs Bn) <= 1 / 2 -> 0 <= rho -> now x + h <= te ->
  pushed x x' -> now x' = now x + h -> length (state x') = n -> rhs (now x') (state x') = Ret (deriv x') ->
  (forall i, (i < n)%nat -> Rabs (cmp i (lm_residual A B Bn x (state x') (deriv x'))) <= rho) ->
  window h ((1 + h * (G * Lam)) * v + 2 * G * (tau * h ^ (k + 1) + rho)) x'.
Proof.
  intros W Hh HhL Hrho Hte P Nx Lx Ex Hres.
  pose proof W as ((q & Hq & Bl) & Dm & Hst & Hv & Ht0 & Hr & Hn).
  destruct HL as (HL0 & HK & HLip). pose proof G_pos as PG. pose proof Lam_pos as PL. pose proof Lb_pos as PLb. pose proof sS_pos as PS. pose proof LBn_pos as PBn.
  destruct Npos as (p & Hp). set (a := now x - INR (N - 1) * h) in *.
  assert (Ea : forall j, (j < N)%nat -> rt (cache x) j = a + INR j * h).
  { intros j Hj. destruct (Hr j Hj) as (E1 & _). refine (eq_trans E1 _). unfold a. rewrite (minus_INR (N - 1) j) by lia. ring. }
  assert (EN : a + INR N * h = now x + h). { unfold a. rewrite (minus_INR N 1) by lia. cbn [INR]. ring. }
  assert (Hnow : now x <= te) by lra.
  assert (Hin' : t0 <= now x' <= te).
  { rewrite Nx. assert (0 <= INR (N - 1) * h) by (apply Rmult_le_pos; [apply pos_INR|lra]). unfold a in Ht0. lra. }
  destruct (Hsol _ Hin') as (Ly' & Ry' & Ldy').
  assert (Ldf : length (deriv x') = n) by (apply (HK (now x') (state x')); auto).
  set (E' := mx (map (fun i => cmp i (state x') - cmp i (y (now x'))) (seq 0 n))).
  assert (HE : forall i, (i < n)%nat -> Rabs (cmp i (state x') - cmp i (y (now x'))) <= E').
  { intros i Hi. apply mx_in. apply in_map_iff. exists i. split; [reflexivity|apply in_seq; lia]. }
  assert (PE : 0 <= E') by apply mx_pos.
  assert (HfE : forall i, (i < n)%nat -> Rabs (cmp i (deriv x') - cmp i (dy (now x'))) <= L * E').
  { intros i Hi. assert (Nr : near (L * E') (deriv x') (dy (now x'))).
    { apply (HLip (now x') (state x') (y (now x'))); auto. split; [exact (eq_trans Lx (eq_sym Ly'))|]. intros z Hz. apply HE. exact (eq_ind _ (fun q => (z < q)%nat) Hz _ Lx). }
    apply Nr. exact (eq_ind_r (fun q => (i < q)%nat) Hi Ldf). }
  set (rh := tau * h ^ (k + 1) + rho).
  assert (Prh : 0 <= rh). { unfold rh. assert (0 <= tau * h ^ (k + 1)) by (apply Rmult_le_pos; [exact Htau|apply pow_le; lra]). lra. }
  set (Rr := rh + h * (Lb * v + L * Rabs Bn * E')).
  (** the perturbation of the recursion *)
  assert (Hi1 : forall i, (i < n)%nat -> exists r, cmp i (state x') - cmp i (y (now x')) + dot A (errs i (cache x)) = r /\ Rabs r <= Rr).
  { intros i Hi. eexists. split; [reflexivity|].
    unfold errs. rewrite dot_map_sub.
    rewrite (map_ext_in (fun j => cmp i (y (rt (cache x) j))) (fun j => cmp i (y (a + INR j * h)))) by (intros j Hj; apply in_seq in Hj; rewrite Ea by lia; reflexivity).
    specialize (Htr a h i ltac:(lra) Hi Ht0 ltac:(lra)). rewrite EN in Htr. rewrite <- Nx in Htr.
    specialize (Hres i Hi). unfold lm_residual in Hres.
    assert (Hsx : length (state x) = n). { destruct Bl as (_ & L2 & _). apply last_dim; [|apply Dm]. destruct (ys (cache x)); [discriminate|discriminate]. }
    rewrite Hsx in Hres.
    match type of Hres with context [map ?f (seq 0 n)] => assert (Hc0 : cmp i (map f (seq 0 n)) = f i) by (rewrite (nth_indep _ 0 (f 0%nat)) by (rewrite map_length, seq_length; exact Hi); rewrite (map_nth f), seq_nth by exact Hi; reflexivity) end.
    rewrite Hc0 in Hres. clear Hc0. cbv beta in Hres. rewrite Hst, <- LAB in Hres.
    assert (Ll2 : length (lastn N (ys (cache x))) = N) by (destruct Bl as (L1 & L2 & L3); apply lastn_length; lia).
    assert (Ll3 : length (lastn N (fs (cache x))) = N) by (destruct Bl as (L1 & L2 & L3); apply lastn_length; lia).
    rewrite (map_nth_seq (fun z => cmp i z) (lastn N (ys (cache x))) [] N Ll2) in Hres.
    rewrite (map_nth_seq (fun z => cmp i z) (lastn N (fs (cache x))) [] N Ll3) in Hres.
    assert (Hfd : Rabs (dot B (map (fun j => cmp i (rf (cache x) j)) (seq 0 N)) - dot B (map (fun j => cmp i (dy (a + INR j * h))) (seq 0 N))) <= sumA B * (L * ((1 + INR N) * v))).
    { assert (P0 : 0 <= (1 + INR N) * v) by (apply Rmult_le_pos; [pose proof (pos_INR N); lra|exact Hv]). apply dot_diff; [apply Rmult_le_pos; assumption|]. intros j Hj. apply in_seq in Hj.
      destruct (window_near h v x j W Hnow ltac:(lia) ltac:(lra)) as (Nr & Hin). destruct (Hr j ltac:(lia)) as (_ & E2 & E3). destruct (Hsol _ Hin) as (Ly & Ry & Ldy).
      pose proof (HLip _ _ _ _ _ _ E2 Ly Nr E3 Ry) as Nr2. rewrite (Ea j ltac:(lia)) in Nr2. apply Nr2. replace (length (rf (cache x) j)) with n; [exact Hi|]. symmetry. exact (HK _ _ _ E2 E3). }
    specialize (HfE i Hi).
    change (fun j => cmp i (nth j (lastn N (ys (cache x))) [])) with (fun j => cmp i (ry (cache x) j)) in Hres.
    change (fun j => cmp i (nth j (lastn N (fs (cache x))) [])) with (fun j => cmp i (rf (cache x) j)) in Hres.
    set (u1 := cmp i (state x')) in *. set (u2 := cmp i (y (now x'))) in *. set (u3 := dot A (map (fun j => cmp i (ry (cache x) j)) (seq 0 N))) in *.
    set (u4 := dot A (map (fun j => cmp i (y (a + INR j * h))) (seq 0 N))) in *.
    set (u5 := dot B (map (fun j => cmp i (rf (cache x) j)) (seq 0 N))) in *. set (u6 := dot B (map (fun j => cmp i (dy (a + INR j * h))) (seq 0 N))) in *.
    set (u7 := cmp i (deriv x')) in *. set (u8 := cmp i (dy (now x'))) in *.
    assert (Eq : u1 - u2 + (u3 - u4) = (u1 + u3 - h * (u5 + Bn * u7)) + - (u2 + u4 - h * (u6 + Bn * u8)) + h * ((u5 - u6) + Bn * (u7 - u8))) by ring.
    match goal with |- Rabs ?z <= _ => change z with (u1 - u2 + (u3 - u4)) end.
    rewrite Eq. eapply Rle_trans; [apply Rabs_triang|]. unfold Rr, rh. apply Rplus_le_compat.
    - eapply Rle_trans; [apply Rabs_triang|]. rewrite Rabs_Ropp. rewrite Rplus_comm. apply Rplus_le_compat; assumption.
    - rewrite Rabs_mult, (Rabs_pos_eq h) by lra. apply Rmult_le_compat_l; [lra|]. eapply Rle_trans; [apply Rabs_triang|]. apply Rplus_le_compat.
      + eapply Rle_trans; [exact Hfd|]. right. unfold Lb. ring.
      + rewrite Rabs_mult. replace (L * Rabs Bn * E') with (Rabs Bn * (L * E')) by ring. apply Rmult_le_compat_l; [apply Rabs_pos|exact HfE]. }
  assert (Le : forall i, length (errs i (cache x)) = N) by (intros i; unfold errs; now rewrite map_length, seq_length).
  assert (Pv1 : 0 <= Lb * v) by (apply Rmult_le_pos; assumption).
  assert (HRr : Rr <= 2 * rh + h * (Lam * v)).
  { assert (E1 : E' <= (1 + sS) * v + Rr).
    { apply mx_le.
      - assert (0 <= (1 + sS) * v) by (apply Rmult_le_pos; lra). assert (0 <= h * (Lb * v + L * Rabs Bn * E')); [|unfold Rr; lra].
        apply Rmult_le_pos; [lra|]. assert (0 <= L * Rabs Bn * E') by (apply Rmult_le_pos; assumption). lra.
      - intros z Hz. apply in_map_iff in Hz as (i & <- & Hi). apply in_seq in Hi. destruct (Hi1 i ltac:(lia)) as (r & Hr1 & Hr2).
        pose proof (nrm_new A m th HA Hsum Hc (errs i (cache x)) r _ (Le i) Hr1) as Q. fold sS in Q.
        assert ((1 + sS) * nrm A m th (errs i (cache x)) <= (1 + sS) * v) by (apply Rmult_le_compat_l; [lra|]; apply Hn; lia). lra. }
    assert (Q1 : h * (L * Rabs Bn * E') <= 1 / 2 * E') by (replace (h * (L * Rabs Bn * E')) with (h * (L * Rabs Bn) * E') by ring; apply Rmult_le_compat_r; assumption).
    assert (Q2 : h * (Lb * v) <= 1 * (Lb * v)) by (apply Rmult_le_compat_r; lra).
    assert (E2 : E' <= 2 * ((1 + sS + Lb) * v + rh)) by (unfold Rr in E1; lra).
    assert (Q3 : h * (L * Rabs Bn) * E' <= h * (L * Rabs Bn) * (2 * ((1 + sS + Lb) * v + rh))) by (apply Rmult_le_compat_l; [apply Rmult_le_pos; lra|exact E2]).
    assert (Q4 : h * (L * Rabs Bn) * (2 * rh) <= 1 / 2 * (2 * rh)) by (apply Rmult_le_compat_r; lra).
    unfold Rr, Lam. replace (h * (Lb * v + L * Rabs Bn * E')) with (h * (Lb * v) + h * (L * Rabs Bn) * E') by ring.
    replace (h * ((Lb + 2 * (L * Rabs Bn) * (1 + sS + Lb)) * v)) with (h * (Lb * v) + h * (L * Rabs Bn) * (2 * ((1 + sS + Lb) * v))) by ring.
    replace (h * (L * Rabs Bn) * (2 * ((1 + sS + Lb) * v + rh))) with (h * (L * Rabs Bn) * (2 * ((1 + sS + Lb) * v)) + h * (L * Rabs Bn) * (2 * rh)) in Q3 by ring. lra. }
  pose proof P as P0. unfold pushed in P0.
  assert (Pc : cache x' = push (cache x) (now x') (state x') (deriv x')) by (rewrite P0 at 1; reflexivity).
  assert (HGL : 0 <= h * (G * Lam)) by (repeat apply Rmult_le_pos; lra).
  split; [|split; [|split; [|split; [|split; [|split]]]]].
  - exists q. split; [exact Hq|]. rewrite Pc. destruct Bl as (L1 & L2 & L3).
    unfold buf_len. rewrite push_ts, push_ys, push_fs by (eapply nonnil_len; eauto). rewrite !app_length, !skipn_length, L1, L2, L3. cbn. lia.
  - unfold dims. rewrite Pc. now apply dims_push.
  - rewrite P0. exact Hst.
  - assert (0 <= (1 + h * (G * Lam)) * v) by (apply Rmult_le_pos; lra). assert (0 <= 2 * G * rh) by (repeat apply Rmult_le_pos; lra). unfold rh in *. lra.
  - rewrite Nx. unfold a in Ht0. lra.
  - intros j Hj. destruct (rows_push h v x x' W P j Hj) as (-> & -> & ->). destruct (Nat.eqb_spec (S j) N) as [e|e].
    + split; [|auto]. replace (N - 1 - j)%nat with 0%nat by lia. cbn [INR]. rewrite Rmult_0_l. symmetry. apply Rminus_0_r.
    + destruct (Hr (S j) ltac:(lia)) as (E1 & E2 & E3). split; [|auto]. rewrite E1, Nx. replace (N - 1 - j)%nat with (S (N - 1 - S j)) by lia. rewrite S_INR. generalize (now x : R). intros u. rring.
  - intros i Hi. unfold norm. rewrite (errs_push h v x x' i W P). destruct (Hi1 i Hi) as (r & Hr1 & Hr2).
    pose proof (nrm_step A m th HA Hsum Hc (errs i (cache x)) r _ (Le i) Hr1) as Q. fold G in Q.
    assert (Q2 : G * Rabs r <= G * (2 * rh + h * (Lam * v))) by (apply Rmult_le_compat_l; lra).
    specialize (Hn i Hi). unfold norm in Hn. eapply Rle_trans; [exact Q|]. 
    replace ((1 + h * (G * Lam)) * v + 2 * G * rh) with (v + G * (2 * rh + h * (Lam * v))) by ring. lra.
Qed.
End Step.
