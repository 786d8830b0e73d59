(** Convergence of zero-stable implicit multistep formulas. *)
From Coq Require Import List ZArith QArith Bool Arith Lia Reals Lra.
From Verif Require Import Base Scalar Vec MBuffer MZeros MSteps MApi MClasses Laws Spec SpecInst PStep PKeeps PCore PHist PBound PVecR SpecRK PDim PTerm SpecZeros PZeros2 SpecMS PMS PMS2 PRK2 PMS5
  SpecConv PConv1 SpecConv3 PHi1 PHi3 PGlob PLmm1 PLmm2 PLmm3 SpecLmm PLmm4.
Import ListNotations.
Open Scope R_scope.

Section Conv.
Context {E : @Env Rops}.
Variables (rhs : @rhs_t Rops) (n : nat) (L t0 te : R) (y : R -> list R).
Variables (A B : list R) (Bn : R) (k : nat).
Hypothesis HL : lipschitz n L rhs.
Hypothesis Hte : t0 <= te.
Hypothesis HC : Ck_solution (k + 1) rhs n t0 te y.
Hypothesis ZS : zero_stable A B Bn k.
Notation M := (@ImplMS Rops A B Bn).

(** the steps from s0 on that end before te solve their equation up to rho *)
Definition solves_to (fuelc : nat) (o : @options Rops) (h rho : R) (s0 : @st Rops) : Prop := exists P : @st Rops -> Prop,
  P s0 /\ (forall x, P x -> P (snd (core_of (E := E) M fuelc o rhs x))) /\ forall x x' : @st Rops, P x ->
  good rhs M x -> dims n x -> hstep x = h -> core_of (E := E) M fuelc o rhs x = (Ret tt, x') -> now x' <= te ->
  pushed x x' /\ length (state x') = n /\ rhs (now x') (state x') = Ret (deriv x') /\
  (forall i, (i < n)%nat -> Rabs (cmp i (lm_residual A B Bn x (state x') (deriv x'))) <= rho).

Lemma recorded_nth (x : @st Rops) j q : (length A <= S q)%nat -> buf_len (S q) (cache x) -> dims n x -> (j < length A)%nat -> length (ry A (cache x) j) = n.
Proof.
  intros Hq (L1 & L2 & L3) (D1 & _) Hj. unfold ry. rewrite Forall_forall in D1. apply D1.
  assert (X : In (nth j (lastn (length A) (ys (cache x))) []) (lastn (length A) (ys (cache x)))) by (apply nth_In; rewrite lastn_length by lia; exact Hj).
  unfold lastn in *. rewrite <- (firstn_skipn (length (ys (cache x)) - length A)). apply in_or_app. now right.
Qed.

Lemma converge_inv : exists K h0, 0 <= K /\ 0 < h0 <= 1 /\ h0 * (L * Rabs Bn) <= 1 / 2 /\
  forall h rho d fuelc o (s0 : @st Rops), 0 < h <= h0 -> 0 <= rho -> 0 <= d -> solves_to fuelc o h rho s0 ->
  good rhs M s0 -> hstep s0 = h -> (now s0 <= te -> dims n s0 /\ recorded (length A) rhs y t0 d s0) ->
  exists I : @st Rops -> Prop, (forall x, I x -> I (snd (core_of (E := E) M fuelc o rhs x))) /\ (forall t x, I x -> I (snd (interp_of (E := E) M rhs t x))) /\ I s0 /\
  forall x, I x -> good rhs M x /\ hstep x = h /\ (now x <= te -> 
  near (K * (h ^ k + d + rho / h)) (state x) (y (now x)) /\
  dims n x /\ recorded (length A) rhs y t0 ((1 + INR (length A)) * (K * (h ^ k + d + rho / h))) x).
Proof.
  pose proof ZS as (Hk & HA & LAB & Hsum & (m & th & Hc) & _).
  destruct (truncation A B Bn k rhs n t0 te y ZS Hte HC) as (dy & tau & Htau & Hsol & Htr).
  destruct (nrm_small A m th HA Hc) as (c & Hc0 & Hsm).
  set (g := G A m th). set (La := g * Lam L A B Bn).
  pose proof (G_pos A m th Hc) as Pg. fold g in Pg. pose proof (Lam_pos rhs n L A B Bn HL) as PLam.
  assert (PLa : 0 <= La) by (apply Rmult_le_pos; lra).
  pose proof (LBn_pos rhs n L Bn HL) as PLB.
  set (Tt := te - t0). assert (PT : 0 <= Tt) by (unfold Tt; lra).
  set (h0 := / (2 + 2 * (L * Rabs Bn))).
  assert (Ph0 : 0 < h0 <= 1). { unfold h0. split; [apply Rinv_0_lt_compat; lra|]. rewrite <- Rinv_1. apply Rinv_le_contravar; lra. }
  assert (Hh0 : h0 * (L * Rabs Bn) <= 1 / 2).
  { unfold h0. apply (Rmult_le_reg_l (2 + 2 * (L * Rabs Bn))); [lra|]. rewrite <- Rmult_assoc, Rinv_r by lra. lra. }
  exists (exp (La * Tt) * (c + Tt * (2 * g * (tau + 1)))), h0.
  split; [|split; [exact Ph0|split; [exact Hh0|]]].
  { apply Rmult_le_pos; [left; apply exp_pos|]. apply Rplus_le_le_0_compat; [exact Hc0|]. repeat apply Rmult_le_pos; lra. }
  intros h rho d fuelc o s0 Hh Hrho Hd (P & P0 & Pc & Hst) G0 Hs0 Rec.
  set (rh := tau * h ^ (k + 1) + rho).
  assert (Prh : 0 <= rh). { unfold rh. assert (0 <= tau * h ^ (k + 1)) by (apply Rmult_le_pos; [exact Htau|apply pow_le; lra]). lra. }
  set (E0 := c * d / h). set (D := 2 * g * rh / (h * h)).
  assert (PE0 : 0 <= E0). { unfold E0. apply Rmult_le_pos; [apply Rmult_le_pos; lra|left; apply Rinv_0_lt_compat; lra]. }
  assert (PD : 0 <= D). { unfold D. apply Rmult_le_pos; [repeat apply Rmult_le_pos; lra|left; apply Rinv_0_lt_compat; apply Rmult_lt_0_compat; lra]. }
  set (W := window rhs n t0 y A m th h).
  assert (Wext : forall v x x', cache x' = cache x -> hstep x' = hstep x -> W v x -> W v x').
  { intros v x x' E1 E2 (H1 & H2 & H3 & H4 & H5 & H6 & H7). unfold W, window, dims, now in *. rewrite E1, E2. auto 10. }
  assert (Lh : exists q, (length A <= S q)%nat /\ len_history M = S q).
  { cbn [len_history]. unfold ms_len. exists (Nat.max (length A) 2 - 1)%nat. change (@length (@T Rops) A) with (@length R A). lia. }
  assert (Bl : forall x, good rhs M x -> exists q, (length A <= S q)%nat /\ buf_len (S q) (cache x)).
  { intros x (Wx & _). destruct Lh as (q & Hq & Hl). exists q. split; [exact Hq|]. rewrite <- Hl. apply Wx. }
  exists (fun x => P x /\ good rhs M x /\ hstep x = h /\ (te < now x \/ (now s0 <= now x /\ W (acc La E0 D h (now x - now s0)) x))).
  split; [|split; [|split]].
    - intros x (Px & Gx & Hx & Hor). split; [exact (Pc x Px)|].
      pose proof (good_core (OT := Rops) (E := E) rhs M fuelc o x Gx) as G'.
      destruct (core_of (E := E) M fuelc o rhs x) as [r x'] eqn:e. cbn [snd] in *. split; [exact G'|].
      assert (Err : r <> Ret tt -> hstep x' = h /\ (te < now x' \/ now s0 <= now x' /\ W (acc La E0 D h (now x' - now s0)) x')).
      { intros Hr. apply core_of_ok in e; [|cbn; discriminate]. destruct e as (_ & _ & E1 & E2). destruct r as [[]| |]; [congruence| |];
        (split; [rewrite E1; auto|]); (assert (E1' : hstep x' = hstep x) by (rewrite E1; auto)); (replace (now x') with (now x) by (unfold now; now rewrite E2));
        (destruct Hor as [Hor|(H1 & H2)]; [left; exact Hor|right; split; [exact H1|apply (Wext _ x); auto]]). }
      destruct r as [[]|ex|]; [|apply Err; discriminate|apply Err; discriminate]. clear Err.
      assert (Nx : now x' = now x + h).
      { rewrite <- Hx. exact (proj1 (core_fixed_now (E := E) M fuelc o rhs x x' (proj1 Gx) eq_refl e)). }
      assert (Hx' : hstep x' = h). { apply core_of_ok in e; [|cbn; discriminate]. destruct e as (_ & _ & E1 & _). rewrite E1; auto. }
      split; [exact Hx'|].
      destruct (Rle_lt_dec (now x') te) as [Hle|Hlt]; [|left; exact Hlt]. right.
      destruct Hor as [Hor|(H1 & H2)]; [exfalso; rewrite Nx in Hle; lra|].
      pose proof H2 as (_ & Dx & _). destruct (Hst x x' Px Gx Dx Hx e Hle) as (P1 & P2 & P3 & P4).
      split; [rewrite Nx; lra|].
      pose proof (window_step rhs n L t0 te tau y dy A B Bn k m th HL HA LAB Hsum Hc Htau Hsol Htr h _ rho x x' H2 ltac:(lra)) as Ws.
      assert (HhL : h * (L * Rabs Bn) <= 1 / 2) by (eapply Rle_trans; [apply Rmult_le_compat_r; [exact PLB|apply Hh]|exact Hh0]).
      specialize (Ws HhL Hrho ltac:(rewrite <- Nx; exact Hle) P1 Nx P2 P3 P4).
      destruct Ws as (Q1 & Q2 & Q3 & Q4 & Q5 & Q6 & Q7). split; [exact Q1|]. split; [exact Q2|]. split; [exact Q3|]. 
      assert (Hx0 : 0 <= now x - now s0) by lra.
      pose proof (acc_step La E0 D h (now x - now s0) PLa PE0 PD ltac:(lra) Hx0) as As.
      assert (Ed : D * (h * h) = 2 * g * rh) by (unfold D; field; lra). rewrite Ed in As.
      replace (now x - now s0 + h) with (now x' - now s0) in As by (rewrite Nx; rring).
      split; [eapply Rle_trans; [exact Q4|exact As]|]. split; [exact Q5|]. split; [exact Q6|].
      intros i Hi. eapply Rle_trans; [exact (Q7 i Hi)|exact As].
    - intros t x (Px & Gx & Hx & Hor). split; [exact Px|]. pose proof (good_interp rhs M t x Gx) as G'. destruct (interp_of (E := E) M rhs t x) as [r x'] eqn:e. cbn [snd] in *.
      apply interp_of_ok in e as (E1 & E2 & _). split; [exact G'|]. split; [rewrite E2; exact Hx|]. replace (now x') with (now x) by (unfold now; now rewrite E1).
      destruct Hor as [Hor|(H1 & H2)]; [left; exact Hor|right; split; [exact H1|apply (Wext _ x); auto]].
    - split; [exact P0|]. split; [exact G0|]. split; [exact Hs0|].
      destruct (Rle_lt_dec (now s0) te) as [Hle|Hlt]; [right|left; exact Hlt]. split; [apply Rle_refl|].
      replace (now s0 - now s0) with 0 by (symmetry; apply Rminus_diag_eq; reflexivity).
      destruct (Bl s0 G0) as (q & Hq & Bq). destruct (Rec Hle) as (D0 & R1 & R2). rewrite Hs0 in *.
      split; [exists q; auto|]. split; [exact D0|]. split; [exact Hs0|]. split; [apply acc_pos; lra|]. split; [exact R1|].
      split.
      + intros j Hj. destruct (R2 j Hj) as (E1 & E2 & E3). split; [exact E1|]. split; [|exact E2]. now apply (recorded_nth s0 j q).
      + intros i Hi. unfold norm. eapply Rle_trans; [apply (Hsm (errs y A i (cache s0)) d); auto|].
        * unfold errs. now rewrite map_length, seq_length.
        * intros z Hz. unfold errs in Hz. apply in_map_iff in Hz as (j & <- & Hj). apply in_seq in Hj. destruct (R2 j ltac:(lia)) as (_ & _ & E3).
          apply E3. change (nth j (lastn (length A) (ys (cache s0))) []) with (ry A (cache s0) j). rewrite (recorded_nth s0 j q); auto; lia.
        * unfold acc, E0. rewrite Rmult_0_r, exp_0. right. field. lra.
    - intros x (_ & Gx & Hx & Hor). split; [exact Gx|]. split; [exact Hx|]. intros Hns.
  destruct Hor as [Hlt|(H1 & H2)]; [exfalso; lra|].
  destruct (Bl x Gx) as (q & Hq & Bq).
  assert (Htx : t0 <= now x). { pose proof H2 as (_ & _ & _ & _ & Q & _). assert (0 <= INR (length A - 1) * h) by (apply Rmult_le_pos; [apply pos_INR|lra]). lra. }
  assert (Ht00 : t0 <= now s0). { destruct (Rec ltac:(lra)) as (_ & Q & _). rewrite Hs0 in Q. assert (0 <= INR (length A - 1) * h) by (apply Rmult_le_pos; [apply pos_INR|lra]). lra. }
  pose proof H2 as (_ & Dx & _ & Pv & _ & Q6 & Q7).
  assert (Hn : length (state x) = n). { destruct Bq as (_ & L2 & _). apply last_dim; [|apply Dx]. destruct (ys (cache x)); discriminate. }
  assert (Hdx : 0 <= now x - now s0 <= Tt) by (unfold Tt; lra).
  assert (Bv : acc La E0 D h (now x - now s0) <= exp (La * Tt) * (c + Tt * (2 * g * (tau + 1))) * (h ^ k + d + rho / h)).
  { eapply Rle_trans; [apply (acc_mono La E0 E0 D h _ Tt PLa ltac:(lra) PD ltac:(lra) Hdx)|].
  unfold acc. replace (exp (La * Tt) * (E0 + Tt * D) * h) with (exp (La * Tt) * (c * d + Tt * (2 * g * (tau * h ^ k + rho / h)))).
  2:{ unfold E0, D, rh. rewrite Nat.add_1_r. cbn [pow]. field. lra. }
  rewrite (Rmult_assoc (exp (La * Tt)) (c + Tt * (2 * g * (tau + 1)))). apply Rmult_le_compat_l; [left; apply exp_pos|].
  assert (Pk : 0 <= h ^ k) by (apply pow_le; lra). assert (Pr : 0 <= rho / h) by (apply Rmult_le_pos; [exact Hrho|left; apply Rinv_0_lt_compat; lra]).
  assert (PgT : 0 <= Tt * (2 * g)) by (repeat apply Rmult_le_pos; lra).
  rewrite Rmult_plus_distr_r. apply Rplus_le_compat; [apply Rmult_le_compat_l; lra|].
  replace (Tt * (2 * g * (tau * h ^ k + rho / h))) with (Tt * (2 * g) * (tau * h ^ k + rho / h)) by ring.
  replace (Tt * (2 * g * (tau + 1)) * (h ^ k + d + rho / h)) with (Tt * (2 * g) * ((tau + 1) * (h ^ k + d + rho / h))) by ring.
  apply Rmult_le_compat_l; [exact PgT|].
  assert (0 <= tau * (d + rho / h)) by (apply Rmult_le_pos; lra). lra. }
  destruct (Hsol (now x) ltac:(lra)) as (Ly & _ & _).
  split.
  { split; [exact (eq_trans Hn (eq_sym Ly))|]. intros i Hi. assert (Hi' : (i < n)%nat) by exact (eq_ind (length _) (fun q => (i < q)%nat) Hi n Hn). clear Hi. rename Hi' into Hi.
  assert (Le : last (errs y A i (cache x)) 0 = cmp i (state x) - cmp i (y (now x))).
  { unfold errs. assert (Hp : exists p, length A = S p) by (destruct (length A) as [|p] eqn:el; [apply length_zero_iff_nil in el; contradiction|exists p; reflexivity]). destruct Hp as (p & Hp). 
    destruct (Q6 p ltac:(lia)) as (E1 & _). rewrite Hp. rewrite seq_S, map_app. cbn [map Nat.add]. rewrite last_last.
    replace (length A - 1 - p)%nat with 0%nat in E1 by lia. cbn [INR] in E1. rewrite Rmult_0_l, Rminus_0_r in E1. rewrite E1. f_equal.
    unfold ry. replace (state x) with (last (lastn (length A) (ys (cache x))) []) by (unfold state, buf_y; destruct Bq as (B1 & B2 & B3); apply last_lastn; lia).
    f_equal. assert (Ll : length (lastn (length A) (ys (cache x))) = S p) by (rewrite <- Hp; apply lastn_length; destruct Bq as (B1 & B2 & B3); lia).
    clear - Ll. revert Ll. generalize (lastn (length A) (ys (cache x))). intros l Ll. rewrite <- (firstn_skipn p l) at 1. assert (length (firstn p l) = p) by (rewrite firstn_length; lia).
    assert (Hs : length (skipn p l) = 1%nat) by (rewrite skipn_length; lia). destruct (skipn p l) as [|z [|? ?]] eqn:ez; try discriminate.
    rewrite app_nth2 by lia. rewrite H, Nat.sub_diag. cbn [nth]. rewrite <- (firstn_skipn p l), ez, last_last. reflexivity. }
  refine (Rle_trans _ (Rabs (last (errs y A i (cache x)) 0)) _ (Req_le _ _ (f_equal Rabs (eq_sym Le))) _). eapply Rle_trans; [apply (nrm_last A m th Hc)|]. eapply Rle_trans; [apply (Q7 i Hi)|exact Bv]. }
  split; [exact Dx|]. pose proof H2 as (_ & _ & _ & _ & Q5 & _). split; [rewrite Hx; exact Q5|]. rewrite Hx. intros j Hj. destruct (Q6 j Hj) as (E1 & E2 & E3). split; [exact E1|]. split; [exact E3|].
  destruct (window_near rhs n t0 te y dy A B m th LAB Hc Hsol h _ x j H2 Hns Hj ltac:(lra)) as ((N1 & N2) & _). split; [exact N1|]. intros i Hi. eapply Rle_trans; [exact (N2 i Hi)|].
  apply Rmult_le_compat_l; [pose proof (pos_INR (length A)); lra|exact Bv].
Qed.
Lemma converge : exists K h0, 0 <= K /\ 0 < h0 <= 1 /\ h0 * (L * Rabs Bn) <= 1 / 2 /\
  forall h rho d fuelc o tb fuel cs (s0 s : @st Rops), 0 < h <= h0 -> 0 <= rho -> 0 <= d -> solves_to fuelc o h rho s0 ->
  good rhs M s0 -> hstep s0 = h -> (now s0 <= te -> dims n s0 /\ recorded (length A) rhs y t0 d s0) ->
  s = session (E := E) (solver_of (E := E) M fuelc o rhs tb) fuel cs s0 -> now s <= te ->
  near (K * (h ^ k + d + rho / h)) (state s) (y (now s)) /\
  dims n s /\ recorded (length A) rhs y t0 ((1 + INR (length A)) * (K * (h ^ k + d + rho / h))) s.
Proof.
  destruct converge_inv as (K & h0 & H1 & H2 & H3 & H). exists K, h0. split; [exact H1|]. split; [exact H2|]. split; [exact H3|].
  intros h rho d fuelc o tb fuel cs s0 s Hh Hrho Hd Hst G0 Hs0 Rec -> Hns.
  destruct (H h rho d fuelc o s0 Hh Hrho Hd Hst G0 Hs0 Rec) as (I & I1 & I2 & I0 & I3).
  apply I3; [|exact Hns]. apply session_inv; [|exact I2|exact I0]. intros b x _ _ Hx. exact (I1 x Hx).
Qed.
End Conv.
