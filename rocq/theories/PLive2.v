(** Implicit multistep steps complete (C83). *)
From Coq Require Import List ZArith QArith Bool Arith Lia Reals Lra.
From Verif Require Import Base Scalar Vec MBuffer MZeros MSteps MApi MClasses Laws Spec SpecInst PStep PKeeps PCore PHist PBound PVecR SpecRK PDim PTerm SpecZeros PZeros PZeros2 SpecMS PMS PMS2 PRK2 PMS5 PMS3
  SpecConv PConv1 SpecConv3 PGlob PLmm1 PLmm2 SpecLmm PLmm4 PLmm5 PLmm6 SpecLive PLive1.
Import ListNotations.
Open Scope R_scope.

Lemma core_took {OT : Ops} (sv : @solver OT) s s' : ~ would_pass (s_bound sv) s -> s_core sv s = (Ret tt, s') -> took_step sv s s'.
Proof.
  intros Hw Hc. exists 0%nat. eexists. eexists. unfold step, bind. destruct (step_cases sv (s_bound sv) s) as [(c & _)|(_ & Es)]; [contradiction|].
  rewrite Es, Hc. reflexivity.
Qed.

Section Live.
Context {E : @Env Rops}.
Variables (rhs : @rhs_t Rops) (n : nat) (L : R) (A B : list R) (Bn : R).
Hypothesis HL : lipschitz n L rhs.
Hypothesis Hdef : defined_on n rhs.
Hypothesis LAB : length A = length B.
Notation M := (@ImplMS Rops A B Bn).

Lemma root_near_id t (hB : R) (K : list R) : length K = n -> near_id n (L * Rabs hB) (@implicit_root Rops rhs t hB K).
Proof.
  intros LK. destruct HL as (PL & Kd & Lp). split.
  - intros y Hy. destruct (Hdef t y Hy) as (f & Hf). unfold implicit_root. rewrite Hf. cbn [obind]. eexists. split; [reflexivity|].
    pose proof (Kd t y f Hy Hf). apply vsub_len; auto. apply vsub_len; auto. now apply vscale_len.
  - intros y z u v e Hy Hz Hu Hv Ne i Hi. unfold implicit_root in Hu, Hv.
    destruct (Hdef t y Hy) as (fy & Fy). destruct (Hdef t z Hz) as (fz & Fz). rewrite Fy in Hu. rewrite Fz in Hv. cbn [obind] in Hu, Hv.
    pose proof (Kd t y fy Hy Fy) as Ly. pose proof (Kd t z fz Hz Fz) as Lz. injection Hu as <-. injection Hv as <-.
    destruct (Lp t y z fy fz e Hy Hz Ne Fy Fz) as (_ & Q). specialize (Q i (eq_ind_r (fun q => (i < q)%nat) Hi Ly)).
    rewrite !(vsub_cmp n), !vscale_cmp by (try apply vsub_len; try apply vscale_len; auto). change (@mul Rops) with Rmult.
    match goal with |- Rabs ?x <= _ => replace x with (- (hB * (nth i fy 0 - nth i fz 0))) end.
    2:{ match goal with |- @eq _ ?a ?b => change (@eq R a b) end. change (@nth (@T Rops)) with (@nth R). ring. }
    rewrite Rabs_Ropp, Rabs_mult. rewrite Rmult_comm, (Rmult_comm L), Rmult_assoc, (Rmult_comm (Rabs hB)). apply Rmult_le_compat_r; [apply Rabs_pos|exact Q].
Qed.

Lemma default_tol_R : @default_tol Rops = 148 / 10000000000.
Proof. unfold default_tol. rewrite lit_R. reflexivity. Qed.
Lemma near_self (y : list R) : near 0 y y.
Proof. split; [reflexivity|]. intros i Hi. rewrite Rminus_diag_eq, Rabs_R0; lra. Qed.

(** the map of the step *)
Let Gs (s : @st Rops) := @implicit_root Rops rhs (now s + hstep s) (hstep s * Bn) (@ms_combination Rops A B (cache s) (hstep s)).

Lemma fixed_live (s : @st Rops) f0 e X q : wf M s -> dims n s -> (1 <= n)%nat -> n = 1%nat \/ solves_regular (E := E) n ->
  Rabs (hstep s) * (L * Rabs Bn) * (3 * INR n + 2) <= 2 * q -> q <= 1 / 2 ->
  rhs (now s + hstep s) (state s) = Ret f0 ->
  (forall i, (i < n)%nat -> Rabs (cmp i (lm_residual A B Bn s (state s) f0)) <= e /\ Rabs (cmp i (state s)) <= X) ->
  INR n * (q ^ 49 * (e + (1 + X))) <= 1 / 100000000 ->
  exists y' f', impl_ms_fixed_step (E := E) A B Bn rhs (cache s) (hstep s) = Ret (now s + hstep s, y') /\ length y' = n /\ rhs (now s + hstep s) y' = Ret f'.
Proof.
  intros W D Hn Sol Hb Hq Hf He HX. pose proof (wf_state_dim _ _ _ W D) as Hs. pose proof HL as (PL & Kd & Lp).
  set (t := now s + hstep s) in *. set (hB := hstep s * Bn). set (K := @ms_combination Rops A B (cache s) (hstep s)).
  assert (LK : length K = n) by (now apply ms_comb_len).
  pose proof (root_near_id t hB K LK) as NI. set (th := L * Rabs hB) in *.
  assert (Eth : th = Rabs (hstep s) * (L * Rabs Bn)) by (unfold th, hB; rewrite Rabs_mult; ring).
  assert (Pth : 0 <= th) by (apply Rmult_le_pos; auto using Rabs_pos).
  assert (P1 : 1 <= INR n) by (apply (le_INR 1); auto).
  rewrite <- Eth in Hb.
  assert (Pq : 0 <= q). { assert (0 <= th * (3 * INR n + 2)) by (apply Rmult_le_pos; lra). lra. }
  assert (PX : 0 <= X) by (eapply Rle_trans; [apply Rabs_pos|apply (He 0%nat); lia]).
  assert (Pn0 : 0 <= INR n * th) by (apply Rmult_le_pos; lra).
  assert (F0 : @implicit_root Rops rhs t hB K (state s) = Ret (lm_residual A B Bn s (state s) f0)) by (apply (root_residual A B Bn rhs s n); auto; apply (Kd t (state s)); auto).
  assert (Pe : 0 <= e) by (eapply Rle_trans; [apply Rabs_pos|apply (He 0%nat); lia]).
  unfold impl_ms_fixed_step, ysize. change (buf_y (cache s)) with (state s). rewrite Hs. change (@add Rops (buf_t (cache s)) (hstep s)) with t.
  change (@mul Rops (hstep s) Bn) with hB. change (@ms_combination Rops A B (cache s) (hstep s)) with K.
  destruct (Nat.eqb_spec n 1) as [En|En].
  - set (fn := fun p => @obind (list R) R (@implicit_root Rops rhs t hB K [p]) (fun r => Ret (@nth (@T Rops) 0 r (@zero Rops)))).
    set (g := fun p => match fn p with Ret v => v | _ => 0 end).
    assert (FG : forall p, fn p = Ret (g p)). { intros p. unfold g. destruct NI as (I1 & _). destruct (I1 [p] ltac:(auto)) as (v & Hv & _). unfold fn. rewrite Hv. reflexivity. }
    assert (GH : forall a b, Rabs (g a - g b - (a - b)) <= th * Rabs (a - b)).
    { intros a b. unfold g, fn. destruct NI as (I1 & I2). destruct (I1 [a] ltac:(auto)) as (u & Hu & Lu). destruct (I1 [b] ltac:(auto)) as (v & Hv & Lv). rewrite Hu, Hv. cbn [obind].
      assert (Nab : near (Rabs (a - b)) [a] [b]) by (split; [reflexivity|]; intros i Hi; cbn [length] in Hi; replace i with 0%nat by lia; cbn [nth]; lra).
      specialize (I2 [a] [b] u v _ ltac:(auto) ltac:(auto) Hu Hv Nab 0%nat ltac:(lia)). cbn [nth] in I2.
      rewrite (nth_indep u (@zero Rops) 0), (nth_indep v (@zero Rops) 0) by (rewrite ?Lu, ?Lv; lia). exact I2. }
    destruct (He 0%nat ltac:(lia)) as (H1 & H2).
    rewrite (len1 (state s) 0) in F0 by (now rewrite Hs).
    assert (G0 : g (@nth (@T Rops) 0 (state s) (@zero Rops)) = cmp 0 (lm_residual A B Bn s (state s) f0)).
    { rewrite (nth_indep _ (@zero Rops) (0 : @T Rops)) by (rewrite Hs; lia). unfold g, fn. rewrite F0. cbn [obind]. rewrite <- (len1 (state s) 0) by (now rewrite Hs).
      rewrite zero_R. reflexivity. }
    assert (E1 : INR n = 1) by (rewrite En; reflexivity). rewrite E1 in Hb, HX.
    assert (Hb2 : 0 <= th <= 1 / 5) by lra. assert (Hq5 : 5 / 2 * th <= q <= 1 / 2) by lra.
    destruct (secant_live g th q Hb2 Hq5 GH fn (@default_tol Rops) (@nth (@T Rops) 0 (state s) (@zero Rops)) e X FG) as (p & Hp).
    + rewrite default_tol_R. lra.
    + rewrite G0. lra.
    + rewrite (nth_indep _ (@zero Rops) (0 : @T Rops)) by (rewrite Hs; lia). exact H2.
    + rewrite default_tol_R. assert (P49 : 0 <= q ^ 49) by (apply pow_le; lra).
      assert (q ^ 49 * (e + (1 + X) / 5000) <= q ^ 49 * (e + (1 + X))) by (apply Rmult_le_compat_l; lra). lra.
    + match goal with |- context [j_newton ?F ?x None None None ?d ?z 50] => replace (j_newton F x None None None d z 50) with (@Ret R p) by (symmetry; exact Hp) end. cbn [obind]. destruct (Hdef t [p] ltac:(auto)) as (f' & Hf'). exists [p], f'. auto.
  - destruct Sol as [c|Sol]; [contradiction|].
    assert (Hqn : (INR n + 1) * th <= q * (1 - INR n * th)).
    { assert (q * (INR n * th) <= 1 / 2 * (INR n * th)) by (apply Rmult_le_compat_r; lra). lra. }
    destruct (newton_hd_live (E := E) n th q (@implicit_root Rops rhs t hB K) Hn Pth Hqn (conj Pq Hq) NI Sol (@default_tol Rops) (state s) _ e ltac:(rewrite default_tol_R; lra) Hs F0 (fun i Hi => proj1 (He i Hi))) as (y' & v' & H1 & H2 & H3 & H4).
    + rewrite default_tol_R. assert (P49 : 0 <= q ^ 49) by (apply pow_le; lra). change 50%nat with (S 49). rewrite <- tech_pow_Rmult.
      assert (q * q ^ 49 <= 1 * q ^ 49) by (apply Rmult_le_compat_r; lra).
      assert (q * q ^ 49 * e <= q ^ 49 * (e + (1 + X))). { eapply Rle_trans; [apply Rmult_le_compat_r; [exact Pe|exact H]|]. rewrite Rmult_1_l. apply Rmult_le_compat_l; lra. }
      assert (INR n * (q * q ^ 49 * e) <= INR n * (q ^ 49 * (e + (1 + X)))) by (apply Rmult_le_compat_l; lra). lra.
    + rewrite H1. cbn [obind]. destruct (Hdef t y' H2) as (f' & Hf'). exists y', f'. auto.
Qed.

Lemma live_step fuelc o tb (s : @st Rops) f0 e X q : wf M s -> dims n s -> (1 <= n)%nat -> n = 1%nat \/ solves_regular (E := E) n ->
  Rabs (hstep s) * (L * Rabs Bn) * (3 * INR n + 2) <= 2 * q -> q <= 1 / 2 ->
  rhs (now s + hstep s) (state s) = Ret f0 ->
  (forall i, (i < n)%nat -> Rabs (cmp i (lm_residual A B Bn s (state s) f0)) <= e /\ Rabs (cmp i (state s)) <= X) ->
  INR n * (q ^ 49 * (e + (1 + X))) <= 1 / 100000000 -> ~ would_pass tb s ->
  exists s', took_step (solver_of (E := E) M fuelc o rhs tb) s s' /\ length (state s') = n.
Proof.
  intros W D Hn Sol Hb Hq Hf He HX Hw. destruct (fixed_live s f0 e X q W D Hn Sol Hb Hq Hf He HX) as (y' & f' & H1 & H2 & H3).
  assert (Hc : exists s', s_core (solver_of (E := E) M fuelc o rhs tb) s = (Ret tt, s')).
  { cbn [s_core solver_of core_of]. unfold core_impl_ms, bind, lift. rewrite H1. rewrite H3. unfold push_st. eexists. reflexivity. }
  destruct Hc as (s' & Hc). pose proof (core_took (solver_of (E := E) M fuelc o rhs tb) s s' Hw Hc) as St. exists s'. split; [exact St|].
  destruct (impl_step_gen A B Bn fuelc o rhs tb s s' (proj1 W) St) as (_ & _ & _ & Ei). rewrite H1 in Ei. injection Ei as <-. exact H2.
Qed.

(** distance to the exact solution of the equation *)
Lemma close_root (s s' : @st Rops) fuelc o tb u fu : wf M s -> dims n s -> (1 <= n)%nat ->
  Rabs (hstep s) * (L * Rabs Bn) * (3 * INR n + 2) <= 1 -> took_step (solver_of (E := E) M fuelc o rhs tb) s s' -> length (state s') = n ->
  length u = n -> rhs (now s + hstep s) u = Ret fu -> lm_relation A B Bn s u fu -> near (1 / 10000000) (state s') u.
Proof.
  intros W D Hn Hb St Ls Lu Hu Rel. pose proof (wf_state_dim _ _ _ W D) as Hs. pose proof HL as (PL & Kd & Lp).
  destruct (impl_step_gen A B Bn fuelc o rhs tb s s' (proj1 W) St) as (Ht & Er & Pu & Ei).
  set (t := now s + hstep s) in *. set (hB := hstep s * Bn). set (K := @ms_combination Rops A B (cache s) (hstep s)).
  assert (LK : length K = n) by (now apply ms_comb_len).
  pose proof (root_near_id t hB K LK) as (_ & NI). set (th := L * Rabs hB) in *.
  assert (Eth : th = Rabs (hstep s) * (L * Rabs Bn)) by (unfold th, hB; rewrite Rabs_mult; ring).
  assert (Pth : 0 <= th) by (apply Rmult_le_pos; auto using Rabs_pos).
  assert (P1 : 1 <= INR n) by (apply (le_INR 1); auto). rewrite <- Eth in Hb.
  assert (T5 : th <= 1 / 5). { assert (th * 5 <= th * (3 * INR n + 2)) by (apply Rmult_le_compat_l; lra). lra. }
  pose proof (Kd t _ _ Ls Er) as Lf'. pose proof (Kd t _ _ Lu Hu) as Lfu.
  assert (F1 : @implicit_root Rops rhs t hB K (state s') = Ret (lm_residual A B Bn s (state s') (deriv s'))) by (apply (root_residual A B Bn rhs s n); auto).
  assert (F2 : @implicit_root Rops rhs t hB K u = Ret (lm_residual A B Bn s u fu)) by (apply (root_residual A B Bn rhs s n); auto).
  assert (Z : forall i, (i < n)%nat -> cmp i (lm_residual A B Bn s u fu) = 0).
  { intros i Hi. unfold lm_residual. rewrite nth_map_sq by (rewrite Hs; exact Hi). apply Rminus_diag_eq. apply Rel. rewrite Hs. exact Hi. }
  assert (Rs : forall i, (i < n)%nat -> Rabs (cmp i (lm_residual A B Bn s (state s') (deriv s'))) <= 444 / 10000000000).
  { intros i Hi. destruct (Nat.eq_dec n 1) as [En|En].
    - destruct (implicit_scalar (E := E) rhs n L A B Bn HL LAB fuelc o tb s s' En W ltac:(now rewrite <- En) St) as (_ & Q). replace i with 0%nat by lia.
      eapply Rle_trans; [exact Q|]. fold hB th. lra.
    - unfold impl_ms_fixed_step, ysize in Ei. change (buf_y (cache s)) with (state s) in Ei. rewrite Hs in Ei. destruct (Nat.eqb_spec n 1) as [e|_]; [congruence|].
      match type of Ei with context [newton_hd ?F _ _ _ _] => pose proof (newton_hd_R F (@default_tol Rops) (@zero Rops) (state s) 50) as NR end.
      match type of Ei with context [newton_hd ?F ?a ?b ?c ?d] => destruct (newton_hd F a b c d) as [y| |]; try discriminate end.
      cbn [obind] in Ei. injection Ei as ->. destruct NR as (k & v & _ & _ & Hv & Nv). rewrite default_tol_R in Nv.
      assert (e : v = lm_residual A B Bn s (state s') (deriv s')) by (pose proof (eq_trans (eq_sym Hv) F1) as q; injection q; auto). subst v.
      eapply Rle_trans; [apply norm2_cmp|]. eapply Rle_trans; [exact Nv|]. lra. }
  set (dd := mx (map (fun i => cmp i (state s') - cmp i u) (seq 0 n))).
  assert (Nd : near dd (state s') u).
  { split; [exact (eq_trans Ls (eq_sym Lu))|]. intros i Hi. apply mx_in. apply in_map_iff. exists i. split; [reflexivity|]. apply in_seq. assert (Hi2 : (i < n)%nat) by (eapply Nat.lt_le_trans; [exact Hi|]; apply Nat.eq_le_incl; exact Ls). lia. }
  assert (Bd : dd <= 444 / 10000000000 + th * dd).
  { assert (Pd : 0 <= dd) by apply mx_pos. apply mx_le.
    - assert (0 <= th * dd) by (apply Rmult_le_pos; auto). lra.
    - intros x Hx. apply in_map_iff in Hx as (i & <- & Hi). apply in_seq in Hi. assert (Hi' : (i < n)%nat) by lia.
      pose proof (NI _ _ _ _ _ Ls Lu F1 F2 Nd i Hi') as Q. rewrite (Z i Hi') in Q. specialize (Rs i Hi').
      set (r := cmp i (lm_residual A B Bn s (state s') (deriv s'))) in *. 
      match goal with |- Rabs ?a <= _ => replace a with (r + - (r - 0 - a)) by (match goal with |- @eq _ ?a ?b => change (@eq R a b) end; ring) end.
      eapply Rle_trans; [apply Rabs_triang|]. rewrite Rabs_Ropp. apply Rplus_le_compat; [exact Rs|exact Q]. }
  assert (th * dd <= 1 / 5 * dd) by (apply Rmult_le_compat_r; [apply mx_pos|auto]).
  destruct Nd as (N1 & N2). split; [exact N1|]. intros i Hi. eapply Rle_trans; [exact (N2 i Hi)|]. lra.
Qed.
End Live.

Lemma C83_lemma {E : @Env Rops} rhs n L A B Bn : lipschitz n L rhs -> defined_on n rhs -> length A = length B -> (1 <= n)%nat ->
  n = 1%nat \/ solves_regular (E := E) n ->
  forall fuelc o tb (s : @st Rops) f0, reachable (E := E) rhs (@ImplMS Rops A B Bn) fuelc o tb s -> dims n s ->
  Rabs (hstep s) * (L * Rabs Bn) * (3 * INR n + 2) <= 1 -> rhs (now s + hstep s) (state s) = Ret f0 ->
  (forall i, (i < n)%nat -> INR n * Rabs (cmp i (lm_residual A B Bn s (state s) f0)) <= 1000000 /\ INR n * Rabs (cmp i (state s)) <= 1000000) ->
  INR n <= 1000000 -> ~ would_pass tb s ->
  exists s', took_step (solver_of (E := E) (@ImplMS Rops A B Bn) fuelc o rhs tb) s s' /\ length (state s') = n /\
    forall u fu, length u = n -> rhs (now s + hstep s) u = Ret fu -> lm_relation A B Bn s u fu -> near (1 / 10000000) (state s') u.
Proof.
  intros HL Hd LAB Hn Sol fuelc o tb s f0 Hr D Hb Hf He Hni Hw. pose proof (proj1 (reach_good _ _ _ _ _ _ Hr)) as W.
  assert (P1 : 1 <= INR n) by (apply (le_INR 1); auto).
  destruct (live_step (E := E) rhs n L A B Bn HL Hd LAB fuelc o tb s f0 (1000000 / INR n) (1000000 / INR n) (1 / 2) W D Hn Sol) as (s' & St & Ls); auto; try lra.
  - intros i Hi. destruct (He i Hi) as (Q1 & Q2). split; (apply (Rmult_le_reg_l (INR n)); [lra|]; replace (INR n * (1000000 / INR n)) with 1000000 by (field; lra)); [exact Q1|exact Q2].
  - replace (INR n * ((1 / 2) ^ 49 * (1000000 / INR n + (1 + 1000000 / INR n)))) with ((1 / 2) ^ 49 * (2000000 + INR n)) by (field; lra). cbn [pow]. lra.
  - exists s'. split; [exact St|]. split; [exact Ls|]. intros u fu Lu Hu Rel. exact (close_root (E := E) rhs n L A B Bn HL Hd LAB s s' fuelc o tb u fu W D Hn Hb St Ls Lu Hu Rel).
Qed.
