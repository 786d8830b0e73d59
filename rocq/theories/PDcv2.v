(** Accuracy of DOP853: the error after any calls. *)
From Coq Require Import List ZArith Bool Arith Lia Reals Lra.
From Verif Require Import Base Scalar Vec MBuffer MZeros MSteps MApi MDop853 MClasses Laws Spec SpecInst
  PStep PKeeps PClean PCore PHist PRun PInterp PBound PVecR SpecRK PDim PRK SpecMS PMS PMS5 SpecDense PDense SpecConv PConv1 PConv2 PConv6 PConv9 SpecConv3
  PHi1 PHi2 PHi3 PHi4 SpecVar PVar1 PVar2 PVar3 PDcv1.
Import ListNotations.
Open Scope R_scope.

Section Var.
Context {E : @Env Rops}.
Variables (rhs : @rhs_t Rops) (n : nat) (L t0 te : R) (y : R -> list R).
Hypothesis HL : lipschitz n L rhs.
Hypothesis Hte : t0 <= te.
Hypothesis HC : C2_solution rhs n t0 te y.
Variables (A : list (list R)) (B C E5 E3 : list R) (order : Z) (DD Af : list (list R)) (Cf : list R).
Let m : @meth Rops := @Dop Rops A B C E5 E3 order DD Af Cf.
Hypothesis Hsh : length C = length A /\ A <> [].
Hypothesis HA : length A = dop_n_stages.
Hypothesis HCf : length Cf = length Af.
Lemma HkD : keeps_dim (OT := Rops) n rhs. Proof. apply HL. Qed.
Variables (qm La Ka F Ld Kd : R).
(** one bound for the step and for the dense output *)
Definition local : Prop :=
  forall h e t u f K u', 0 < h <= 1 -> h * qm <= 1 / 2 -> 0 <= e -> t0 <= t -> t + h <= te ->
    near e u (y t) -> rhs t u = Ret f -> rk_step (OT := Rops) rhs A B C t u f h K u' ->
    near ((1 + h * La) * e + h * (Ka * h + F)) u' (y (t + h)) /\
    forall g K' x, rhs (t + h) u' = Ret g -> stages_of (OT := Rops) rhs t u h (skipn 13 Af) (skipn 13 Cf) (K ++ [g]) K' -> t <= x <= t + h ->
       near ((1 + h * Ld) * e + h * Kd) (dop_dense DD t u u' g h K' x) (y x).
Lemma y_len t : t0 <= t <= te -> length (y t) = n.
Proof. intros Ht. destruct HC as (dy & ddy & HC'). now apply (HC' t Ht). Qed.
Lemma zero_step (u f : list R) (t : R) (K : list (list R)) (u' : list R) : length u = n -> rhs t u = Ret f -> rk_step (OT := Rops) rhs A B C t u f 0 K u' -> u' = u.
Proof.
  intros Lu Hf Hs. assert (Lf : length f = n) by (eapply HkD; eauto).
  pose proof (rk_step_dim n rhs HkD A B C t u f 0 K u' Lu Lf Hs) as (_ & LK). destruct Hs as (_ & ->).
  rewrite (combine_scale n) by auto.
  assert (Ll : forall W, length (@lincomb Rops (@length R u) W K) = n) by (intros W; rewrite Lu; now apply lincomb_len).
  apply (vec_ext n); [|exact Lu|].
  - apply vadd_len; [exact Lu|apply vscale_len, Ll].
  - intros i Hi. rewrite (vadd_cmp n) by (auto; apply vscale_len, Ll). rewrite vscale_cmp.
    change (cmp i u + 0 * cmp i (@lincomb Rops (@length R u) B K) = cmp i u). ring.
Qed.

Variables (fuelc : nat) (o : @options Rops) (tb : @ext Rops) (H : R) (s0 : @st Rops).
Hypothesis HLa : 0 <= La.
Hypothesis HKa : 0 <= Ka.
Hypothesis HF : 0 <= F.
Hypothesis HLd : 0 <= Ld.
Hypothesis HKd : 0 <= Kd.
Hypothesis Hqm : 0 <= qm.
Hypothesis Hloc : local.
Hypothesis Ho : sane o.
Hypothesis HH : 0 < H <= 1.
Hypothesis HHq : H * qm <= 1 / 2.
Let sv := solver_of (E := E) m fuelc o rhs tb.
Hypothesis Hst : steps_at_most H te sv s0.
Definition ac (x : R) : R := accp La 1 (Ka * H + F) (x - t0).
Definition dv : R := ac te + H * (Ld * ac te + Kd).

Definition vinv (x : @st Rops) : Prop :=
  dcalm A B C E5 E3 order DD Af Cf n x /\ good rhs m x /\ (exists x0, stepped sv s0 x0 /\ sim x x0) /\ t0 <= now x /\
  (now x <= te -> near (ac (now x)) (state x) (y (now x))).
(** what holds of the last step *)
Definition vlast (x : @st Rops) : Prop :=
  prev_t x < now x -> now x <= te -> t0 <= prev_t x /\ now x - prev_t x <= H /\ near (ac (prev_t x)) (prev_y x) (y (prev_t x)) /\
    rhs (prev_t x) (prev_y x) = Ret (prev_f x).

Lemma HHp : 0 <= Ka * H + F. Proof. assert (0 <= Ka * H) by (apply Rmult_le_pos; lra). lra. Qed.
Lemma small h : 0 <= h <= H -> h * qm <= 1 / 2.
Proof. intros. assert (h * qm <= H * qm) by (apply Rmult_le_compat_r; lra). lra. Qed.
Lemma ac_pos t : t0 <= t -> 0 <= ac t. Proof. intros. apply accp_pos; try lra. apply HHp. Qed.
Lemma ac_mono t t' : t0 <= t <= t' -> ac t <= ac t'. Proof. intros. apply accp_mono; try lra. apply HHp. Qed.
Lemma local_ac t h : 0 < h <= H -> t0 <= t -> (1 + h * La) * ac t + h * (Ka * h + F) <= ac (t + h).
Proof.
  intros Hh Ht. pose proof HHp. assert (Q : h * (Ka * h + F) <= 1 * (h * (Ka * H + F))).
  { rewrite Rmult_1_l. apply Rmult_le_compat_l; [lra|]. apply Rplus_le_compat_r. apply Rmult_le_compat_l; lra. }
  unfold ac. replace (t + h - t0) with (t - t0 + h) by lra. eapply Rle_trans; [|apply accp_step; lra]. apply Rplus_le_compat; lra.
Qed.
Lemma step_ac t h u f K u' : 0 <= h <= H -> t0 <= t -> t + h <= te -> near (ac t) u (y t) -> rhs t u = Ret f -> rk_step (OT := Rops) rhs A B C t u f h K u' ->
  near (ac (t + h)) u' (y (t + h)).
Proof.
  intros Hh Ht Hth Hu Hf Hs. destruct (Req_dec h 0) as [-> |Hne].
  - rewrite Rplus_0_r. apply zero_step in Hs; auto; [now subst u'|]. destruct Hu as (Hu & _). rewrite Hu. apply y_len. lra.
  - eapply near_mono; [apply (local_ac t h); lra|]. refine (proj1 (Hloc h (ac t) t u f K u' _ _ _ _ _ Hu Hf Hs)); try lra; [apply small; lra|now apply ac_pos].
Qed.
(** what the dense output adds *)
Lemma dense_ac t h : 0 <= h <= H -> t0 <= t -> t <= te -> (1 + h * Ld) * ac t + h * Kd <= dv.
Proof.
  intros Hh Ht Hth. pose proof (ac_mono t te ltac:(lra)) as Q. pose proof (ac_pos t Ht) as Q0. unfold dv.
  assert (Ld * ac t <= Ld * ac te) by (apply Rmult_le_compat_l; lra). assert (0 <= Ld * ac t) by (apply Rmult_le_pos; lra).
  assert (h * (Ld * ac t + Kd) <= H * (Ld * ac te + Kd)) by (apply Rmult_le_compat; lra). lra.
Qed.

Lemma vinv_core x r x' : ~ would_pass tb x -> vinv x -> core_of (E := E) m fuelc o rhs x = (r, x') ->
  vinv x' /\ (r = Ret tt -> vlast x' /\ now x <= now x' /\ prev_t x' = now x).
Proof.
  intros Hw (Hc & G & (x0 & S0 & Sx) & Ht & Hn) Hcore.
  pose proof (dcalm_core (E := E) A B C E5 E3 order DD Af Cf fuelc o rhs n Hsh HkD Ho x r x' Hc Hcore) as Hc'.
  pose proof (good_core (OT := Rops) (E := E) rhs m fuelc o x G) as G'. rewrite Hcore in G'. cbn [snd] in G'.
  pose proof (sim_core (E := E) m fuelc o rhs x x0 Sx) as (Ef & Es). rewrite Hcore in Ef, Es. cbn [fst snd] in Ef, Es.
  assert (S1 : stepped sv s0 (snd (s_core sv x0))).
  { constructor; auto. intros W. apply Hw. apply (sim_pass tb _ _ Sx). exact W. }
  assert (Hex : exists z, stepped sv s0 z /\ sim x' z) by (exists (snd (s_core sv x0)); split; [exact S1|exact Es]).
  destruct r as [[]|ex|].
  - destruct Hc as (W & Dx & Hh & _ & _). pose proof W as (Wb & Ws). cbn [len_history m] in Wb. cbn [n_stages_of m] in Ws.
    pose proof Hcore as Hcore'. cbn [core_of m] in Hcore'.
    destruct (core_fsal_step _ _ _ _ _ _ _ _ _ _ ltac:(now rewrite Ws, Nat.add_1_r) (proj1 Hsh) (proj2 Hsh) Hcore') as (h & K & y' & f' & R1 & R2 & R3 & _).
    assert (Ey : state x' = y') by (unfold state; rewrite R3; now apply (push_y 1)).
    assert (Et : now x' = now x + h) by (unfold now; rewrite R3; now apply (push_t 1)).
    assert (Epy : prev_y x' = state x) by (unfold prev_y; rewrite R3; now apply (push_yp 0)).
    assert (Ept : prev_t x' = now x) by (unfold prev_t; rewrite R3; now apply (push_tp 0)).
    assert (Epf : prev_f x' = deriv x) by (unfold prev_f; rewrite R3; now apply (push_fp 0)).
    assert (Hle : now x <= now x') by (rewrite <- Ept; apply Hc').
    assert (HhH : now x' <= te -> h <= H).
    { intros Hx. assert (Hcmp : completes sv tb x0 (snd (s_core sv x0))).
      { split; [intros W1; apply Hw; apply (sim_pass tb _ _ Sx); exact W1|]. cbn [sv s_core solver_of].
        destruct (core_of m fuelc o rhs x0) as [r0 z0]. cbn [fst snd] in *. now rewrite <- Ef. }
      pose proof (Hst x0 _ S0 Hcmp) as Hb. rewrite <- (sim_now _ _ Sx) in Hb. cbn [sv s_core solver_of] in Hb. rewrite <- (sim_now _ _ Es) in Hb.
      specialize (Hb Hx). lra. }
    pose proof (good_last _ _ _ G) as Hf.
    split; [|intros _; split; [|split; [exact Hle|exact Ept]]].
    + split; [exact Hc'|]. split; [exact G'|]. split; [exact Hex|]. split; [lra|]. intros Hx. specialize (HhH Hx).
      rewrite Et in *. rewrite Ey. specialize (Hn ltac:(lra)).
      apply (step_ac (now x) h (state x) (deriv x) K y'); auto; lra.
    + intros _ Hx. rewrite Ept, Epy, Epf. specialize (HhH Hx). split; [exact Ht|]. split; [lra|]. split; [apply Hn; lra|exact Hf].
  - split; [|discriminate]. split; [exact Hc'|]. split; [exact G'|]. split; [exact Hex|].
    apply core_of_ok in Hcore; [|intros; apply (wf_stages m); auto; apply G]. destruct Hcore as (_ & _ & _ & E2). unfold now, state in *. rewrite E2. auto.
  - split; [|discriminate]. split; [exact Hc'|]. split; [exact G'|]. split; [exact Hex|].
    apply core_of_ok in Hcore; [|intros; apply (wf_stages m); auto; apply G]. destruct Hcore as (_ & _ & _ & E2). unfold now, state in *. rewrite E2. auto.
Qed.
Lemma vinv_interp t x r x' : vinv x -> interp_of (E := E) m rhs t x = (r, x') -> vinv x' /\ (vlast x -> vlast x') /\ cache x' = cache x.
Proof.
  intros (Hc & G & (x0 & S0 & Sx) & Ht & Hn) Hi.
  pose proof (dcalm_interp (E := E) A B C E5 E3 order DD Af Cf rhs n HA HCf t x Hc) as Hc'. cbn [interp_of m] in Hi. rewrite Hi in Hc'. cbn [snd] in Hc'.
  pose proof (good_interp rhs m t x G) as G'. cbn [interp_of m] in G'. rewrite Hi in G'. cbn [snd] in G'.
  pose proof Hi as Hi'. apply (interp_sim m rhs t x r x') in Hi' as Sm. pose proof (proj1 (sim_iff _ _) Sm) as (Ec & _).
  split; [|split; [|exact Ec]].
  - split; [exact Hc'|]. split; [exact G'|]. split; [exists x0; split; auto; eapply sim_trans; eauto|]. unfold now, state in *. rewrite Ec. auto.
  - unfold vlast, prev_t, prev_y, prev_f, now. rewrite Ec. auto.
Qed.

Lemma vinv_session fuel cs : vinv s0 -> vinv (session (E := E) sv fuel cs s0).
Proof.
  apply (session_inv sv vinv).
  - intros b x Ha Hw Hx. cbn [sv s_core solver_of]. destruct (core_of m fuelc o rhs x) as [r x'] eqn:e. cbn [snd].
    apply (vinv_core x r x'); auto. exact (allowed_pass sv b x Ha Hw).
  - intros t x Hx. cbn [sv s_interp solver_of]. destruct (interp_of m rhs t x) as [r x'] eqn:e. cbn [snd]. eapply vinv_interp; eauto.
Qed.
Notation tidy := (dtidy A B C E5 E3 order DD Af Cf rhs n).
Definition vall (x : @st Rops) : Prop := vinv x /\ vlast x /\ tidy x.
Lemma vall_core x x' : ~ would_pass tb x -> vall x -> core_of (E := E) m fuelc o rhs x = (Ret tt, x') -> vall x' /\ now x <= now x' /\ prev_t x' = now x.
Proof.
  intros Hw (I1 & I2 & I3) Hc. destruct (vinv_core x _ x' Hw I1 Hc) as (J1 & J2). destruct (J2 eq_refl) as (J3 & J4 & J5).
  split; [|auto]. split; auto. split; auto. eapply (dtidy_core (E := E) A B C E5 E3 order DD Af Cf fuelc o rhs n Hsh HkD Ho x x'); auto. apply I1.
Qed.
Lemma vall_interp t x r x' : vall x -> interp_of (E := E) m rhs t x = (r, x') -> vall x' /\ cache x' = cache x.
Proof.
  intros (I1 & I2 & I3) Hi. destruct (vinv_interp t x r x' I1 Hi) as (J1 & J2 & J3). split; auto. split; auto. split; auto.
  pose proof (dtidy_interp (E := E) A B C E5 E3 order DD Af Cf rhs n HA HCf t x I3) as J. cbn [interp_of m] in Hi. rewrite Hi in J. exact J.
Qed.
Lemma vall_returns fuel cs s : vall s0 -> returns (E := E) sv fuel cs s0 s -> vall s.
Proof.
  intros H0 Hr. apply (returns_inv sv vall) with (fuel := fuel) (cs := cs) (s := s0); auto.
  - intros b x x' Ha Hw Hx Hc. apply (vall_core x x'); auto. exact (allowed_pass sv b x Ha Hw).
  - intros t x Hx. cbn [sv s_interp solver_of]. destruct (interp_of m rhs t x) as [r x'] eqn:e. destruct r; auto. eapply vall_interp; eauto.
Qed.
Lemma vall_init g sel first : garbage_ok m g -> init_var m g rhs t0 (y t0) o sel first = Ret s0 -> 0 <= hstep s0 -> vall s0.
Proof.
  intros Hg Hi Hh. assert (Hb : built rhs m s0) by (eapply built_var; eauto).
  pose proof (y_len t0 ltac:(lra)) as Ly0.
  destruct (init_var_fresh m g rhs t0 (y t0) o sel first s0 Hg eq_refl Hi) as (Q1 & Q2 & _ & Q3).
  assert (Q4 : prev_t s0 = t0) by (rewrite (dprev_is_first A B C E5 E3 order DD Af Cf); [exact Q3|apply (built_good rhs m s0 Hb)]).
  assert (Ti : tidy s0) by (apply (dbuilt_tidy (E := E) A B C E5 E3 order DD Af Cf rhs n HkD HA HCf s0 Hb); [rewrite Q2; exact Ly0|exact Hh]).
  split; [|split; [|exact Ti]].
  - split; [apply Ti|]. split; [eapply built_good; eauto|]. split; [exists s0; split; [constructor|apply sim_refl]|]. rewrite Q1, Q2. split; [lra|]. intros _.
    apply near_refl. apply ac_pos. lra.
  - intros Hlt. lra.
Qed.

(** the value of the interpolator inside the last step *)
Lemma vall_value t x a x' : vall x -> now x <= te -> prev_t x <= t <= now x -> interp_of (E := E) m rhs t x = (Ret a, x') ->
  near (dv) (deref (cache x') a) (y t).
Proof.
  intros (I1 & I2 & I3) Hx Ht Hi. pose proof I1 as (Hc & G & _ & Ht0 & Hn). specialize (Hn Hx).
  pose proof Hc as (W & Dx & _ & _ & _). pose proof W as (Wb & _). cbn [len_history m] in Wb. destruct Wb as (W1 & W2 & W3).
  assert (Ea : forall z, t0 <= z <= te -> ac z <= dv).
  { intros z Hz. pose proof (ac_mono z te ltac:(lra)). pose proof (ac_pos te Hte). assert (0 <= H * (Ld * ac te + Kd)) by (apply Rmult_le_pos; [lra|]; assert (0 <= Ld * ac te) by (apply Rmult_le_pos; lra); lra). unfold dv. lra. }
  destruct (Req_dec t (now x)) as [-> |H1].
  - cbn [interp_of m] in Hi. rewrite interp_dop_cases in Hi. rewrite (proj2 (Reqb_true (now x) (now x)) eq_refl) in Hi. injection Hi as <- <-.
    cbn [deref]. replace (nth (length (ys (cache x)) - 1) (ys (cache x)) []) with (state x).
    + eapply near_mono; [|exact Hn]. apply Ea. lra.
    + unfold state, buf_y. destruct (ys (cache x)) as [|q1 [|q2 [|]]]; try discriminate. reflexivity.
  - assert (Hlt : prev_t x < now x) by lra. destruct (I2 Hlt Hx) as (P0 & P1 & P2 & P3).
    destruct (Req_dec t (prev_t x)) as [-> |H2].
    + cbn [interp_of m] in Hi. rewrite interp_dop_cases in Hi. rewrite (proj2 (Reqb_false (prev_t x) (now x)) H1) in Hi.
      rewrite (proj2 (Reqb_true (prev_t x) (prev_t x)) eq_refl) in Hi. injection Hi as <- <-. cbn [deref].
      change (near (dv) (prev_y x) (y (prev_t x))). eapply near_mono; [|exact P2]. apply Ea. lra.
    + destruct (dtidy_dense (E := E) A B C E5 E3 order DD Af Cf fuelc o rhs tb n Hsh HkD HA HCf x t I3 ltac:(lra)) as (h & K & (S1 & S2) & Hv & _).
      unfold interpolate in Hv. fold (now x) in Hv. rewrite <- (dprev_is_first A B C E5 E3 order DD Af Cf x W) in Hv.
      replace (@leb Rops (prev_t x) t && @leb Rops t (now x))%bool with true in Hv by (symmetry; apply andb_true_intro; split; apply Rleb_true; lra).
      cbn [negb] in Hv. destruct (Hv a x' Hi) as (K' & HK' & ->). cbn [deref].
      change (@add Rops (prev_t x) h) with (prev_t x + h) in S2.
      pose proof (good_last _ _ _ G) as Hf. rewrite S2 in Hf.
      destruct (Hloc h (ac (prev_t x)) (prev_t x) (prev_y x) (prev_f x) K (state x)) as (_ & Hdn); auto; try lra; [apply small; lra|now apply ac_pos|].
      eapply near_mono; [|apply (Hdn (deriv x) K' t); auto; lra].
      apply dense_ac; lra.
Qed.
Lemma vall_chain x l x' : chain sv tb x l x' -> vall x -> vall x' /\ now x <= now x'.
Proof.
  induction 1 as [x|x x1 l x2 (Hw & Hc) Hch IH]; intros Hx; [split; [auto|lra]|].
  destruct (vall_core x x1 Hw Hx Hc) as (V1 & Hle & _). destruct (IH V1) as (V2 & Hle2). split; auto. lra.
Qed.
Lemma vall_upto ti x l x' : upto_target sv ti x l x' -> vall x -> x' = x \/ prev_t x' < ti.
Proof.
  intros (Hch & Hl) Hx. change (s_bound sv) with tb in Hch. revert Hx Hl.
  induction Hch as [x|x x1 l x2 (Hw & Hc) Hch IH]; intros Hx Hl; [auto|right].
  change (removelast (x :: x1 :: l)) with (x :: removelast (x1 :: l)) in Hl. apply Forall_cons_iff in Hl as (Hl1 & Hl2). apply Rltb_true in Hl1.
  destruct (vall_core x x1 Hw Hx Hc) as (V1 & Hle & Hp). destruct (IH V1 Hl2) as [-> |H1]; [|exact H1]. rewrite Hp. exact Hl1.
Qed.
Lemma sampled_mono_v x tl vs x3 : sampled sv x tl vs x3 -> vall x -> vall x3 /\ now x <= now x3.
Proof.
  induction 1 as [|s ti l s1 a s2 tl vs s3 (Hch & Hlt) Hge Hin Hs IH]; intros Hx; [split; [auto|lra]|].
  destruct (vall_chain _ _ _ Hch Hx) as (V1 & L1). destruct (vall_interp _ _ _ _ V1 Hin) as (V2 & E2). destruct (IH V2) as (V3 & L3).
  split; auto. unfold now in *. rewrite E2 in L3. lra.
Qed.
Lemma sampled_v x tl vs x3 : sampled sv x tl vs x3 -> vall x -> now x3 <= te -> @is_sorted Rops tl = true ->
  (forall t tl', tl = t :: tl' -> prev_t x <= t) -> Forall2 (fun t v => near (dv) v (y t)) tl vs.
Proof.
  induction 1 as [|s ti l s1 a s2 tl vs s3 Hup Hge Hin Hs IH]; intros Hx Hn Hsr Hw; [constructor|].
  pose proof Hup as (Hch & Hlt). destruct (vall_chain _ _ _ Hch Hx) as (V1 & L1). destruct (vall_interp _ _ _ _ V1 Hin) as (V2 & E2).
  destruct (sampled_mono_v _ _ _ _ Hs V2) as (V3 & L3). apply Rltb_false in Hge.
  assert (N2 : now s2 = now s1) by (unfold now; now rewrite E2).
  assert (Hlo : prev_t s1 <= ti). { destruct (vall_upto ti s l s1 Hup Hx) as [-> |Hl]; [apply (Hw ti tl); reflexivity|lra]. }
  constructor.
  - apply (vall_value ti s1 a s2); auto; lra.
  - apply IH; auto.
    + destruct tl as [|b tl]; auto. change (leb ti b && is_sorted (b :: tl) = true)%bool in Hsr. now apply andb_true_iff in Hsr as (_ & Hsr).
    + intros t tl' ->. change (leb ti t && is_sorted (t :: tl') = true)%bool in Hsr. apply andb_true_iff in Hsr as (Hsr & _). apply Rleb_true in Hsr.
      unfold prev_t in *. rewrite E2. lra.
Qed.
Lemma run_v fuel' t s rows s' : vall s -> is_sorted t = true -> run (E := E) sv fuel' t s = (Ret rows, s') -> now s' <= te ->
  Forall (fun r => near (dv) (snd r) (y (fst r))) rows.
Proof.
  intros V Hs Hr Hn. destruct (C13_lemma m fuelc o rhs tb fuel' t s rows s' Hs Hr) as (s1 & R1 & R2 & R3).
  destruct (sampled_mono_v _ _ _ _ R2 V) as (V1 & L1).
  assert (Hn1 : now s1 <= te).
  { destruct R3 as [(_ & ->)|(tj & _ & l & (Hch & _) & _)]; auto. destruct (vall_chain _ _ _ Hch V1) as (_ & L2). lra. }
  rewrite <- (combine_split_id rows). apply (Forall2_combine (fun t v => near (dv) v (y t))).
  apply (sampled_v _ _ _ _ R2 V Hn1).
  - rewrite R1. now apply sorted_firstn.
  - intros t1 tl' Ht. destruct t as [|ta tr]; [destruct rows; discriminate|].
    destruct rows as [|r rows]; [discriminate|]. rewrite R1 in Ht. cbn [length firstn] in Ht. injection Ht as -> _.
    unfold sv in Hr. rewrite run_sorted_eq in Hr by auto. rewrite <- (dprev_is_first A B C E5 E3 order DD Af Cf s) in Hr by apply V. destruct (ltb t1 _) eqn:e; [discriminate|]. apply Rltb_false in e. lra.
Qed.
End Var.


