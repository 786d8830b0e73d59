(** Accuracy of the variable step Runge-Kutta classes. *)
From Coq Require Import List ZArith Bool Arith Lia Reals Lra.
From Verif Require Import Base Scalar Vec MBuffer MZeros MSteps MApi MDop853 MClasses Laws Spec SpecInst
  PStep PKeeps PClean PCore PHist PRun PInterp PBound PVecR SpecRK PDim PRK SpecMS PMS PMS5 SpecDense PDense SpecConv PConv1 PConv2 PConv6 SpecConv3
  PHi1 PHi2 PHi3 PHi4 SpecVar PVar1 PVar2.
Import ListNotations.
Open Scope R_scope.

Lemma var_table_tab m p : In (m, p) var_table -> exists A B C Ew order P, m = @Fsal Rops A B C Ew order P /\ tab4 p A B C /\ tabd p A B C P.
Proof.
  intros H. cbn [var_table In] in H. destruct H as [H|[H|[]]]; injection H as <- <-.
  - pose proof tabd_rk23 as H. do 6 eexists. split; [reflexivity|]. exact H.
  - pose proof tabd_rk45 as H. do 6 eexists. split; [reflexivity|]. exact H.
Qed.

(** a limit the client may pass is at most t_bound *)
Lemma allowed_pass (sv : @solver Rops) b (x : @st Rops) : allowed sv b -> ~ would_pass b x -> ~ would_pass (s_bound sv) x.
Proof.
  intros [H| ->] Hn Hw; [|auto]. apply Hn. unfold would_pass, gt_ext, ext_gt in *. destruct (s_bound sv) as [B|]; [|discriminate].
  destruct b as [b|]; [|cbn in H; discriminate]. cbn in *. apply Rltb_false in H. apply Rltb_true in Hw. apply Rltb_true. lra.
Qed.

Section Var.
Context {E : @Env Rops}.
Variables (rhs : @rhs_t Rops) (n : nat) (L t0 te : R) (y : R -> list R).
Hypothesis HL : lipschitz n L rhs.
Hypothesis Hte : t0 <= te.
Hypothesis HC : Ck_solution 5 rhs n t0 te y.
Hypothesis HJ : smooth_along rhs n t0 te y.
Variables (A : list (list R)) (B C Ew : list R) (order : Z) (P : list (list R)) (p pd : nat).
Let m : @meth Rops := @Fsal Rops A B C Ew order P.
Hypothesis HD : tabd pd A B C P.
Hypothesis Hpd : (p <= S pd)%nat.

Lemma Hsh : length C = length A /\ A <> [].
Proof. destruct HD as (_ & _ & H1 & H2 & _). auto. Qed.
Lemma HkD : keeps_dim (OT := Rops) n rhs. Proof. apply HL. Qed.

(** one bound for the step and for the dense output *)
Definition local (Ca : R) : Prop :=
  forall h e t u f K u', 0 <= h <= 1 -> 0 <= e -> t0 <= t -> t + h <= te ->
    near e u (y t) -> rhs t u = Ret f -> rk_step (OT := Rops) rhs A B C t u f h K u' ->
    near ((1 + h * Ca) * e + Ca * (h * h ^ p)) u' (y (t + h)) /\
    (0 < h -> forall g x, rhs (t + h) u' = Ret g -> t <= x <= t + h -> near ((1 + h * Ca) * e + Ca * (h * h ^ pd)) (rk_dense P t u h (K ++ [g]) x) (y x)).
(** the same for the step alone *)
Definition local_step (Ca : R) : Prop :=
  forall h e t u f K u', 0 < h <= 1 -> 0 <= e -> t0 <= t -> t + h <= te ->
    near e u (y t) -> rhs t u = Ret f -> rk_step (OT := Rops) rhs A B C t u f h K u' ->
    near ((1 + h * Ca) * e + Ca * (h * h ^ p)) u' (y (t + h)).
Lemma y_len t : t0 <= t <= te -> length (y t) = n.
Proof. intros Ht. destruct HC as (D & D0 & HD'). destruct (HD' t Ht) as (_ & H & _). specialize (H 0%nat ltac:(lia)). now rewrite D0 in H. Qed.
Lemma zero_step (u f : list R) (t : R) (K : list (list R)) (u' : list R) : length u = n -> rhs t u = Ret f -> rk_step (OT := Rops) rhs A B C t u f 0 K u' -> u' = u.
Proof.
  intros Lu Hf Hs. assert (Lf : length f = n) by (eapply HkD; eauto).
  pose proof (rk_step_dim n rhs HkD A B C t u f 0 K u' Lu Lf Hs) as (_ & LK). destruct Hs as (_ & ->).
  rewrite (combine_scale n) by auto.
  assert (Ll : forall W, length (@lincomb Rops (@length R u) W K) = n) by (intros W; rewrite Lu; now apply lincomb_len).
  apply (vec_ext n); [|exact Lu|].
  - apply vadd_len; [exact Lu|apply vscale_len, Ll].
  - intros i Hi. rewrite (vadd_cmp n) by (auto; apply vscale_len, Ll). rewrite vscale_cmp.
    change (cmp i u + 0 * cmp i (@lincomb Rops (@length R u) B K) = cmp i u). ring.
Qed.
Lemma local_ex : (exists C1, 0 <= C1 /\ local_step C1) -> exists Ca, 0 <= Ca /\ local Ca.
Proof.
  intros (C1 & H1 & S1).
  destruct (rk_dense_hi rhs n L t0 te y pd A B C P HL Hte HC HJ HD) as (C2 & H2 & S2).
  exists (C1 + C2). split; [lra|]. intros h e t u f K u' Hh He Ht Hth Hu Hf Hs.
  assert (Hhp : 0 <= h * h ^ p) by (apply Rmult_le_pos; [lra|apply pow_le; lra]).
  assert (Hhd : 0 <= h * h ^ pd) by (apply Rmult_le_pos; [lra|apply pow_le; lra]).
  assert (M1 : (1 + h * C1) * e + C1 * (h * h ^ p) <= (1 + h * (C1 + C2)) * e + (C1 + C2) * (h * h ^ p)).
  { assert (0 <= h * C2 * e) by (repeat apply Rmult_le_pos; lra). assert (0 <= C2 * (h * h ^ p)) by (apply Rmult_le_pos; lra). lra. }
  assert (M2 : (1 + h * C2) * e + C2 * (h * h ^ pd) <= (1 + h * (C1 + C2)) * e + (C1 + C2) * (h * h ^ pd)).
  { assert (0 <= h * C1 * e) by (repeat apply Rmult_le_pos; lra). assert (0 <= C1 * (h * h ^ pd)) by (apply Rmult_le_pos; lra). lra. }
  destruct (Req_dec h 0) as [-> |Hne].
  - split; [|intros Hlt; lra]. rewrite Rplus_0_r. apply zero_step in Hs; auto; [|destruct Hu as (-> & _); apply y_len; lra]. subst u'.
    eapply near_mono; [|exact Hu]. lra.
  - split.
    + eapply near_mono; [exact M1|]. apply (S1 h e t u f K u'); auto; lra.
    + intros _ g x Hg Hx. eapply near_mono; [exact M2|]. apply (S2 h e t u f K u' g x); auto; lra.
Qed.

Variables (Ca : R) (fuelc : nat) (o : @options Rops) (tb : @ext Rops) (H : R) (s0 : @st Rops).
Hypothesis HCa : 0 <= Ca.
Hypothesis Hloc : local Ca.
Hypothesis Ho : sane o.
Hypothesis HH : 0 < H <= 1.
Let sv := solver_of (E := E) m fuelc o rhs tb.
Hypothesis Hst : steps_at_most H te sv s0.
Let ac (x : R) : R := accp Ca Ca (H ^ p) (x - t0).

Definition vinv (x : @st Rops) : Prop :=
  calm A B C Ew order P n x /\ good rhs m x /\ (exists x0, stepped sv s0 x0 /\ sim x x0) /\ t0 <= now x /\
  (now x <= te -> near (ac (now x)) (state x) (y (now x))).
(** what holds of the last step *)
Definition vlast (x : @st Rops) : Prop :=
  prev_t x < now x -> now x <= te -> t0 <= prev_t x /\ now x - prev_t x <= H /\ near (ac (prev_t x)) (prev_y x) (y (prev_t x)) /\
    rhs (prev_t x) (prev_y x) = Ret (prev_f x).

Lemma Hpw h : 0 <= h <= H -> 0 <= h ^ p <= H ^ p.
Proof. intros Hh. split; [apply pow_le; lra|apply pow_incr; lra]. Qed.
Lemma HHp : 0 <= H ^ p. Proof. apply pow_le. lra. Qed.
Lemma local_ac t h : 0 <= h <= H -> t0 <= t -> (1 + h * Ca) * ac t + Ca * (h * h ^ p) <= ac (t + h).
Proof.
  intros Hh Ht. unfold ac. destruct (Req_dec h 0) as [-> |Hne]; [rewrite Rplus_0_r; lra|]. pose proof (Hpw h Hh). pose proof HHp.
  replace (t + h - t0) with (t - t0 + h) by lra. eapply Rle_trans; [|apply accp_step; lra].
  assert (h * h ^ p <= h * H ^ p) by (apply Rmult_le_compat_l; lra).
  assert (Ca * (h * h ^ p) <= Ca * (h * H ^ p)) by (apply Rmult_le_compat_l; lra). lra.
Qed.
(** what the dense output adds *)
Lemma dense_ac t h : 0 <= h <= H -> t0 <= t -> t + h <= te -> (1 + h * Ca) * ac t + Ca * (h * h ^ pd) <= ac te + Ca * H ^ p.
Proof.
  intros Hh Ht Hth. pose proof HHp as Q.
  assert (Q1 : (1 + h * Ca) * ac t <= ac (t + h)).
  { pose proof (local_ac t h Hh Ht) as Q1. assert (0 <= Ca * (h * h ^ p)) by (apply Rmult_le_pos; [lra|apply Rmult_le_pos; [lra|apply pow_le; lra]]). lra. }
  assert (Q2 : ac (t + h) <= ac te) by (unfold ac; apply accp_mono; lra).
  assert (Q3 : h * h ^ pd <= H ^ p).
  { change (h * h ^ pd) with (h ^ S pd). apply Rle_trans with (H ^ S pd); [apply pow_incr; lra|].
    replace (S pd) with (p + (S pd - p))%nat by lia. rewrite pow_add. rewrite <- (Rmult_1_r (H ^ p)) at 2. apply Rmult_le_compat_l; auto.
    rewrite <- (pow1 (S pd - p)). apply pow_incr. lra. }
  assert (Ca * (h * h ^ pd) <= Ca * H ^ p) by (apply Rmult_le_compat_l; lra). lra.
Qed.
Lemma ac_pos t : t0 <= t -> 0 <= ac t. Proof. intros. apply accp_pos; try lra. apply HHp. Qed.
Lemma ac_mono t t' : t0 <= t <= t' -> ac t <= ac t'. Proof. intros. apply accp_mono; try lra. apply HHp. Qed.

Lemma vinv_core x r x' : ~ would_pass tb x -> vinv x -> core_of (E := E) m fuelc o rhs x = (r, x') ->
  vinv x' /\ (r = Ret tt -> vlast x' /\ now x <= now x' /\ prev_t x' = now x).
Proof.
  intros Hw (Hc & G & (x0 & S0 & Sx) & Ht & Hn) Hcore.
  pose proof (calm_core (E := E) A B C Ew order P fuelc o rhs n Hsh HkD Ho x r x' Hc Hcore) as Hc'.
  pose proof (good_core (OT := Rops) (E := E) rhs m fuelc o x G) as G'. rewrite Hcore in G'. cbn [snd] in G'.
  pose proof (sim_core (E := E) m fuelc o rhs x x0 Sx) as (Ef & Es). rewrite Hcore in Ef, Es. cbn [fst snd] in Ef, Es.
  assert (S1 : stepped sv s0 (snd (s_core sv x0))).
  { constructor; auto. intros W. apply Hw. apply (sim_pass tb _ _ Sx). exact W. }
  assert (Hex : exists z, stepped sv s0 z /\ sim x' z) by (exists (snd (s_core sv x0)); split; [exact S1|exact Es]).
  destruct r as [[]|ex|].
  - destruct Hc as (W & Dx & Hh & _ & _). pose proof W as (Wb & Ws). cbn [len_history m] in Wb. cbn [n_stages_of m] in Ws.
    pose proof Hcore as Hcore'. cbn [core_of m] in Hcore'.
    destruct (core_fsal_step _ _ _ _ _ _ _ _ _ _ ltac:(now rewrite Ws, Nat.add_1_r) (proj1 Hsh) (proj2 Hsh) Hcore') as (h & K & y' & f' & R1 & R2 & R3 & _).
    assert (Ey : state x' = y') by (unfold state; rewrite R3; now apply (push_y 1)).
    assert (Et : now x' = now x + h) by (unfold now; rewrite R3; now apply (push_t 1)).
    assert (Epy : prev_y x' = state x) by (unfold prev_y; rewrite R3; now apply (push_yp 0)).
    assert (Ept : prev_t x' = now x) by (unfold prev_t; rewrite R3; now apply (push_tp 0)).
    assert (Epf : prev_f x' = deriv x) by (unfold prev_f; rewrite R3; now apply (push_fp 0)).
    assert (Hle : now x <= now x') by (rewrite <- Ept; apply Hc').
    assert (HhH : now x' <= te -> h <= H).
    { intros Hx. assert (Hcmp : completes sv tb x0 (snd (s_core sv x0))).
      { split; [intros W1; apply Hw; apply (sim_pass tb _ _ Sx); exact W1|]. cbn [sv s_core solver_of].
        destruct (core_of m fuelc o rhs x0) as [r0 z0]. cbn [fst snd] in *. now rewrite <- Ef. }
      pose proof (Hst x0 _ S0 Hcmp) as Hb. rewrite <- (sim_now _ _ Sx) in Hb. cbn [sv s_core solver_of] in Hb. rewrite <- (sim_now _ _ Es) in Hb.
      specialize (Hb Hx). lra. }
    pose proof (good_last _ _ _ G) as Hf.
    split; [|intros _; split; [|split; [exact Hle|exact Ept]]].
    + split; [exact Hc'|]. split; [exact G'|]. split; [exact Hex|]. split; [lra|]. intros Hx. specialize (HhH Hx).
      rewrite Et in *. rewrite Ey. specialize (Hn ltac:(lra)).
      eapply near_mono; [apply (local_ac (now x) h); lra|]. refine (proj1 (Hloc h (ac (now x)) (now x) (state x) (deriv x) K y' _ _ _ _ Hn Hf R1)); try lra. now apply ac_pos.
    + intros _ Hx. rewrite Ept, Epy, Epf. specialize (HhH Hx). split; [exact Ht|]. split; [lra|]. split; [apply Hn; lra|exact Hf].
  - split; [|discriminate]. split; [exact Hc'|]. split; [exact G'|]. split; [exact Hex|].
    apply core_of_ok in Hcore; [|intros; apply (wf_stages m); auto; apply G]. destruct Hcore as (_ & _ & _ & E2). unfold now, state in *. rewrite E2. auto.
  - split; [|discriminate]. split; [exact Hc'|]. split; [exact G'|]. split; [exact Hex|].
    apply core_of_ok in Hcore; [|intros; apply (wf_stages m); auto; apply G]. destruct Hcore as (_ & _ & _ & E2). unfold now, state in *. rewrite E2. auto.
Qed.
Lemma vinv_interp t x r x' : vinv x -> interp_of (E := E) m rhs t x = (r, x') -> vinv x' /\ (vlast x -> vlast x') /\ cache x' = cache x.
Proof.
  intros (Hc & G & (x0 & S0 & Sx) & Ht & Hn) Hi.
  pose proof (calm_interp (E := E) A B C Ew order P n t x Hc) as Hc'. cbn [interp_of m] in Hi. rewrite Hi in Hc'. cbn [snd] in Hc'.
  pose proof (good_interp rhs m t x G) as G'. cbn [interp_of m] in G'. rewrite Hi in G'. cbn [snd] in G'.
  pose proof Hi as Hi'. apply (interp_sim m rhs t x r x') in Hi' as Sm. pose proof (proj1 (sim_iff _ _) Sm) as (Ec & _).
  split; [|split; [|exact Ec]].
  - split; [exact Hc'|]. split; [exact G'|]. split; [exists x0; split; auto; eapply sim_trans; eauto|]. unfold now, state in *. rewrite Ec. auto.
  - unfold vlast, prev_t, prev_y, prev_f, now. rewrite Ec. auto.
Qed.

Lemma vinv_session fuel cs : vinv s0 -> vinv (session (E := E) sv fuel cs s0).
Proof.
  apply (session_inv sv vinv).
  - intros b x Ha Hw Hx. cbn [sv s_core solver_of]. destruct (core_of m fuelc o rhs x) as [r x'] eqn:e. cbn [snd].
    apply (vinv_core x r x'); auto. exact (allowed_pass sv b x Ha Hw).
  - intros t x Hx. cbn [sv s_interp solver_of]. destruct (interp_of m rhs t x) as [r x'] eqn:e. cbn [snd]. eapply vinv_interp; eauto.
Qed.
Notation tidy := (tidy A B C Ew order P rhs n).
Definition vall (x : @st Rops) : Prop := vinv x /\ vlast x /\ tidy x.
Lemma vall_core x x' : ~ would_pass tb x -> vall x -> core_of (E := E) m fuelc o rhs x = (Ret tt, x') -> vall x' /\ now x <= now x' /\ prev_t x' = now x.
Proof.
  intros Hw (I1 & I2 & I3) Hc. destruct (vinv_core x _ x' Hw I1 Hc) as (J1 & J2). destruct (J2 eq_refl) as (J3 & J4 & J5).
  split; [|auto]. split; auto. split; auto. eapply (tidy_core (E := E) A B C Ew order P fuelc o rhs n Hsh HkD Ho x x'); auto. apply I1.
Qed.
Lemma vall_interp t x r x' : vall x -> interp_of (E := E) m rhs t x = (r, x') -> vall x' /\ cache x' = cache x.
Proof.
  intros (I1 & I2 & I3) Hi. destruct (vinv_interp t x r x' I1 Hi) as (J1 & J2 & J3). split; auto. split; auto. split; auto.
  pose proof (tidy_interp (E := E) A B C Ew order P rhs n t x I3) as J. cbn [interp_of m] in Hi. rewrite Hi in J. exact J.
Qed.
Lemma vall_returns fuel cs s : vall s0 -> returns (E := E) sv fuel cs s0 s -> vall s.
Proof.
  intros H0 Hr. apply (returns_inv sv vall) with (fuel := fuel) (cs := cs) (s := s0); auto.
  - intros b x x' Ha Hw Hx Hc. apply (vall_core x x'); auto. exact (allowed_pass sv b x Ha Hw).
  - intros t x Hx. cbn [sv s_interp solver_of]. destruct (interp_of m rhs t x) as [r x'] eqn:e. destruct r; auto. eapply vall_interp; eauto.
Qed.
Lemma vall_init g sel first : garbage_ok m g -> init_var m g rhs t0 (y t0) o sel first = Ret s0 -> 0 <= hstep s0 -> vall s0.
Proof.
  intros Hg Hi Hh. assert (Hb : built rhs m s0) by (eapply built_var; eauto).
  pose proof (y_len t0 ltac:(lra)) as Ly0.
  assert (Es : now s0 = t0 /\ state s0 = y t0 /\ prev_t s0 = t0).
  { unfold init_var in Hi. destruct (init_base m g rhs t0 (y t0) None) as [x0| |] eqn:e; try discriminate.
    cbn [obind] in Hi. apply (init_base_spec m g rhs t0 (y t0) None x0 Hg) in e as (_ & f & Hrf & Hc & _).
    destruct (match max_step o with Fin x => _ | PInf => _ end); [discriminate|]. destruct (ltb _ _); [discriminate|].
    match type of Hi with (let! h := ?x in _) = _ => destruct x as [h| |] end; cbn [obind] in Hi; try discriminate.
    cbn [m] in Hi. rewrite rk_update_R in Hi. injection Hi as <-. unfold now, state, prev_t, buf_t, buf_y, buf_tp. cbn. rewrite Hc. repeat split; reflexivity. }
  destruct Es as (E1 & E2 & E3).
  assert (Ti : tidy s0) by (apply (built_tidy (E := E) A B C Ew order P rhs n HkD s0 Hb); [rewrite E2; exact Ly0|exact Hh]).
  split; [|split; [|exact Ti]].
  - split; [apply Ti|]. split; [eapply built_good; eauto|]. split; [exists s0; split; [constructor|apply sim_refl]|]. rewrite E1, E2. split; [lra|]. intros _.
    apply near_refl. apply ac_pos. lra.
  - intros Hlt. lra.
Qed.

(** the value of the interpolator inside the last step *)
Lemma vall_value t x a x' : vall x -> now x <= te -> prev_t x <= t <= now x -> interp_of (E := E) m rhs t x = (Ret a, x') ->
  near (ac te + Ca * H ^ p) (deref (cache x') a) (y t).
Proof.
  intros (I1 & I2 & I3) Hx Ht Hi. pose proof I1 as (Hc & G & _ & Ht0 & Hn). specialize (Hn Hx).
  pose proof Hc as (W & Dx & _ & _ & _). pose proof W as (Wb & _). cbn [len_history m] in Wb. destruct Wb as (W1 & W2 & W3).
  assert (Ea : forall z, t0 <= z <= te -> ac z <= ac te + Ca * H ^ p).
  { intros z Hz. pose proof (ac_mono z te ltac:(lra)). assert (0 <= Ca * H ^ p) by (apply Rmult_le_pos; [lra|apply HHp]). lra. }
  destruct (Req_dec t (now x)) as [-> |H1].
  - cbn [interp_of m] in Hi. rewrite interp_rk_cases in Hi. rewrite (proj2 (Reqb_true (now x) (now x)) eq_refl) in Hi. injection Hi as <- <-.
    cbn [deref]. replace (nth (length (ys (cache x)) - 1) (ys (cache x)) []) with (state x).
    + eapply near_mono; [|exact Hn]. apply Ea. lra.
    + unfold state, buf_y. destruct (ys (cache x)) as [|q1 [|q2 [|]]]; try discriminate. reflexivity.
  - assert (Hlt : prev_t x < now x) by lra. destruct (I2 Hlt Hx) as (P0 & P1 & P2 & P3).
    destruct (Req_dec t (prev_t x)) as [-> |H2].
    + cbn [interp_of m] in Hi. rewrite interp_rk_cases in Hi. rewrite (proj2 (Reqb_false (prev_t x) (now x)) H1) in Hi.
      rewrite (proj2 (Reqb_true (prev_t x) (prev_t x)) eq_refl) in Hi. injection Hi as <- <-. cbn [deref].
      change (near (ac te + Ca * H ^ p) (prev_y x) (y (prev_t x))). eapply near_mono; [|exact P2]. apply Ea. lra.
    + destruct (tidy_dense (E := E) A B C Ew order P fuelc o rhs tb n Hsh HkD x t I3 ltac:(lra)) as (h & K & x1 & (S1 & S2) & Hv).
      unfold interpolate in Hv. fold (now x) in Hv. rewrite <- (prev_is_first A B C Ew order P x W) in Hv.
      replace (@leb Rops (prev_t x) t && @leb Rops t (now x))%bool with true in Hv by (symmetry; apply andb_true_intro; split; apply Rleb_true; lra).
      cbn [negb] in Hv. change (interp_of (E := E) m rhs t x = (Ret (@Own Rops (rk_dense P (prev_t x) (prev_y x) h (K ++ [deriv x]) t)), x1)) in Hv.
      rewrite Hv in Hi. injection Hi as <- <-. cbn [deref].
      change (@add Rops (prev_t x) h) with (prev_t x + h) in S2.
      pose proof (good_last _ _ _ G) as Hf. rewrite S2 in Hf.
      destruct (Hloc h (ac (prev_t x)) (prev_t x) (prev_y x) (prev_f x) K (state x)) as (_ & Hdn); auto; try lra; [now apply ac_pos|].
      eapply near_mono; [|apply (Hdn ltac:(lra) (deriv x) t); auto; lra].
      apply dense_ac; lra.
Qed.
Lemma vall_chain x l x' : chain sv tb x l x' -> vall x -> vall x' /\ now x <= now x'.
Proof.
  induction 1 as [x|x x1 l x2 (Hw & Hc) Hch IH]; intros Hx; [split; [auto|lra]|].
  destruct (vall_core x x1 Hw Hx Hc) as (V1 & Hle & _). destruct (IH V1) as (V2 & Hle2). split; auto. lra.
Qed.
Lemma vall_upto ti x l x' : upto_target sv ti x l x' -> vall x -> x' = x \/ prev_t x' < ti.
Proof.
  intros (Hch & Hl) Hx. change (s_bound sv) with tb in Hch. revert Hx Hl.
  induction Hch as [x|x x1 l x2 (Hw & Hc) Hch IH]; intros Hx Hl; [auto|right].
  change (removelast (x :: x1 :: l)) with (x :: removelast (x1 :: l)) in Hl. apply Forall_cons_iff in Hl as (Hl1 & Hl2). apply Rltb_true in Hl1.
  destruct (vall_core x x1 Hw Hx Hc) as (V1 & Hle & Hp). destruct (IH V1 Hl2) as [-> |H1]; [|exact H1]. rewrite Hp. exact Hl1.
Qed.
Lemma sampled_mono_v x tl vs x3 : sampled sv x tl vs x3 -> vall x -> vall x3 /\ now x <= now x3.
Proof.
  induction 1 as [|s ti l s1 a s2 tl vs s3 (Hch & Hlt) Hge Hin Hs IH]; intros Hx; [split; [auto|lra]|].
  destruct (vall_chain _ _ _ Hch Hx) as (V1 & L1). destruct (vall_interp _ _ _ _ V1 Hin) as (V2 & E2). destruct (IH V2) as (V3 & L3).
  split; auto. unfold now in *. rewrite E2 in L3. lra.
Qed.
Lemma sampled_v x tl vs x3 : sampled sv x tl vs x3 -> vall x -> now x3 <= te -> @is_sorted Rops tl = true ->
  (forall t tl', tl = t :: tl' -> prev_t x <= t) -> Forall2 (fun t v => near (ac te + Ca * H ^ p) v (y t)) tl vs.
Proof.
  induction 1 as [|s ti l s1 a s2 tl vs s3 Hup Hge Hin Hs IH]; intros Hx Hn Hsr Hw; [constructor|].
  pose proof Hup as (Hch & Hlt). destruct (vall_chain _ _ _ Hch Hx) as (V1 & L1). destruct (vall_interp _ _ _ _ V1 Hin) as (V2 & E2).
  destruct (sampled_mono_v _ _ _ _ Hs V2) as (V3 & L3). apply Rltb_false in Hge.
  assert (N2 : now s2 = now s1) by (unfold now; now rewrite E2).
  assert (Hlo : prev_t s1 <= ti). { destruct (vall_upto ti s l s1 Hup Hx) as [-> |Hl]; [apply (Hw ti tl); reflexivity|lra]. }
  constructor.
  - apply (vall_value ti s1 a s2); auto; lra.
  - apply IH; auto.
    + destruct tl as [|b tl]; auto. change (leb ti b && is_sorted (b :: tl) = true)%bool in Hsr. now apply andb_true_iff in Hsr as (_ & Hsr).
    + intros t tl' ->. change (leb ti t && is_sorted (t :: tl') = true)%bool in Hsr. apply andb_true_iff in Hsr as (Hsr & _). apply Rleb_true in Hsr.
      unfold prev_t in *. rewrite E2. lra.
Qed.
Lemma run_v fuel' t s rows s' : vall s -> is_sorted t = true -> run (E := E) sv fuel' t s = (Ret rows, s') -> now s' <= te ->
  Forall (fun r => near (ac te + Ca * H ^ p) (snd r) (y (fst r))) rows.
Proof.
  intros V Hs Hr Hn. destruct (C13_lemma m fuelc o rhs tb fuel' t s rows s' Hs Hr) as (s1 & R1 & R2 & R3).
  destruct (sampled_mono_v _ _ _ _ R2 V) as (V1 & L1).
  assert (Hn1 : now s1 <= te).
  { destruct R3 as [(_ & ->)|(tj & _ & l & (Hch & _) & _)]; auto. destruct (vall_chain _ _ _ Hch V1) as (_ & L2). lra. }
  rewrite <- (combine_split_id rows). apply (Forall2_combine (fun t v => near (ac te + Ca * H ^ p) v (y t))).
  apply (sampled_v _ _ _ _ R2 V Hn1).
  - rewrite R1. now apply sorted_firstn.
  - intros t1 tl' Ht. destruct t as [|ta tr]; [destruct rows; discriminate|].
    destruct rows as [|r rows]; [discriminate|]. rewrite R1 in Ht. cbn [length firstn] in Ht. injection Ht as -> _.
    unfold sv in Hr. rewrite run_sorted_eq in Hr by auto. rewrite <- (prev_is_first A B C Ew order P s) in Hr by apply V. destruct (ltb t1 _) eqn:e; [discriminate|]. apply Rltb_false in e. lra.
Qed.
End Var.

Section Thm.
Context {E : @Env Rops}.
Section Gen.
Variables (rhs : @rhs_t Rops) (n : nat) (L t0 te : R) (y : R -> list R).
Hypothesis HL : lipschitz n L rhs.
Hypothesis Hte : t0 <= te.
Hypothesis HC : Ck_solution 5 rhs n t0 te y.
Hypothesis HJ : smooth_along rhs n t0 te y.
Variables (A : list (list R)) (B C Ew : list R) (order : Z) (P : list (list R)) (p pd : nat).
Let m : @meth Rops := @Fsal Rops A B C Ew order P.
Hypothesis HD : tabd pd A B C P.
Hypothesis Hpd : (p <= S pd)%nat.
Hypothesis Hstep : exists C1, 0 <= C1 /\ local_step rhs t0 te y A B C p C1.
Lemma var_session : exists K, forall H g o sel first s0 fuelc tb fuel cs s, 0 < H <= 1 -> sane o -> garbage_ok m g ->
    init_var m g rhs t0 (y t0) o sel first = Ret s0 -> 0 <= hstep s0 ->
    steps_at_most H te (solver_of (E := E) m fuelc o rhs tb) s0 ->
    s = session (E := E) (solver_of (E := E) m fuelc o rhs tb) fuel cs s0 -> now s <= te ->
    near (K * H ^ p) (state s) (y (now s)).
Proof.
  unfold m. destruct (local_ex rhs n L t0 te y HL Hte HC HJ A B C P p pd HD Hpd Hstep) as (Ca & HCa & Hloc).
  exists (accp Ca Ca 1 (te - t0)). intros H g o sel first s0 fuelc tb fuel cs s HH Ho Hg Hi Hh Hst -> Hs.
  pose proof (vall_init (E := E) rhs n L t0 te y HL Hte HC A B C Ew order P p pd Hpd Ca fuelc o tb H s0 HCa HH Hst g sel first Hg Hi Hh) as (V & _).
  apply (vinv_session (E := E) rhs n L t0 te y HL A B C Ew order P p pd HD Ca fuelc o tb H s0 HCa Hloc Ho HH Hst fuel cs) in V.
  destruct V as (_ & _ & _ & Ht & Hn). specialize (Hn Hs). eapply near_mono; [|exact Hn].
  assert (0 <= H ^ p) by (apply pow_le; lra).
  eapply Rle_trans; [apply (accp_mono Ca Ca (H ^ p) _ (te - t0)); lra|]. unfold accp. lra.
Qed.
Lemma var_run : exists K, forall H g o sel first s0 fuelc tb fuel cs s fuel' t rows s', 0 < H <= 1 -> sane o -> garbage_ok m g ->
    init_var m g rhs t0 (y t0) o sel first = Ret s0 -> 0 <= hstep s0 ->
    steps_at_most H te (solver_of (E := E) m fuelc o rhs tb) s0 ->
    returns (E := E) (solver_of (E := E) m fuelc o rhs tb) fuel cs s0 s ->
    is_sorted t = true -> run (E := E) (solver_of (E := E) m fuelc o rhs tb) fuel' t s = (Ret rows, s') -> now s' <= te ->
    Forall (fun r => near (K * H ^ p) (snd r) (y (fst r))) rows.
Proof.
  unfold m. destruct (local_ex rhs n L t0 te y HL Hte HC HJ A B C P p pd HD Hpd Hstep) as (Ca & HCa & Hloc).
  exists (accp Ca Ca 1 (te - t0) + Ca). intros H g o sel first s0 fuelc tb fuel cs s fuel' t rows s' HH Ho Hg Hi Hh Hst Hret Hsr Hr Hs.
  pose proof (vall_init (E := E) rhs n L t0 te y HL Hte HC A B C Ew order P p pd Hpd Ca fuelc o tb H s0 HCa HH Hst g sel first Hg Hi Hh) as V.
  apply (vall_returns (E := E) rhs n L t0 te y HL A B C Ew order P p pd HD Ca fuelc o tb H s0 HCa Hloc Ho HH Hst fuel cs s) in V; auto.
  pose proof (run_v (E := E) rhs n L t0 te y HL A B C Ew order P p pd HD Hpd Ca fuelc o tb H s0 HCa Hloc Ho HH Hst fuel' t s rows s' V Hsr Hr Hs) as Q.
  eapply Forall_impl; [|exact Q]. intros r Hr'. cbv beta in Hr'. eapply near_mono; [|exact Hr']. unfold accp. lra.
Qed.
End Gen.
Lemma C71_lemma rhs n L t0 te y : lipschitz n L rhs -> t0 <= te -> Ck_solution 5 rhs n t0 te y -> smooth_along rhs n t0 te y ->
  forall m p, In (m, p) var_table ->
  exists K, forall H g o sel first s0 fuelc tb fuel cs s, 0 < H <= 1 -> sane o -> garbage_ok m g ->
    init_var m g rhs t0 (y t0) o sel first = Ret s0 -> 0 <= hstep s0 ->
    steps_at_most H te (solver_of (E := E) m fuelc o rhs tb) s0 ->
    s = session (E := E) (solver_of (E := E) m fuelc o rhs tb) fuel cs s0 -> now s <= te ->
    near (K * H ^ p) (state s) (y (now s)).
Proof.
  intros HL Hte HC HJ m p Hm. destruct (var_table_tab m p Hm) as (A & B & C & Ew & order & P & -> & HT & HD).
  exact (var_session rhs n L t0 te y HL Hte HC HJ A B C Ew order P p p HD ltac:(lia) (rk_step_hi rhs n L t0 te y p A B C HL Hte HC HJ HT)).
Qed.
Lemma C71_run_lemma rhs n L t0 te y : lipschitz n L rhs -> t0 <= te -> Ck_solution 5 rhs n t0 te y -> smooth_along rhs n t0 te y ->
  forall m p, In (m, p) var_table ->
  exists K, forall H g o sel first s0 fuelc tb fuel cs s fuel' t rows s', 0 < H <= 1 -> sane o -> garbage_ok m g ->
    init_var m g rhs t0 (y t0) o sel first = Ret s0 -> 0 <= hstep s0 ->
    steps_at_most H te (solver_of (E := E) m fuelc o rhs tb) s0 ->
    returns (E := E) (solver_of (E := E) m fuelc o rhs tb) fuel cs s0 s ->
    is_sorted t = true -> run (E := E) (solver_of (E := E) m fuelc o rhs tb) fuel' t s = (Ret rows, s') -> now s' <= te ->
    Forall (fun r => near (K * H ^ p) (snd r) (y (fst r))) rows.
Proof.
  intros HL Hte HC HJ m p Hm. destruct (var_table_tab m p Hm) as (A & B & C & Ew & order & P & -> & HT & HD).
  exact (var_run rhs n L t0 te y HL Hte HC HJ A B C Ew order P p p HD ltac:(lia) (rk_step_hi rhs n L t0 te y p A B C HL Hte HC HJ HT)).
Qed.
End Thm.
