(** RungeKutta23 and RungeKutta45 make progress along any sequence of calls (C85). *)
From Coq Require Import List ZArith Bool Arith Lia Reals Lra.
From Verif Require Import Base Scalar Vec MBuffer MZeros MSteps MApi MDop853 MClasses Laws Spec SpecInst
  PStep PKeeps PClean PCore PHist PRun PInterp PBound PVecR SpecRK PDim PRK PTop1 PTop2 PC1 PC2 SpecMS PMS PMS5 SpecDense PDense SpecCtl PCtl PC3 SpecConv PConv1 PConv2 PConv6 SpecConv3
  PHi1 PHi2 PHi3 PHi4 SpecVar PVar1 PVar2 PVar3 SpecLive SpecVL PVL1 PVL2.
Import ListNotations.
Open Scope R_scope.

Lemma vb_ex n (v : list R) : length v = n -> exists a, 0 <= a /\ vb n a v.
Proof.
  intros Hl. exists (sumA v). split; [apply sumA_pos|]. split; [exact Hl|]. subst n. induction v as [|x v IH]; intros i Hi; [cbn in Hi; lia|].
  cbn [sumA fold_right]. fold (sumA v). destruct i as [|i]; cbn [nth].
  - pose proof (sumA_pos v). lra.
  - specialize (IH i ltac:(cbn in Hi; lia)). pose proof (Rabs_pos x). lra.
Qed.
Lemma shrinking_sane (o : @options Rops) : shrinking o -> sane o.
Proof.
  intros ((H1 & H2) & (H3 & H4) & H5). split; [split; left; assumption|]. split; [|left; exact H4]. apply Rle_trans with 1; [lra|exact H5].
Qed.

Section V.
Context {E : @Env Rops}.
Variables (rhs : @rhs_t Rops) (n : nat) (L M t0 te : R) (tb : @ext Rops).
Hypothesis HL : lipschitz n L rhs.
Hypothesis Hdef : defined_on n rhs.
Hypothesis HM : 0 <= M.
Hypothesis HB : bounded_at_zero n M t0 tb rhs.
Hypothesis Hte : t0 <= te.
Hypothesis Hn : (1 <= n)%nat.
Variables (A : list (list R)) (B C Ew : list R) (order : Z) (P : list (list R)) (o : @options Rops).
Hypothesis HC : length C = length A.
Hypothesis HA : A <> [].
Hypothesis Hcs : Forall (fun c => 0 <= c <= 1) (skipn 1 C).
Hypothesis Hord : (0 <= order)%Z.
Hypothesis Htol : tolerances o.
Hypothesis Hshr : shrinking o.
Let m : @meth Rops := @Fsal Rops A B C Ew order P.
Variables (a0 h0 : R).
Hypothesis Ha0 : 0 <= a0.
Hypothesis Hh0 : 0 < h0.

(** the constants: largest step, growth, error per unit of step *)
Definition top : R := Rmax h0 ((te - t0) * max_factor o).
Definition size (Ct t : R) : R := (a0 + 1) * exp (Ct * (t - t0)) - 1.
Definition floor_h (del : R) : R := Rmin h0 (min_factor o * del).
Lemma size_pos Ct t : 0 <= Ct -> t0 <= t -> 0 <= size Ct t.
Proof.
  intros HCt Ht. unfold size. assert (1 <= exp (Ct * (t - t0))).
  { rewrite <- exp_0. assert (0 <= Ct * (t - t0)) by (apply Rmult_le_pos; lra). destruct (Rle_lt_or_eq_dec _ _ H) as [Q|Q]; [left; now apply exp_increasing|rewrite <- Q; lra]. }
  assert ((a0 + 1) * 1 <= (a0 + 1) * exp (Ct * (t - t0))) by (apply Rmult_le_compat_l; lra). lra.
Qed.
Lemma exp_le a b : a <= b -> exp a <= exp b.
Proof. intros H. destruct (Rle_lt_or_eq_dec _ _ H) as [Q| ->]; [left; now apply exp_increasing|lra]. Qed.
Lemma size_mono Ct t t' : 0 <= Ct -> t <= t' -> size Ct t <= size Ct t'.
Proof.
  intros HCt Ht. unfold size. assert (exp (Ct * (t - t0)) <= exp (Ct * (t' - t0))) by (apply exp_le, Rmult_le_compat_l; lra).
  assert ((a0 + 1) * exp (Ct * (t - t0)) <= (a0 + 1) * exp (Ct * (t' - t0))) by (apply Rmult_le_compat_l; lra). lra.
Qed.
Lemma size_step Ct t h : 0 <= Ct -> 0 <= h -> size Ct t + h * (Ct * (size Ct t + 1)) <= size Ct (t + h).
Proof.
  intros HCt Hh. unfold size. replace (Ct * (t + h - t0)) with (Ct * (t - t0) + Ct * h) by ring. rewrite exp_plus.
  set (w := exp (Ct * (t - t0))). assert (Pw : 0 < w) by apply exp_pos. assert (Q : 1 + Ct * h <= exp (Ct * h)).
  { destruct (Req_dec (Ct * h) 0) as [->|Hz]; [rewrite exp_0; lra|]. left. apply exp_ineq1. exact Hz. }
  assert ((a0 + 1) * w * (1 + Ct * h) <= (a0 + 1) * w * exp (Ct * h)) by (apply Rmult_le_compat_l; [apply Rmult_le_pos; lra|exact Q]).
  replace ((a0 + 1) * w - 1 + h * (Ct * ((a0 + 1) * w - 1 + 1))) with ((a0 + 1) * w * (1 + Ct * h) - 1) by ring. lra.
Qed.

Definition vlive (Ct del : R) (x : @st Rops) : Prop :=
  calm A B C Ew order P n x /\ good rhs m x /\ t0 <= now x /\
  (now x <= te -> vb n (size Ct (now x)) (state x) /\ floor_h del <= hstep x <= top).

Lemma core_mono fuelc x x' : good rhs m x -> core_of (E := E) m fuelc o rhs x = (Ret tt, x') -> prev_t x' = now x.
Proof.
  intros (W & _) Hcore.
  pose proof W as (Wb & Ws). cbn [len_history m] in Wb. cbn [n_stages_of m] in Ws. cbn [core_of m] in Hcore.
  destruct (core_fsal_step _ _ _ _ _ _ _ _ _ _ ltac:(now rewrite Ws, Nat.add_1_r) HC HA Hcore) as (h & K & y' & f' & R1 & R2 & R3 & _).
  unfold prev_t. rewrite R3. now apply (push_tp 0).
Qed.

Lemma live_core : exists Ct del k, 0 <= Ct /\ 0 < del /\ forall fuelc x, (S k <= fuelc)%nat -> vlive Ct del x -> ~ would_pass tb x -> now x <= te ->
  exists x', core_of (E := E) m fuelc o rhs x = (Ret tt, x') /\ vlive Ct del x' /\ prev_t x' = now x /\ now x + floor_h del <= now x' <= now x + hstep x.
Proof.
  assert (Pmx : 1 <= max_factor o) by apply Hshr. assert (Pmf : 0 < min_factor o) by apply Hshr.
  assert (Ptop : 0 <= top) by (eapply Rle_trans; [left; exact Hh0|apply Rmax_l]).
  destruct (trial_ex rhs n L M t0 tb top HL Hdef HM HB Ptop Hn A B C Ew o HC Hcs Htol) as (Ct & PCt & Htr).
  assert (Pat : 0 < / atol o) by (apply Rinv_0_lt_compat; apply Htol).
  set (D := Ct * (size Ct te + 1) / atol o).
  pose proof (size_pos Ct te PCt Hte) as Psz.
  assert (PD : 0 <= D) by (unfold D; apply Rmult_le_pos; [apply Rmult_le_pos; lra|lra]).
  assert (Pg : 0 < good_error o order) by (apply exp_pos).
  set (del := good_error o order / (D + 1)). assert (Pdel : 0 < del) by (unfold del; apply Rdiv_lt_0_compat; lra).
  assert (HdD : del * D <= good_error o order).
  { unfold del. apply Rmult_le_reg_r with (D + 1); [lra|]. replace (good_error o order / (D + 1) * D * (D + 1)) with (good_error o order * D) by (field; lra).
    apply Rmult_le_compat_l; lra. }
  pose proof (q_range o Hshr) as Pq. set (q := Rmax (min_factor o) (safety_factor o)) in *.
  assert (Hk : exists k, top * q ^ k <= del).
  { destruct (pow_lt_1_zero q ltac:(rewrite Rabs_pos_eq; lra) (del / (top + 1))) as (k & Hk); [apply Rdiv_lt_0_compat; lra|].
    exists k. specialize (Hk k (le_n k)). rewrite Rabs_pos_eq in Hk by (apply pow_le; lra).
    apply Rle_trans with ((top + 1) * q ^ k); [apply Rmult_le_compat_r; [apply pow_le; lra|lra]|].
    apply Rle_trans with ((top + 1) * (del / (top + 1))); [apply Rmult_le_compat_l; lra|right; field; lra]. }
  destruct Hk as (k & Hk). exists Ct, del, k. split; [exact PCt|]. split; [exact Pdel|].
  intros fuelc x Hfu (Hc & G & Ht & Hx) Hw Hnow. destruct (Hx Hnow) as (Bx & Hhx).
  pose proof (good_last _ _ _ G) as Hf. pose proof G as (W & _). pose proof W as (Wb & Ws). cbn [len_history m] in Wb. cbn [n_stages_of m] in Ws.
  assert (Dx : dims n x) by apply Hc.
  pose proof (size_pos Ct (now x) PCt Ht) as Pa. pose proof (size_mono Ct (now x) te PCt Hnow) as Ma.
  assert (Hgt : @gt_ext Rops (now x + hstep x) tb = false) by (unfold would_pass in Hw; destruct (@gt_ext Rops (now x + hstep x) tb) eqn:e; [exfalso; apply Hw; exact e|reflexivity]).
  assert (Pfl : 0 < floor_h del) by (unfold floor_h; apply Rmin_glb_lt; [exact Hh0|apply Rmult_lt_0_compat; assumption]).
  destruct (trials_end rhs n tb top Hn A B C Ew order o HC Hord Htol Hshr Ct D del (now x) (state x) (deriv x) (size Ct (now x)) Pdel Pa PCt) with (k := k) (h := hstep x)
    as (l & y' & f' & h' & A1 & A2 & A3 & A4 & A5).
  { unfold D. apply Rmult_le_compat_r; [lra|]. apply Rmult_le_compat_l; lra. }
  { exact HdD. }
  { intros h H0 Hg Hle. apply Htr; auto. }
  { split; [eapply Rlt_le_trans; [exact Pfl|apply Hhx]|apply Hhx]. }
  { exact Hgt. }
  { apply Rle_trans with (top * q ^ k); [|exact Hk]. apply Rmult_le_compat_r; [apply pow_le; lra|apply Hhx]. }
  destruct (dims_prev m n x W Dx) as (_ & _ & Df & Dy).
  destruct (var_core (E := E) o m A B C order (fsal_error o Ew) fuelc rhs (var_fsal _ _ _ _ _ _ _)) as (norm & Hco & Hno & _ & Hst).
  destruct (attempts_core (E := E) A B C norm o order rhs (fsal_error o Ew) n Hno Hord HC HA (proj1 (proj2 HL)) l x y' f' h' fuelc) as (x' & P1 & P2 & P3); auto; try lia.
  rewrite <- Hco in P1. exists x'. split; [exact P1|].
  pose proof (calm_core (E := E) A B C Ew order P fuelc o rhs n (conj HC HA) (proj1 (proj2 HL)) (shrinking_sane o Hshr) x _ x' Hc P1) as Hc'.
  pose proof (good_core (OT := Rops) (E := E) rhs m fuelc o x G) as G'. rewrite P1 in G'. cbn [snd] in G'.
  assert (Ept : prev_t x' = now x) by (unfold prev_t; rewrite P3; now apply (push_tp 0)).
  assert (Et : now x' = now x + last_h l) by (unfold now; rewrite P3; now apply (push_t 1)).
  assert (Ey : state x' = y') by (unfold state; rewrite P3; now apply (push_y 1)).
  assert (Hlo : floor_h del <= Rmin (hstep x) (min_factor o * del)) by (apply Rmin_glb; [apply Hhx|unfold floor_h; apply Rmin_r]).
  assert (Hll : floor_h del <= last_h l) by (eapply Rle_trans; [exact Hlo|apply A3]).
  assert (Hlu : last_h l <= hstep x) by apply A3.
  split; [|split; [exact Ept|rewrite Et; lra]].
  split; [exact Hc'|]. split; [exact G'|]. split; [rewrite Et; lra|]. intros Hx'. split.
  - rewrite Ey. eapply vb_mono; [|exact A5]. rewrite Et. apply size_step; lra.
  - rewrite P2. split; [eapply Rle_trans; [exact Hlo|apply A4]|]. eapply Rle_trans; [apply A4|]. eapply Rle_trans; [|apply Rmax_r].
    apply Rmult_le_compat_r; [apply Rle_trans with 1; [lra|exact Pmx]|lra].
Qed.

Section K.
Variables (Ct del : R) (k fuelc : nat).
Hypothesis HCt : 0 <= Ct.
Hypothesis Hfu : (S k <= fuelc)%nat.
Hypothesis Hlc : forall x, vlive Ct del x -> ~ would_pass tb x -> now x <= te ->
  exists x', core_of (E := E) m fuelc o rhs x = (Ret tt, x') /\ vlive Ct del x' /\ prev_t x' = now x /\ now x + floor_h del <= now x' <= now x + hstep x.
Let sv := solver_of (E := E) m fuelc o rhs tb.
Lemma live_any x : vlive Ct del x -> ~ would_pass tb x -> vlive Ct del (snd (core_of (E := E) m fuelc o rhs x)).
Proof.
  intros Hv Hw. destruct (Rle_dec (now x) te) as [Hx|Hx].
  - destruct (Hlc x Hv Hw Hx) as (x' & -> & H & _). exact H.
  - destruct Hv as (Hc & G & Ht & _). destruct (core_of (E := E) m fuelc o rhs x) as [r x'] eqn:e. cbn [snd].
    pose proof (calm_core (E := E) A B C Ew order P fuelc o rhs n (conj HC HA) (proj1 (proj2 HL)) (shrinking_sane o Hshr) x _ x' Hc e) as Hc'.
    pose proof (good_core (OT := Rops) (E := E) rhs m fuelc o x G) as G'. rewrite e in G'. cbn [snd] in G'.
    assert (Hm : now x <= now x').
    { destruct r as [[]|ex|].
      - rewrite <- (core_mono fuelc x x' G e). apply Hc'.
      - apply core_of_ok in e; [|intros; apply (wf_stages m); auto; apply G]. destruct e as (_ & _ & _ & E2). unfold now. rewrite E2. lra.
      - apply core_of_ok in e; [|intros; apply (wf_stages m); auto; apply G]. destruct e as (_ & _ & _ & E2). unfold now. rewrite E2. lra. }
    split; [exact Hc'|]. split; [exact G'|]. split; [lra|]. intros; lra.
Qed.
Lemma live_interp t x : vlive Ct del x -> vlive Ct del (snd (interp_of (E := E) m rhs t x)) /\ cache (snd (interp_of (E := E) m rhs t x)) = cache x.
Proof.
  intros (Hc & G & Ht & Hn'). destruct (interp_of (E := E) m rhs t x) as [r x'] eqn:Hi. cbn [snd].
  pose proof (calm_interp (E := E) A B C Ew order P n t x Hc) as Hc'. pose proof Hi as Hi'. cbn [interp_of m] in Hi'. rewrite Hi' in Hc'. cbn [snd] in Hc'.
  pose proof (good_interp rhs m t x G) as G'. rewrite Hi in G'. cbn [snd] in G'.
  apply (interp_sim m rhs t x r x') in Hi as Sm. pose proof (proj1 (sim_iff _ _) Sm) as (Ec & Eh & _).
  split; [|exact Ec]. split; [exact Hc'|]. split; [exact G'|]. unfold now, state in *. rewrite Ec, Eh. auto.
Qed.
Lemma interp_total t x : vlive Ct del x -> buf_t0 (cache x) <= t <= now x -> exists a x', interp_of (E := E) m rhs t x = (Ret a, x') /\ vlive Ct del x' /\ cache x' = cache x.
Proof.
  intros Hv Ht. pose proof (live_interp t x Hv) as (K1 & K2). assert (X : exists a x', interp_of (E := E) m rhs t x = (Ret a, x')).
  { cbn [interp_of m]. rewrite interp_rk_cases. destruct (Reqb t (now x)) eqn:e1; [eexists; eexists; reflexivity|]. destruct (Reqb t (prev_t x)) eqn:e2; [eexists; eexists; reflexivity|].
    apply Reqb_false in e1, e2. cbv zeta. rewrite <- (prev_is_first A B C Ew order P x) in Ht by apply Hv.
    unfold sdiv. replace (@eqb Rops (now x - prev_t x) zero) with false; [rewrite andb_false_r; eexists; eexists; reflexivity|].
    symmetry. apply Reqb_false. rewrite zero_R. intros Hz. lra. }
  destruct X as (a & x' & X). exists a, x'. rewrite X in K1, K2. auto.
Qed.
Lemma live_session fuel cs s0 : vlive Ct del s0 -> vlive Ct del (session (E := E) sv fuel cs s0).
Proof.
  apply (session_inv sv (vlive Ct del)).
  - intros b x Ha Hw Hx. apply live_any; auto. exact (allowed_pass sv b x Ha Hw).
  - intros t x Hx. apply (live_interp t x Hx).
Qed.
Lemma live_took x : vlive Ct del x -> now x <= te -> ~ would_pass tb x -> exists x', took_step sv x x' /\ now x + floor_h del <= now x'.
Proof.
  intros Hv Hx Hw. destruct (Hlc x Hv Hw Hx) as (x' & Hc & _ & _ & Hn'). exists x'. split; [|apply Hn'].
  unfold took_step. exists O. unfold step, bind. destruct (step_cases sv tb x) as [(K & _)|(_ & K)]; [contradiction|].
  change (s_bound sv) with tb. rewrite K. change (s_core sv x) with (core_of (E := E) m fuelc o rhs x). rewrite Hc. cbn. eexists _, _. reflexivity.
Qed.
End K.

Lemma live_init Ct del g sel first y0 s0 : 0 <= Ct -> vb n a0 y0 -> garbage_ok m g -> init_var m g rhs t0 y0 o sel first = Ret s0 -> hstep s0 = h0 -> vlive Ct del s0.
Proof.
  intros HCt By Hg Hi Hh. assert (Hb : built rhs m s0) by (eapply built_var; eauto).
  assert (Es : now s0 = t0 /\ state s0 = y0).
  { unfold init_var in Hi. destruct (init_base m g rhs t0 y0 None) as [x0| |] eqn:e; try discriminate.
    cbn [obind] in Hi. apply (init_base_spec m g rhs t0 y0 None x0 Hg) in e as (_ & f & Hrf & Hc & _).
    destruct (match max_step o with Fin x => _ | PInf => _ end); [discriminate|]. destruct (ltb _ _); [discriminate|].
    match type of Hi with (let! h := ?x in _) = _ => destruct x as [h| |] end; cbn [obind] in Hi; try discriminate.
    cbn [m] in Hi. rewrite rk_update_R in Hi. injection Hi as <-. unfold now, state, buf_t, buf_y. cbn. rewrite Hc. repeat split; reflexivity. }
  destruct Es as (E1 & E2).
  assert (Ti : tidy A B C Ew order P rhs n s0) by (apply (built_tidy (E := E) A B C Ew order P rhs n (proj1 (proj2 HL)) s0 Hb); [rewrite E2; apply By|rewrite Hh; lra]).
  split; [apply Ti|]. split; [eapply built_good; eauto|]. rewrite E1, E2, Hh. split; [lra|]. intros _. split.
  - eapply vb_mono; [|exact By]. unfold size. replace (Ct * (t0 - t0)) with 0 by ring. rewrite exp_0. lra.
  - split; [apply Rmin_l|apply Rmax_l].
Qed.
End V.
