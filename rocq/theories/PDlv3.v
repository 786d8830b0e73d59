(** DOP853 makes progress along any sequence of calls, or raises ZeroDivisionError (C95). *)
From Coq Require Import List ZArith Bool Arith Lia Reals Lra.
From Verif Require Import Base Scalar Vec MBuffer MZeros MSteps MApi MDop853 MClasses Laws Spec SpecInst
  PStep PKeeps PClean PCore PHist PRun PInterp PBound PVecR SpecRK PDim PRK PTop1 PTop2 PC1 PC2 SpecMS PMS PMS5 SpecDense PDense SpecCtl PCtl PC3 SpecConv PConv1 PConv2 PConv6 SpecConv3
  PHi1 PHi2 PHi3 PHi4 SpecVar PVar1 PVar2 PVar3 SpecLive SpecVL PVL1 PVL2 PVL3 PConv9 PDlv1 PDlv2.
Import ListNotations.
Open Scope R_scope.

Section V.
Context {E : @Env Rops}.
Hypothesis Hnm : @numba_mode Rops E = true.
Variables (rhs : @rhs_t Rops) (n : nat) (L M t0 te : R) (tb : @ext Rops).
Hypothesis HL : lipschitz n L rhs.
Hypothesis Hdef : defined_on n rhs.
Hypothesis HM : 0 <= M.
Hypothesis HB : bounded_at_zero n M t0 tb rhs.
Hypothesis Hte : t0 <= te.
Hypothesis Hn : (1 <= n)%nat.
Variables (A : list (list R)) (B C E5 E3 : list R) (order : Z) (D Af : list (list R)) (Cf : list R) (o : @options Rops).
Hypothesis HC : length C = length A.
Hypothesis HA : A <> [].
Hypothesis HAn : length A = dop_n_stages.
Hypothesis HCf : length Cf = length Af.
Hypothesis Hcs : Forall (fun c => 0 <= c <= 1) (skipn 1 C).
Hypothesis Hord : (0 <= order)%Z.
Hypothesis Htol : tolerances o.
Hypothesis Hshr : shrinking o.
Let m : @meth Rops := @Dop Rops A B C E5 E3 order D Af Cf.
Variables (a0 h0 : R).
Hypothesis Ha0 : 0 <= a0.
Hypothesis Hh0 : 0 < h0.
Let Hk : keeps_dim n rhs := proj1 (proj2 HL).
Let calmD := dcalm A B C E5 E3 order D Af Cf n.
Let tidyD := dtidy A B C E5 E3 order D Af Cf rhs n.
Let top := top t0 te o h0.
Let size := size t0 a0.
Let floor_h := floor_h o h0.

Definition dlive (Ct del : R) (x : @st Rops) : Prop :=
  dcalm A B C E5 E3 order D Af Cf n x /\ good rhs m x /\ t0 <= now x /\
  (now x <= te -> vb n (PVL3.size t0 a0 Ct (now x)) (state x) /\ PVL3.floor_h o h0 del <= hstep x <= PVL3.top t0 te o h0).

Lemma dlive_core : exists Ct del k, 0 <= Ct /\ 0 < del /\ forall fuelc x, (S k <= fuelc)%nat -> dlive Ct del x -> ~ would_pass tb x -> now x <= te ->
  exists r x', core_of (E := E) m fuelc o rhs x = (r, x') /\ dlive Ct del x' /\
   ((r = Raise ZeroDivisionError /\ cache x' = cache x) \/ (r = Ret tt /\ prev_t x' = now x /\ now x + floor_h del <= now x' <= now x + hstep x)).
Proof.
  assert (Pmx : 1 <= max_factor o) by apply Hshr. assert (Pmf : 0 < min_factor o) by apply Hshr.
  assert (Ptop : 0 <= top) by (eapply Rle_trans; [left; exact Hh0|apply Rmax_l]).
  destruct (trial_ex rhs n L M t0 tb top HL Hdef HM HB Ptop Hn A B C E5 o HC Hcs Htol) as (Ct & PCt & Htr).
  assert (Pat : 0 < / atol o) by (apply Rinv_0_lt_compat; apply Htol).
  set (Dd := Ct * (size Ct te + 1) / atol o).
  pose proof (size_pos t0 a0 Ha0 Ct te PCt Hte) as Psz. fold size in Psz.
  assert (PD : 0 <= Dd) by (unfold Dd; apply Rmult_le_pos; [apply Rmult_le_pos; lra|lra]).
  assert (Pg : 0 < good_error o order) by (apply exp_pos).
  set (del := good_error o order / (Dd + 1)). assert (Pdel : 0 < del) by (unfold del; apply Rdiv_lt_0_compat; lra).
  assert (HdD : del * Dd <= good_error o order).
  { unfold del. apply Rmult_le_reg_r with (Dd + 1); [lra|]. replace (good_error o order / (Dd + 1) * Dd * (Dd + 1)) with (good_error o order * Dd) by (field; lra).
    apply Rmult_le_compat_l; lra. }
  pose proof (q_range o Hshr) as Pq. set (q := Rmax (min_factor o) (safety_factor o)) in *.
  assert (Hkk : exists k, top * q ^ k <= del).
  { destruct (pow_lt_1_zero q ltac:(rewrite Rabs_pos_eq; lra) (del / (top + 1))) as (k & Hkk); [apply Rdiv_lt_0_compat; lra|].
    exists k. specialize (Hkk k (le_n k)). rewrite Rabs_pos_eq in Hkk by (apply pow_le; lra).
    apply Rle_trans with ((top + 1) * q ^ k); [apply Rmult_le_compat_r; [apply pow_le; lra|lra]|].
    apply Rle_trans with ((top + 1) * (del / (top + 1))); [apply Rmult_le_compat_l; lra|right; field; lra]. }
  destruct Hkk as (k & Hkk). exists Ct, del, k. split; [exact PCt|]. split; [exact Pdel|].
  intros fuelc x Hfu (Hc & G & Ht & Hx) Hw Hnow. destruct (Hx Hnow) as (Bx & Hhx). fold size in Bx. fold top floor_h in Hhx.
  pose proof (good_last _ _ _ G) as Hf. pose proof G as (W & _). pose proof W as (Wb & Ws). cbn [len_history m] in Wb. cbn [n_stages_of m] in Ws.
  assert (Dx : dims n x) by apply Hc.
  pose proof (size_pos t0 a0 Ha0 Ct (now x) PCt Ht) as Pa. pose proof (size_mono t0 a0 Ha0 Ct (now x) te PCt Hnow) as Ma. fold size in Pa, Ma.
  assert (Hgt : @gt_ext Rops (now x + hstep x) tb = false) by (unfold would_pass in Hw; destruct (@gt_ext Rops (now x + hstep x) tb) eqn:e; [exfalso; apply Hw; exact e|reflexivity]).
  assert (Pfl : 0 < floor_h del) by (unfold floor_h, PVL3.floor_h; apply Rmin_glb_lt; [exact Hh0|apply Rmult_lt_0_compat; assumption]).
  destruct (dprev_dims A B C E5 E3 order D Af Cf n (conj HC HA) HAn HCf x W Dx) as (_ & _ & Dy & Df).
  destruct (dop_trials (E := E) Hnm rhs n tb top Hk Hn A B C E5 E3 order o HC HA Hord Htol Hshr Ct Dd del (size Ct (now x)) Pdel Pa PCt) with (k := k) (fuelc := fuelc) (s := x)
    as (r & x' & P1 & P2); auto.
  { unfold Dd. apply Rmult_le_compat_r; [lra|]. apply Rmult_le_compat_l; lra. }
  { now rewrite Ws, Nat.add_1_r. }
  { split; [eapply Rlt_le_trans; [exact Pfl|apply Hhx]|apply Hhx]. }
  { apply Rle_trans with (top * q ^ k); [|exact Hkk]. apply Rmult_le_compat_r; [apply pow_le; lra|apply Hhx]. }
  change (core_of (E := E) m fuelc o rhs x = (r, x')) in P1. exists r, x'. split; [exact P1|].
  pose proof (dcalm_core (E := E) A B C E5 E3 order D Af Cf fuelc o rhs n (conj HC HA) Hk (shrinking_sane o Hshr) x _ x' Hc P1) as Hc'.
  pose proof (good_core (OT := Rops) (E := E) rhs m fuelc o x G) as G'. rewrite P1 in G'. cbn [snd] in G'.
  assert (Hlo : floor_h del <= Rmin (hstep x) (min_factor o * del)) by (apply Rmin_glb; [apply Hhx|unfold floor_h, PVL3.floor_h; apply Rmin_r]).
  destruct P2 as [(-> & lh & y' & f' & P3 & A3 & A4 & A5)|(-> & P3 & A4)].
  - assert (Ept : prev_t x' = now x) by (unfold prev_t; rewrite P3; now apply (push_tp 0)).
    assert (Et : now x' = now x + lh) by (unfold now; rewrite P3; now apply (push_t 1)).
    assert (Ey : state x' = y') by (unfold state; rewrite P3; now apply (push_y 1)).
    assert (Hll : floor_h del <= lh) by (eapply Rle_trans; [exact Hlo|apply A3]).
    assert (Hlu : lh <= hstep x) by apply A3.
    split; [|right; split; [reflexivity|]; split; [exact Ept|rewrite Et; lra]].
    split; [exact Hc'|]. split; [exact G'|]. split; [rewrite Et; lra|]. intros Hx'. split.
    + rewrite Ey. eapply vb_mono; [|exact A5]. rewrite Et. apply size_step; lra.
    + split; [eapply Rle_trans; [exact Hlo|apply A4]|]. eapply Rle_trans; [apply A4|]. eapply Rle_trans; [|apply Rmax_r].
      apply Rmult_le_compat_r; [apply Rle_trans with 1; [lra|exact Pmx]|lra].
  - split; [|now left]. split; [exact Hc'|]. split; [exact G'|]. unfold now, state in *. rewrite P3. split; [exact Ht|]. intros _. split; [exact Bx|].
    split; [eapply Rle_trans; [exact Hlo|apply A4]|]. eapply Rle_trans; [apply A4|apply Hhx].
Qed.

Lemma dcore_mono fuelc x x' : good rhs m x -> core_of (E := E) m fuelc o rhs x = (Ret tt, x') -> prev_t x' = now x.
Proof.
  intros (W & _) Hcore.
  pose proof W as (Wb & Ws). cbn [len_history m] in Wb. cbn [n_stages_of m] in Ws. cbn [core_of m] in Hcore.
  destruct (core_fsal_step _ _ _ _ _ _ _ _ _ _ ltac:(now rewrite Ws, Nat.add_1_r) HC HA Hcore) as (h & K & y' & f' & R1 & R2 & R3 & _).
  unfold prev_t. rewrite R3. now apply (push_tp 0).
Qed.

Section K.
Variables (Ct del : R) (k fuelc : nat).
Hypothesis HCt : 0 <= Ct.
Hypothesis Hfu : (S k <= fuelc)%nat.
Hypothesis Hlc : forall x, dlive Ct del x -> ~ would_pass tb x -> now x <= te ->
  exists r x', core_of (E := E) m fuelc o rhs x = (r, x') /\ dlive Ct del x' /\
   ((r = Raise ZeroDivisionError /\ cache x' = cache x) \/ (r = Ret tt /\ prev_t x' = now x /\ now x + floor_h del <= now x' <= now x + hstep x)).
Let sv := solver_of (E := E) m fuelc o rhs tb.
Lemma dlive_any x : dlive Ct del x -> ~ would_pass tb x -> dlive Ct del (snd (core_of (E := E) m fuelc o rhs x)).
Proof.
  intros Hv Hw. destruct (Rle_dec (now x) te) as [Hx|Hx].
  - destruct (Hlc x Hv Hw Hx) as (r & x' & -> & H & _). exact H.
  - destruct Hv as (Hc & G & Ht & _). destruct (core_of (E := E) m fuelc o rhs x) as [r x'] eqn:e. cbn [snd].
    pose proof (dcalm_core (E := E) A B C E5 E3 order D Af Cf fuelc o rhs n (conj HC HA) Hk (shrinking_sane o Hshr) x _ x' Hc e) as Hc'.
    pose proof (good_core (OT := Rops) (E := E) rhs m fuelc o x G) as G'. rewrite e in G'. cbn [snd] in G'.
    assert (Hm : now x <= now x').
    { destruct r as [[]|ex|].
      - rewrite <- (dcore_mono fuelc x x' G e). apply Hc'.
      - apply core_of_ok in e; [|intros; apply (wf_stages m); auto; apply G]. destruct e as (_ & _ & _ & E2). unfold now. rewrite E2. lra.
      - apply core_of_ok in e; [|intros; apply (wf_stages m); auto; apply G]. destruct e as (_ & _ & _ & E2). unfold now. rewrite E2. lra. }
    split; [exact Hc'|]. split; [exact G'|]. split; [lra|]. intros; lra.
Qed.
Lemma dlive_interp t x : dlive Ct del x -> dlive Ct del (snd (interp_of (E := E) m rhs t x)) /\ cache (snd (interp_of (E := E) m rhs t x)) = cache x.
Proof.
  intros (Hc & G & Ht & Hn'). destruct (interp_of (E := E) m rhs t x) as [r x'] eqn:Hi. cbn [snd].
  pose proof (dcalm_interp (E := E) A B C E5 E3 order D Af Cf rhs n HAn HCf t x Hc) as Hc'. pose proof Hi as Hi'. cbn [interp_of m] in Hi'. rewrite Hi' in Hc'. cbn [snd] in Hc'.
  pose proof (good_interp rhs m t x G) as G'. rewrite Hi in G'. cbn [snd] in G'.
  apply (interp_sim m rhs t x r x') in Hi as Sm. pose proof (proj1 (sim_iff _ _) Sm) as (Ec & Eh & _).
  split; [|exact Ec]. split; [exact Hc'|]. split; [exact G'|]. unfold now, state in *. rewrite Ec, Eh. auto.
Qed.
Definition dneat (x : @st Rops) : Prop := dlive Ct del x /\ dtidy A B C E5 E3 order D Af Cf rhs n x.
Lemma dinterp_total t x : dneat x -> buf_t0 (cache x) <= t <= now x -> exists a x', interp_of (E := E) m rhs t x = (Ret a, x') /\ dneat x' /\ cache x' = cache x.
Proof.
  intros (Hv & Hti) Ht. pose proof (dlive_interp t x Hv) as (K1 & K2). pose proof (dtidy_interp (E := E) A B C E5 E3 order D Af Cf rhs n HAn HCf t x Hti) as K3.
  change (@interp_dop Rops E dop_n_stages D Af Cf rhs t x) with (interp_of (E := E) m rhs t x) in K3.
  assert (X : exists a x', interp_of (E := E) m rhs t x = (Ret a, x')).
  { cbn [interp_of m]. rewrite interp_dop_cases. destruct (Reqb t (now x)) eqn:e1; [eexists; eexists; reflexivity|]. destruct (Reqb t (prev_t x)) eqn:e2; [eexists; eexists; reflexivity|].
    apply Reqb_false in e1, e2. destruct Hti as (Hc & Hst & _). pose proof (proj1 Hc) as W. assert (Dx : dims n x) by apply Hc.
    rewrite <- (dprev_is_first A B C E5 E3 order D Af Cf x W) in Ht.
    destruct (dprev_dims A B C E5 E3 order D Af Cf n (conj HC HA) HAn HCf x W Dx) as (Dp & Dpf & Dy & Df).
    destruct (Hst ltac:(lra)) as (h & Ks & (R1 & R2) & R3).
    assert (FK : Forall (fun k => length k = n) (stages x)).
    { rewrite R3. apply Forall_app. split; [|constructor; [exact Df|constructor]]. exact (proj2 (rk_step_dim n rhs Hk _ _ _ _ _ _ _ _ _ Dp Dpf R1)). }
    assert (U : exists x1, (if Rltb t (iupd (interp x)) then (Ret tt, x) else @dop_update Rops dop_n_stages D Af Cf rhs x) = (Ret tt, x1)).
    { destruct (Rltb t (iupd (interp x))); [eexists; reflexivity|].
      destruct (stages_exist rhs n Hk Hdef (prev_t x) (prev_y x) (now x - prev_t x) (skipn (dop_n_stages + 1) Af) Dp (skipn (dop_n_stages + 1) Cf) (stages x)) as (K' & HK');
        [rewrite !skipn_length; now rewrite HCf|exact FK|].
      eexists. exact (proj1 (dop_update_R A B C E5 E3 order D Af Cf rhs HAn HCf x W) K' HK'). }
    destruct U as (x1 & ->).
    unfold sdiv. replace (@eqb Rops (now x - prev_t x) zero) with false; [rewrite andb_false_r; eexists; eexists; reflexivity|].
    symmetry. apply Reqb_false. rewrite zero_R. intros Hz. lra. }
  destruct X as (a & x' & X). exists a, x'. rewrite X in K1, K2, K3. split; [exact X|]. split; [split; [exact K1|exact K3]|exact K2].
Qed.
Lemma dlive_session fuel cs s0 : dlive Ct del s0 -> dlive Ct del (session (E := E) sv fuel cs s0).
Proof.
  apply (session_inv sv (dlive Ct del)).
  - intros b x Ha Hw Hx. apply dlive_any; auto. exact (allowed_pass sv b x Ha Hw).
  - intros t x Hx. apply (dlive_interp t x Hx).
Qed.
Lemma dneat_returns fuel cs s0 s : returns (E := E) sv fuel cs s0 s -> dneat s0 -> dneat s.
Proof.
  apply (returns_inv sv dneat).
  - intros b x x' Ha Hw (Hx & _) Hc. pose proof (dlive_any x Hx (allowed_pass sv b x Ha Hw)) as Q. change (s_core sv x) with (core_of (E := E) m fuelc o rhs x) in Hc. rewrite Hc in Q.
    split; [exact Q|]. refine (dtidy_core (E := E) A B C E5 E3 order D Af Cf fuelc o rhs n (conj HC HA) Hk (shrinking_sane o Hshr) x x' _ Hc). apply Hx.
  - intros t x (Hx & Hti). pose proof (proj1 (dlive_interp t x Hx)) as K1. pose proof (dtidy_interp (E := E) A B C E5 E3 order D Af Cf rhs n HAn HCf t x Hti) as K3.
    change (@interp_dop Rops E dop_n_stages D Af Cf rhs t x) with (interp_of (E := E) m rhs t x) in K3. change (s_interp sv t) with (interp_of (E := E) m rhs t).
    unfold keepsR. destruct (interp_of (E := E) m rhs t x) as [[] x']; auto. split; [exact K1|exact K3].
Qed.
Lemma dlive_took x : dlive Ct del x -> now x <= te -> ~ would_pass tb x -> exists x', (took_step sv x x' /\ now x + floor_h del <= now x') \/
  (cache x' = cache x /\ forall fuel, step sv fuel None None x = (Raise ZeroDivisionError, x')).
Proof.
  intros Hv Hx Hw. destruct (Hlc x Hv Hw Hx) as (r & x' & Hc & _ & Hn'). exists x'.
  destruct (step_cases sv tb x) as [(K & _)|(_ & K)]; [contradiction|]. change (s_core sv x) with (core_of (E := E) m fuelc o rhs x) in K. rewrite Hc in K.
  destruct Hn' as [(-> & Hn')|(-> & _ & Hn')]; [right; split; [exact Hn'|]; intros fuel|left; split; [|apply Hn']].
  - unfold step, bind. change (s_bound sv) with tb. rewrite K. reflexivity.
  - unfold took_step. exists O. unfold step, bind. change (s_bound sv) with tb. rewrite K. cbn. eexists _, _. reflexivity.
Qed.
End K.

Lemma dlive_init Ct del g sel first y0 s0 : 0 <= Ct -> vb n a0 y0 -> garbage_ok m g -> init_var m g rhs t0 y0 o sel first = Ret s0 -> hstep s0 = h0 -> dneat Ct del s0.
Proof.
  intros HCt By Hg Hi Hh. assert (Hb : built rhs m s0) by (eapply built_var; eauto).
  destruct (init_var_fresh m g rhs t0 y0 o sel first s0 Hg eq_refl Hi) as (E1 & E2 & _).
  assert (Ti : dtidy A B C E5 E3 order D Af Cf rhs n s0) by (apply (dbuilt_tidy (E := E) A B C E5 E3 order D Af Cf rhs n Hk HAn HCf s0 Hb); [rewrite E2; apply By|rewrite Hh; lra]).
  split; [|exact Ti]. split; [apply Ti|]. split; [eapply built_good; eauto|]. rewrite E1, E2, Hh. split; [lra|]. intros _. split.
  - eapply vb_mono; [|exact By]. unfold PVL3.size. replace (Ct * (t0 - t0)) with 0 by ring. rewrite exp_0. lra.
  - split; [apply Rmin_l|apply Rmax_l].
Qed.
End V.
