(** All recorded vectors keep the dimension of the initial state. *)
From Coq Require Import List ZArith Bool Arith Lia.
From Verif Require Import Base Scalar Vec MBuffer MZeros MSteps MApi MClasses Laws Spec SpecInst SpecRK
  PStep PKeeps PCore PHist PVecR PRK.
Import ListNotations.
Open Scope nat_scope.

Section A.
Context {OT : Ops} {E : Env}.
Variable n : nat.
Notation len_n := (fun v : vec => length v = n).

Lemma vadd_l (a b : vec) : length a = n -> length b = n -> length (vadd a b) = n.
Proof. unfold vadd. rewrite map2_length. lia. Qed.
Lemma vsub_l (a b : vec) : length a = n -> length b = n -> length (vsub a b) = n.
Proof. unfold vsub. rewrite map2_length. lia. Qed.
Lemma vscale_l c (a : vec) : length a = n -> length (vscale c a) = n.
Proof. unfold vscale. now rewrite map_length. Qed.
Lemma lincomb_acc_l K : forall c (acc : vec), length acc = n -> Forall len_n K -> length (lincomb_acc acc c K) = n.
Proof.
  induction K as [|k K IH]; intros [|x c] acc Ha HK; cbn [lincomb_acc]; auto.
  inversion HK as [|? ? Hk HK']. apply IH; auto. apply vadd_l; auto. now apply vscale_l.
Qed.
Lemma lincomb_l c K : Forall len_n K -> length (lincomb n c K) = n.
Proof. intros H. apply lincomb_acc_l; auto. apply repeat_length. Qed.

Variable rhs : rhs_t.
Hypothesis Hrhs : keeps_dim n rhs.

Lemma stages_dim t y h rows cs K K' : length y = n -> stages_of rhs t y h rows cs K K' ->
  Forall len_n K -> Forall len_n K'.
Proof.
  intros Hy. induction 1 as [|a rows c cs K k K' Hk _ IH]; intros HK; auto.
  apply IH. apply Forall_app. split; auto. constructor; auto.
  eapply Hrhs; [|exact Hk]. apply vadd_l; auto. apply vscale_l. rewrite Hy. now apply lincomb_l.
Qed.
Lemma rk_step_dim A B C t y f h K y' : length y = n -> length f = n ->
  rk_step rhs A B C t y f h K y' -> length y' = n /\ Forall len_n K.
Proof.
  intros Hy Hf (H1 & ->). assert (HK : Forall len_n K) by (eapply stages_dim; [exact Hy | exact H1 | constructor; auto]).
  split; auto. unfold rk_combine. apply vadd_l; auto. rewrite Hy. now apply lincomb_l.
Qed.

Lemma last_dim d (l : list vec) : l <> [] -> Forall len_n l -> length (last l d) = n.
Proof.
  intros H F. destruct (exists_last H) as (l' & x & ->). rewrite last_last.
  apply Forall_app in F as (_ & F). now inversion F.
Qed.
Lemma ms_combination_dim A B c h : length (buf_y c) = n -> Forall len_n (ys c) -> Forall len_n (fs c) ->
  length (ms_combination A B c h) = n.
Proof.
  intros Hy Y F. unfold ms_combination, ysize. rewrite Hy.
  assert (SK : forall k (l : list vec), Forall len_n l -> Forall len_n (skipn k l)).
  { intros k l H. apply Forall_forall. intros x Hx. rewrite Forall_forall in H. apply H.
    rewrite <- (firstn_skipn k l). apply in_or_app. auto. }
  destruct (_ || _); apply vsub_l; apply lincomb_l; auto.
Qed.
Lemma omapM_length {A B} (f : A -> outcome B) l : forall r, omapM f l = Ret r -> length r = length l.
Proof.
  induction l as [|a l IH]; intros r H; cbn in H; [now injection H as <-|].
  destruct (f a); cbn in H; try discriminate. destruct (omapM f l) eqn:e; cbn in H; try discriminate.
  injection H as <-. cbn. now rewrite (IH _ eq_refl).
Qed.
Lemma hd_loop_dim func atol rtol (Hs : solve_dim) :
  (forall y v, length y = n -> func y = Ret v -> length v = n) ->
  forall todo y value r, length y = n -> length value = n ->
  hd_loop func atol rtol todo y value = Ret r -> length (fst r) = n.
Proof.
  intros Hf. induction todo as [|todo IH]; intros y value r Hy Hv H; cbn [hd_loop] in H.
  - destruct (isclose _ _ _ _); injection H as <-; auto.
  - destruct (isclose _ _ _ _); [injection H as <-; auto|].
    destruct (jacobian func y) as [J| |]; cbn [obind] in H; try discriminate.
    destruct (np_solve J _) as [d| |] eqn:ed; cbn [obind] in H; try discriminate.
    assert (Hd : length d = n) by (rewrite (Hs _ _ _ ed); unfold vopp; now rewrite map_length).
    assert (Hy' : length (vadd y d) = n) by now apply vadd_l.
    destruct (func (vadd y d)) as [v| |] eqn:ev; cbn [obind] in H; try discriminate.
    destruct todo as [|todo]; [injection H as <-; auto|].
    eapply IH; [exact Hy' | | exact H]. eauto.
Qed.

Lemma dims_push s t y f : dims n s -> length y = n -> length f = n ->
  Forall len_n (ys (push (cache s) t y f)) /\ Forall len_n (fs (push (cache s) t y f)).
Proof.
  intros (D1 & D2) Hy Hf. unfold push. cbn [ys fs].
  assert (K : forall (l : list vec) x, Forall len_n l -> length x = n -> Forall len_n (set_last (shift_down [] l) x)).
  { intros l x Hl Hx. destruct l as [|a l]; [constructor|]. rewrite push_list by discriminate.
    apply Forall_app. split; [|auto]. now inversion Hl. }
  split; now apply K.
Qed.

Lemma fsal_trial_dim A B C s t' y' s' : length (stages s) = S (length A) -> length C = length A -> A <> [] ->
  length (state s) = n -> length (deriv s) = n ->
  fsal_fixed_step A B C rhs s = (Ret (t', y'), s') ->
  length y' = n /\ length (last (stages s') []) = n /\ length (stages s') = S (length A).
Proof.
  intros Hl HC HA Hy Hf H. apply fsal_fixed_iff in H as (K & f' & R1 & R2 & R3 & ->); auto.
  destruct (rk_step_dim _ _ _ _ _ _ _ _ _ Hy Hf R1) as (Hy' & HK).
  cbn [stages set_stages]. rewrite last_last. split; auto. split; [eauto|].
  destruct R1 as (R1 & _). apply stages_len in R1 as (R1 & _). rewrite app_length, R1, skipn_length. cbn.
  destruct A; cbn in *; [congruence|lia].
Qed.

Lemma core_dim m fuel o s s' (Hs : match m with ImplMS _ _ _ => solve_dim | _ => True end) : wf m s -> shaped m -> dims n s ->
  core_of m fuel o rhs s = (Ret tt, s') -> dims n s'.
Proof.
  intros W Hm D H. pose proof W as ((L1 & L2 & L3) & Wk).
  assert (Hlen : 0 < len_history m) by (destruct (len_history_pos m) as (k & ->); lia).
  assert (Hy : length (state s) = n).
  { apply last_dim; [destruct (ys (cache s)); cbn in *; [lia|discriminate] | apply D]. }
  assert (Hf : length (deriv s) = n).
  { apply last_dim; [destruct (fs (cache s)); cbn in *; [lia|discriminate] | apply D]. }
  destruct m as [A B|A B Bn|A B C|A B C Ew order P|A B C E5 E3 order DD Af Cf]; cbn [core_of shaped n_stages_of] in *.
  - unfold core_expl_ms, bind, lift, push_st in H. cbn in H.
    assert (Hc : length (ms_combination A B (cache s) (hstep s)) = n) by (apply ms_combination_dim; auto; apply D).
    destruct (rhs _ _) as [f| |] eqn:ef; try discriminate. injection H as <-.
    apply dims_push; auto. eapply Hrhs; [|exact ef]. exact Hc.
  - unfold core_impl_ms, bind, lift, push_st in H.
    destruct (impl_ms_fixed_step _ _ _ _ _ _) as [[t y]| |] eqn:ei; try discriminate.
    destruct (rhs t y) as [f| |] eqn:ef; try discriminate. injection H as <-.
    assert (Hc : length (ms_combination A B (cache s) (hstep s)) = n) by (apply ms_combination_dim; auto; apply D).
    assert (Hyn : length y = n).
    { unfold impl_ms_fixed_step in ei. unfold ysize in ei. fold (state s) in ei. rewrite Hy in ei.
      destruct (Nat.eqb_spec n 1) as [->|Hn].
      - destruct (j_newton _ _ _ _ _ _ _ _); cbn in ei; try discriminate. now injection ei as <- <-.
      - destruct (newton_hd _ _ _ _ _) as [y2| |] eqn:en; cbn in ei; try discriminate.
        injection ei as <- <-. unfold newton_hd, newton_hd_impl in en.
        destruct (implicit_root _ _ _ _ _) as [v| |] eqn:ev; cbn [obind] in en; try discriminate.
        destruct (hd_loop _ _ _ _ _ _) as [r| |] eqn:eh; cbn [obind] in en; try discriminate.
        assert (F : forall x v, length x = n -> implicit_root rhs (add (buf_t (cache s)) (hstep s)) (mul (hstep s) Bn)
             (ms_combination A B (cache s) (hstep s)) x = Ret v -> length v = n).
        { intros x w Hx. unfold implicit_root. destruct (rhs _ x) as [g| |] eqn:eg; cbn [obind]; try discriminate.
          intros Hw. injection Hw as <-. apply vsub_l; auto. apply vsub_l; auto. apply vscale_l. eapply Hrhs; eauto. }
        assert (Hr : length (fst r) = n).
        { eapply hd_loop_dim; [exact Hs | exact F | exact Hy | eapply F; [exact Hy | exact ev] | exact eh]. }
        destruct (snd r); try discriminate. now injection en as <-. }
    apply dims_push; auto. eapply Hrhs; [|exact ef]. exact Hyn.
  - destruct Hm as (Hm1 & Hm2). apply core_erk_iff in H as (K & y' & f' & R1 & R2 & ->); auto.
    destruct (rk_step_dim _ _ _ _ _ _ _ _ _ Hy Hf R1) as (Hy' & HK).
    apply dims_push; auto. eapply Hrhs; eauto.
  - destruct Hm as (Hm1 & Hm2). rewrite Nat.add_1_r in Wk. clear W L1 L2 L3 Hlen.
    revert s Wk D Hy Hf H. induction fuel as [|fuel IH]; intros s Wk D Hy Hf H; cbn [core_fsal] in H; [discriminate|].
    unfold bind in H. destruct (fsal_fixed_step A B C rhs s) as [[[t y]| |] s1] eqn:e; try discriminate.
    pose proof e as e'. apply frame_fsal_fixed in e' as ((F1 & F2 & F3 & F4) & _).
    apply fsal_trial_dim in e as (Q1 & Q2 & Q3); auto. unfold get, lift in H.
    destruct (norm_fsal Ew o y s1) as [en| |]; try discriminate.
    destruct (step_update en o _ s1) as [ok s2] eqn:eu.
    apply step_update_frame in eu as (U1 & U2 & U3).
    assert (D2 : dims n s2) by (unfold dims; rewrite U1, F1; exact D).
    destruct ok as [[]| |]; try discriminate.
    + injection H as <-. apply dims_push; auto. now rewrite U3.
    + apply (IH s2); auto; try congruence; unfold state, deriv; rewrite U1, F1; auto.
  - destruct Hm as (Hm1 & Hm2). rewrite Nat.add_1_r in Wk. clear W L1 L2 L3 Hlen.
    revert s Wk D Hy Hf H. induction fuel as [|fuel IH]; intros s Wk D Hy Hf H; cbn [core_fsal] in H; [discriminate|].
    unfold bind in H. destruct (fsal_fixed_step A B C rhs s) as [[[t y]| |] s1] eqn:e; try discriminate.
    pose proof e as e'. apply frame_fsal_fixed in e' as ((F1 & F2 & F3 & F4) & _).
    apply fsal_trial_dim in e as (Q1 & Q2 & Q3); auto. unfold get, lift in H.
    destruct (norm_dop853 E5 E3 o y s1) as [en| |]; try discriminate.
    destruct (step_update en o _ s1) as [ok s2] eqn:eu.
    apply step_update_frame in eu as (U1 & U2 & U3).
    assert (D2 : dims n s2) by (unfold dims; rewrite U1, F1; exact D).
    destruct ok as [[]| |]; try discriminate.
    + injection H as <-. apply dims_push; auto. now rewrite U3.
    + apply (IH s2); auto; try congruence; unfold state, deriv; rewrite U1, F1; auto.
Qed.

Lemma dims_session m fuelc o tb fuel cs s (Hs : match m with ImplMS _ _ _ => solve_dim | _ => True end) : wf m s -> shaped m -> dims n s ->
  dims n (session (solver_of m fuelc o rhs tb) fuel cs s).
Proof.
  intros W Hm D.
  apply (session_inv (solver_of m fuelc o rhs tb) (fun x => wf m x /\ dims n x)); auto.
  - intros b x _ _ (Wx & Dx). split; [now apply core_wf|].
    cbn [s_core solver_of]. destruct (core_of m fuelc o rhs x) as [r x'] eqn:ec. cbn.
    destruct r as [[]| |].
    + eapply core_dim; eauto.
    + apply core_of_ok in ec; [|intros; eapply wf_stages; eauto]. destruct ec as (_ & _ & _ & ec).
      unfold dims. now rewrite ec.
    + apply core_of_ok in ec; [|intros; eapply wf_stages; eauto]. destruct ec as (_ & _ & _ & ec).
      unfold dims. now rewrite ec.
  - intros t x (Wx & Dx). split; [now apply interp_wf|].
    cbn [s_interp solver_of]. destruct (interp_of m rhs t x) as [r x'] eqn:ei. cbn.
    apply interp_of_ok in ei as (ei & _). unfold dims. now rewrite ei.
Qed.
End A.
