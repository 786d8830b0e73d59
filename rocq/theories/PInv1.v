(** Linear first integrals (C66): the steps. *)
From Coq Require Import List ZArith QArith Bool Arith Lia Reals Lra.
From Verif Require Import Base Scalar Vec MBuffer MZeros MSteps MApi MDop853 MClasses Laws Spec SpecInst SpecRK SpecMS SpecDense SpecInv
  PStep PKeeps PClean PCore PHist PBound PVecR PRun PFwd PInterp PRK PDim PDense PMS.
Import ListNotations.
Open Scope R_scope.

Lemma dot_vadd n w : forall a b : list R, length a = n -> length b = n -> dot w (@vadd Rops a b) = dot w a + dot w b.
Proof.
  revert n. induction w as [|x w IH]; intros n [|p a] [|q b] Ha Hb; try (cbn; lra); try (cbn in *; lia).
  change (x * (p + q) + dot w (@vadd Rops a b) = x * p + dot w a + (x * q + dot w b)).
  rewrite (IH (length a)); auto; [lra|cbn in *; lia].
Qed.
Lemma dot_vsub n w : forall a b : list R, length a = n -> length b = n -> dot w (@vsub Rops a b) = dot w a - dot w b.
Proof.
  revert n. induction w as [|x w IH]; intros n [|p a] [|q b] Ha Hb; try (cbn; lra); try (cbn in *; lia).
  change (x * (p - q) + dot w (@vsub Rops a b) = x * p + dot w a - (x * q + dot w b)).
  rewrite (IH (length a)); auto; [lra|cbn in *; lia].
Qed.
Lemma dot_vscale w c : forall a : list R, dot w (@vscale Rops c a) = c * dot w a.
Proof.
  induction w as [|x w IH]; intros [|p a]; try (cbn; lra).
  change (x * (c * p) + dot w (@vscale Rops c a) = c * (x * p + dot w a)). rewrite IH. lra.
Qed.
Lemma dot_vzero w : forall n, dot w (@vzero Rops n) = 0.
Proof.
  induction w as [|x w IH]; intros [|n]; auto.
  change (x * @zero Rops + dot w (@vzero Rops n) = 0). rewrite IH, zero_R. lra.
Qed.

Section I.
Variables (n : nat) (w : list R) (c : R).
Definition inV (v : list R) : Prop := length v = n /\ dot w v = 0.
Definition inY (y : list R) : Prop := length y = n /\ dot w y = c.

Lemma V_add a b : inV a -> inV b -> inV (@vadd Rops a b).
Proof. intros (A1 & A2) (B1 & B2). split; [now apply vadd_len|]. rewrite (dot_vadd n) by auto. lra. Qed.
Lemma V_sub a b : inV a -> inV b -> inV (@vsub Rops a b).
Proof. intros (A1 & A2) (B1 & B2). split; [now apply vsub_len|]. rewrite (dot_vsub n) by auto. lra. Qed.
Lemma V_scale x a : inV a -> inV (@vscale Rops x a).
Proof. intros (A1 & A2). split; [now apply vscale_len|]. rewrite dot_vscale, A2. lra. Qed.
Lemma V_zero : inV (@vzero Rops n).
Proof. split; [apply vzero_len | apply dot_vzero]. Qed.
Lemma V_lincomb_acc K : forall x acc, inV acc -> Forall inV K -> inV (@lincomb_acc Rops acc x K).
Proof.
  induction K as [|k K IH]; intros [|x xs] acc Ha HK; cbn [lincomb_acc]; auto.
  inversion HK; subst. apply IH; auto. apply V_add; auto. now apply V_scale.
Qed.
Lemma V_lincomb x K : Forall inV K -> inV (@lincomb Rops n x K).
Proof. intros H. apply V_lincomb_acc; auto. apply V_zero. Qed.
Lemma Y_add y v : inY y -> inV v -> inY (@vadd Rops y v).
Proof. intros (A1 & A2) (B1 & B2). split; [now apply vadd_len|]. rewrite (dot_vadd n) by auto. lra. Qed.
Lemma Y_add' y v : inY y -> inV v -> inY (@vadd Rops v y).
Proof. intros (A1 & A2) (B1 & B2). split; [now apply vadd_len|]. rewrite (dot_vadd n) by auto. lra. Qed.
Lemma Y_sub y y' : inY y -> inY y' -> inV (@vsub Rops y y').
Proof. intros (A1 & A2) (B1 & B2). split; [now apply vsub_len|]. rewrite (dot_vsub n) by auto. lra. Qed.

Variable rhs : @rhs_t Rops.
Hypothesis Ht : tangent n w c rhs.
Lemma rhs_V t y f : inY y -> rhs t y = Ret f -> inV f.
Proof. intros (A1 & A2) H. split; [eapply (proj1 Ht); eauto | eapply (proj2 Ht); eauto]. Qed.

Lemma stages_V t y h rows cs K K' : inY y -> @stages_of Rops rhs t y h rows cs K K' -> Forall inV K -> Forall inV K'.
Proof.
  intros Hy. induction 1 as [|a rows x cs K k K' Hk _ IH]; intros HK; auto.
  apply IH. apply Forall_app. split; auto. constructor; auto.
  eapply rhs_V; [|exact Hk]. apply Y_add; auto. apply V_scale. assert (E0 : @length (@T Rops) y = n) by exact (proj1 Hy). rewrite E0. now apply V_lincomb.
Qed.
Lemma rk_step_V A B C t y f h K y' : inY y -> inV f -> @rk_step Rops rhs A B C t y f h K y' -> inY y' /\ Forall inV K.
Proof.
  intros Hy Hf (H1 & ->). assert (HK : Forall inV K) by (eapply stages_V; [exact Hy | exact H1 | constructor; auto]).
  split; auto. unfold rk_combine. apply Y_add; auto. assert (E0 : @length (@T Rops) y = n) by exact (proj1 Hy). rewrite E0. now apply V_lincomb.
Qed.

(** what holds of all recorded rows *)
Definition level (s : @st Rops) : Prop := Forall inY (ys (cache s)) /\ Forall inV (fs (cache s)).
Lemma level_push (b : @buffer Rops) t y f : Forall inY (ys b) -> Forall inV (fs b) -> inY y -> inV f ->
  Forall inY (ys (@push Rops b t y f)) /\ Forall inV (fs (@push Rops b t y f)).
Proof.
  intros D1 D2 Hy Hf. unfold push. cbn [ys fs].
  assert (K : forall (P : list R -> Prop) (l : list (list R)) x, Forall P l -> P x -> Forall P (set_last (shift_down [] l) x)).
  { intros P l x Hl Hx. destruct l as [|a l]; [constructor|]. rewrite push_list by discriminate.
    apply Forall_app. split; [|auto]. now inversion Hl. }
  split; now apply K.
Qed.
Lemma last_P (P : list R -> Prop) d l : l <> [] -> Forall P l -> P (last l d).
Proof.
  intros H F. destruct (exists_last H) as (l' & x & ->). rewrite last_last.
  apply Forall_app in F as (_ & F). now inversion F.
Qed.
Lemma level_state (m : @meth Rops) (s : @st Rops) : wf m s -> level s -> inY (state s) /\ inV (deriv s).
Proof.
  intros ((L1 & L2 & L3) & _) (D1 & D2). destruct (len_history_pos m) as (k & Hk). rewrite Hk in *.
  split; [apply (last_P inY [] (ys (cache s))) | apply (last_P inV [] (fs (cache s)))]; auto; eapply nonnil_len; eauto.
Qed.
Lemma level_dims (s : @st Rops) : level s -> dims (OT := Rops) n s.
Proof. intros (A & B). split; (eapply Forall_impl; [|eassumption]); intros x (Hx & _); exact Hx. Qed.

(** a combination of the recorded states with the weights of an Adams class *)
Lemma adams_last B : forall l : list (list R), length l = length B -> B <> [] -> Forall (fun y => length y = n) l ->
  forall i, dot (@adams_A Rops B) (map (fun y => cmp i y) l) = - cmp i (last l []).
Proof.
  intros l. revert B. induction l as [|y l IH]; intros B HL HB F i; [destruct B; [congruence|discriminate]|].
  destruct B as [|b B]; [discriminate|]. cbn in HL. unfold adams_A. cbn [map length].
  destruct B as [|b' B].
  - destruct l; [|discriminate]. change (@lit Rops (-1 # 1) * cmp i y + 0 = - cmp i y). rewrite lit_R. cbn. lra.
  - destruct l as [|y' l]; [discriminate|].
    replace (S (length (b' :: B)) - 1)%nat with (S (length (b' :: B) - 1)) by (cbn; lia).
    cbn [list_set]. specialize (IH (b' :: B) ltac:(cbn in *; lia) ltac:(discriminate) ltac:(now inversion F) i).
    unfold adams_A in IH. change (last (y :: y' :: l) []) with (last (y' :: l) []).
    rewrite <- IH.
    match goal with |- _ = ?x => change (@zero Rops * cmp i y + x = x) end.
    rewrite zero_R. lra.
Qed.

Lemma took_of_core {E : @Env Rops} (m : @meth Rops) fuelc o s s' : core_of (E := E) m fuelc o rhs s = (Ret tt, s') ->
  took_step (solver_of (E := E) m fuelc o rhs PInf) s s'.
Proof.
  intros H. exists 0%nat. eexists. eexists. rewrite step_none by reflexivity. cbn [s_core solver_of]. rewrite H. reflexivity.
Qed.
Lemma adams_len B : length (@adams_A Rops B) = length B.
Proof. unfold adams_A. rewrite list_set_length, map_length. reflexivity. Qed.

Lemma level_core {E : @Env Rops} (m : @meth Rops) fuelc o s s' : explicit_class m -> wf m s -> level s ->
  core_of (E := E) m fuelc o rhs s = (Ret tt, s') -> level s'.
Proof.
  intros Hm W L H. destruct (level_state m s W L) as (Ys & Vs). pose proof W as (Wb & Wk).
  destruct m as [A B|A B Bn|A B C|A B C Ew order P|A B C E5 E3 order DD Af Cf]; cbn [explicit_class] in Hm.
  - destruct Hm as (HB & ->). pose proof (took_of_core (E := E) (ExplMS (@adams_A Rops B) B) fuelc o s s' H) as Tk.
    destruct (expl_step (@adams_A Rops B) B fuelc o rhs PInf s s' n Wb (adams_len B) (level_dims s L) (proj1 Ys) Tk) as (_ & Ls' & Lm & Hr & Pu).
    assert (FV : Forall inV (lastn (length B) (fs (cache s)))).
    { apply Forall_forall. intros x Hx. destruct L as (_ & L2). rewrite Forall_forall in L2. apply L2.
      unfold lastn in Hx. rewrite <- (firstn_skipn (length (fs (cache s)) - length B) (fs (cache s))). apply in_or_app. auto. }
    assert (Y' : inY (state s')).
    { replace (state s') with (@vadd Rops (state s) (@vscale Rops (hstep s) (@lincomb Rops n B (lastn (length B) (fs (cache s)))))).
      { apply Y_add; auto. apply V_scale. now apply V_lincomb. }
      assert (FL : Forall (fun k : list R => length k = n) (lastn (length B) (fs (cache s)))).
      { eapply Forall_impl; [|exact FV]. intros x (Hx & _). exact Hx. }
      apply (vec_ext n).
      - apply vadd_len; [apply Ys|]. apply vscale_len. now apply lincomb_len.
      - exact Ls'.
      - intros i Hi. rewrite (vadd_cmp n), vscale_cmp, (lincomb_cmp n) by (auto; try apply Ys; apply vscale_len; now apply lincomb_len).
        specialize (Lm i (eq_ind_r (fun k => (i < k)%nat) Hi (proj1 Ys))). rewrite adams_len in Lm.
        rewrite adams_last in Lm; [|..].
        + match type of Lm with context [@last ?t ?l ?d] => assert (EL : @last t l d = state s) end.
          { apply last_lastn; [clear -HB; destruct B; [congruence|]; apply Nat.lt_0_succ|].
            destruct Wb as (_ & Wb & _). eapply eq_ind_r with (P := fun k => (0 < k)%nat); [|exact Wb]. unfold len_history, ms_len. lia. }
          rewrite EL in Lm. clear -Lm.
          match goal with |- ?a + ?h * ?d = ?b => assert (Q : b + - a = h * (d + 0 * nth i [] 0)) by exact Lm; clear Lm; revert Q; generalize a b d end.
          intros. lra.
        + apply lastn_length. destruct Wb as (_ & Wb & _). eapply eq_ind_r with (P := fun k => (_ <= k)%nat); [|exact Wb]. unfold len_history, ms_len. rewrite adams_len. lia.
        + exact HB.
        + apply Forall_forall. intros x Hx. destruct L as (L1 & _). rewrite Forall_forall in L1. apply L1.
          unfold lastn in Hx. rewrite <- (firstn_skipn (length (ys (cache s)) - length B) (ys (cache s))). apply in_or_app. auto. }
    unfold level. rewrite Pu. cbn [cache set_cache]. destruct L as (L1 & L2). apply level_push; auto.
    eapply rhs_V; eauto.
  - destruct Hm.
  - destruct Hm as (Hm1 & Hm2). apply core_erk_iff in H as (K & y' & f' & R1 & R2 & ->); auto.
    destruct (rk_step_V _ _ _ _ _ _ _ _ _ Ys Vs R1) as (Hy' & HK). destruct L as (L1 & L2).
    apply level_push; auto. eapply rhs_V; eauto.
  - destruct Hm as (Hm1 & Hm2). cbn [core_of] in H. cbn [n_stages_of] in Wk. rewrite Nat.add_1_r in Wk.
    apply core_fsal_step in H as (h & K & y & f & P1 & P2 & P3 & _); auto.
    destruct (rk_step_V _ _ _ _ _ _ _ _ _ Ys Vs P1) as (Hy' & HK). destruct L as (L1 & L2).
    unfold level. rewrite P3. apply level_push; auto. eapply rhs_V; eauto.
  - destruct Hm as (Hm1 & Hm2 & _). cbn [core_of] in H. cbn [n_stages_of] in Wk. rewrite Nat.add_1_r in Wk.
    apply core_fsal_step in H as (h & K & y & f & P1 & P2 & P3 & _); auto.
    destruct (rk_step_V _ _ _ _ _ _ _ _ _ Ys Vs P1) as (Hy' & HK). destruct L as (L1 & L2).
    unfold level. rewrite P3. apply level_push; auto. eapply rhs_V; eauto.
Qed.

Lemma level_session {E : @Env Rops} (m : @meth Rops) fuelc o tb fuel cs s : explicit_class m -> wf m s -> level s ->
  level (session (E := E) (solver_of (E := E) m fuelc o rhs tb) fuel cs s).
Proof.
  intros Hm W D.
  apply (session_inv (solver_of (E := E) m fuelc o rhs tb) (fun x => wf m x /\ level x)); auto.
  - intros b x _ _ (Wx & Dx). split; [now apply core_wf|].
    cbn [s_core solver_of]. destruct (core_of m fuelc o rhs x) as [r x'] eqn:ec. cbn.
    destruct r as [[]| |].
    + eapply level_core; eauto.
    + apply core_of_ok in ec; [|intros; eapply wf_stages; eauto]. destruct ec as (_ & _ & _ & ec).
      unfold level. now rewrite ec.
    + apply core_of_ok in ec; [|intros; eapply wf_stages; eauto]. destruct ec as (_ & _ & _ & ec).
      unfold level. now rewrite ec.
  - intros t x (Wx & Dx). split; [now apply interp_wf|].
    cbn [s_interp solver_of]. destruct (interp_of m rhs t x) as [r x'] eqn:ei. cbn.
    apply interp_of_ok in ei as (ei & _). unfold level. now rewrite ei.
Qed.
End I.
