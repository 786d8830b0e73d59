(** What one step of each solver class does to the instance. *)
From Coq Require Import List ZArith Bool Arith Lia.
From Verif Require Import Base Scalar Vec MBuffer MZeros MSteps MApi MClasses Laws Spec SpecInst PStep PKeeps.
Import ListNotations.

Section Lists.
Context {A : Type}.
Lemma push_list (d : A) a x : a <> [] -> set_last (shift_down d a) x = skipn 1 a ++ [x].
Proof.
  intros Ha. destruct a as [|a0 a]; [congruence|]. cbn [shift_down skipn].
  unfold set_last. destruct (a ++ [last (a0 :: a) d]) eqn:e.
  - destruct a; discriminate.
  - rewrite <- e, removelast_last. reflexivity.
Qed.
Lemma push_list_len (d : A) a x : length (set_last (shift_down d a) x) = length a.
Proof.
  destruct a as [|a0 a]; auto. rewrite push_list by congruence. rewrite app_length; cbn; lia.
Qed.
Lemma list_set_length l i (x : A) : length (list_set l i x) = length l.
Proof. revert i; induction l; intros []; cbn; auto. Qed.
Lemma last_snoc (l : list A) x d : last (l ++ [x]) d = x.
Proof. induction l; auto. cbn [app last]. destruct (l ++ [x]) eqn:e; auto. destruct l; discriminate. Qed.
Lemma list_set_last l (x d : A) : l <> [] -> last (list_set l (length l - 1) x) d = x.
Proof.
  intros Hl. destruct (exists_last Hl) as (l' & y & ->). rewrite app_length; cbn.
  replace (length l' + 1 - 1) with (length l') by lia. clear Hl.
  induction l'; auto. cbn [app list_set length]. cbn [last].
  destruct (list_set (l' ++ [y]) (length l') x) eqn:e.
  - pose proof (list_set_length (l' ++ [y]) (length l') x) as h. rewrite e, app_length in h; cbn in h; lia.
  - exact IHl'.
Qed.
End Lists.

Section PCore.
Context {OT : Ops} {E : Env}.

Definition buf_len (n : nat) (b : buffer) : Prop :=
  length (ts b) = n /\ length (ys b) = n /\ length (fs b) = n.

Lemma push_len n b t y f : buf_len n b -> buf_len n (push b t y f).
Proof. intros (A & B & C). unfold push, buf_len; cbn. now rewrite !push_list_len. Qed.
Lemma push_ts b t y f : ts b <> [] -> ts (push b t y f) = skipn 1 (ts b) ++ [t].
Proof. apply push_list. Qed.
Lemma push_ys b t y f : ys b <> [] -> ys (push b t y f) = skipn 1 (ys b) ++ [y].
Proof. apply push_list. Qed.
Lemma push_fs b t y f : fs b <> [] -> fs (push b t y f) = skipn 1 (fs b) ++ [f].
Proof. apply push_list. Qed.
Lemma nonnil_len {A} n (l : list A) : length l = S n -> l <> [].
Proof. destruct l; cbn; congruence. Qed.
Lemma push_t n b t y f : buf_len (S n) b -> buf_t (push b t y f) = t.
Proof. intros (A & _). unfold buf_t. rewrite push_ts. apply last_snoc. eapply nonnil_len; eauto. Qed.
Lemma push_y n b t y f : buf_len (S n) b -> buf_y (push b t y f) = y.
Proof. intros (_ & A & _). unfold buf_y. rewrite push_ys. apply last_snoc. eapply nonnil_len; eauto. Qed.
Lemma push_f n b t y f : buf_len (S n) b -> buf_f (push b t y f) = f.
Proof. intros (_ & _ & A). unfold buf_f. rewrite push_fs. apply last_snoc. eapply nonnil_len; eauto. Qed.

(** the parts of an instance that computing stages leaves alone *)
Definition frame (s s' : st) : Prop :=
  cache s' = cache s /\ hstep s' = hstep s /\ interp s' = interp s
  /\ length (stages s') = length (stages s).
Lemma frame_refl s : frame s s. Proof. repeat split. Qed.
Lemma frame_trans a b c : frame a b -> frame b c -> frame a c.
Proof. intros (?&?&?&?) (?&?&?&?). repeat split; congruence. Qed.

Lemma frame_erk_stages rhs t y h rows : forall cs k s o s',
  erk_stages rhs t y h k rows cs s = (o, s') -> frame s s'.
Proof.
  induction rows as [|a rows IH]; intros [|c cs] k s o s' H; cbn [erk_stages] in H;
    try (inv H; apply frame_refl).
  unfold bind, get, lift in H. cbn in H.
  destruct (rhs _ _) as [kk| |]; cbn in H; try (inv H; apply frame_refl).
  apply IH in H. eapply frame_trans; [|exact H].
  repeat split; cbn. apply list_set_length.
Qed.

Lemma frame_erk_fixed A B C rhs s o s' :
  erk_fixed_step A B C rhs s = (o, s') ->
  frame s s' /\ (forall t y, o = Ret (t, y) -> t = add (now s) (hstep s)).
Proof.
  unfold erk_fixed_step, bind, set_K, get, ret. cbn. intros H.
  destruct (erk_stages _ _ _ _ _ _ _ _) as [[[]| |] s1] eqn:e; inv H;
    apply frame_erk_stages in e; (split; [|intros ? ? h; inv h; auto]);
    (eapply frame_trans; [|exact e]); repeat split; cbn; apply list_set_length.
Qed.

Lemma frame_fsal_fixed A B C rhs s o s' :
  fsal_fixed_step A B C rhs s = (o, s') ->
  frame s s' /\ (forall t y, o = Ret (t, y) ->
     t = add (now s) (hstep s) /\
     (stages s <> [] -> rhs t y = Ret (last (stages s') []))).
Proof.
  unfold fsal_fixed_step, bind, set_K, get, ret, lift. cbn. intros H.
  destruct (erk_stages _ _ _ _ _ _ _ _) as [[[]| |] s1] eqn:e.
  - cbn in H.
    match type of H with context [match rhs ?t ?y with _ => _ end] => destruct (rhs t y) as [f| |] eqn:er end.
    + apply frame_erk_stages in e. inv H. split.
      * eapply frame_trans; [|eapply frame_trans; [exact e|]]; repeat split; cbn; apply list_set_length.
      * intros t y h; inv h. split; auto. intros Hs. cbn [stages set_stages].
        rewrite list_set_last; auto. destruct e as (_ & _ & _ & e). cbn in e.
        rewrite list_set_length in e. destruct (stages s1); [destruct (stages s); cbn in *; congruence | congruence].
    + apply frame_erk_stages in e. inv H. split; [|intros; discriminate].
      eapply frame_trans; [|exact e]; repeat split; cbn; apply list_set_length.
    + apply frame_erk_stages in e. inv H. split; [|intros; discriminate].
      eapply frame_trans; [|exact e]; repeat split; cbn; apply list_set_length.
  - apply frame_erk_stages in e. inv H. split; [|intros; discriminate].
    eapply frame_trans; [|exact e]; repeat split; cbn; apply list_set_length.
  - apply frame_erk_stages in e. inv H. split; [|intros; discriminate].
    eapply frame_trans; [|exact e]; repeat split; cbn; apply list_set_length.
Qed.

(** a step that completes appends exactly one entry, whose derivative is the
    right-hand side there *)
Definition appends (rhs : rhs_t) (s s' : st) (t : T) (y f : vec) : Prop :=
  cache s' = push (cache s) t y f /\ rhs t y = Ret f.

Definition core_ok (rhs : rhs_t) (fixed : bool) (s : st) (o : outcome unit) (s' : st) : Prop :=
  interp s' = interp s /\ length (stages s') = length (stages s) /\
  (fixed = true -> hstep s' = hstep s) /\
  match o with
  | Ret _ => exists t y f, appends rhs s s' t y f /\
                           (fixed = true -> t = add (now s) (hstep s))
  | _ => cache s' = cache s
  end.

Lemma step_update_frame en o ex s r s' : step_update en o ex s = (r, s') ->
  cache s' = cache s /\ interp s' = interp s /\ stages s' = stages s.
Proof.
  unfold step_update. destruct (eqb en zero).
  - intros H; inv H; auto.
  - unfold bind, lift. destruct (sdiv _ _); intros H; inv H; auto.
Qed.

Lemma core_fsal_ok fuel : forall A B C norm o ex rhs s r s',
  stages s <> [] ->
  core_fsal fuel A B C norm o ex rhs s = (r, s') -> core_ok rhs false s r s'.
Proof.
  induction fuel; intros A B C norm o ex rhs s r s' Hs H; cbn [core_fsal] in H.
  - inv H. repeat split; auto; discriminate.
  - unfold bind in H.
    destruct (fsal_fixed_step A B C rhs s) as [r1 s1] eqn:e.
    apply frame_fsal_fixed in e as ((F1 & F2 & F3 & F4) & Hty).
    destruct r1 as [[t y]| |]; try (inv H; repeat split; auto; discriminate).
    destruct (Hty t y eq_refl) as [Ht Hr]. specialize (Hr Hs). cbn in H.
    destruct (norm o y s1) as [en| |]; cbn in H; try (inv H; repeat split; auto; discriminate).
    destruct (step_update en o ex s1) as [ok s2] eqn:eu.
    apply step_update_frame in eu as (U1 & U2 & U3).
    destruct ok as [[]| |]; try (inv H; repeat split; auto; try discriminate; congruence).
    + cbn in H. inv H. unfold core_ok. cbn.
      split; [congruence|]. split; [congruence|]. split; [discriminate|].
      exists (add (now s) (hstep s)), y, (last (stages s2) []). split; [|discriminate].
      split; cbn. congruence. rewrite U3. exact Hr.
    + apply IHfuel in H.
      2:{ rewrite U3. destruct (stages s1); [destruct (stages s); cbn in *; congruence | congruence]. }
      destruct H as (A1 & A2 & A3 & A4). unfold core_ok.
      split; [congruence|]. split; [congruence|]. split; [discriminate|].
      destruct r; try congruence.
      destruct A4 as (t' & y' & f' & (P1 & P2) & _). exists t', y', f'. split; [|discriminate].
      split; auto. congruence.
Qed.

Lemma core_ok_err rhs fx s r s' : frame s s' -> r <> Ret tt -> core_ok rhs fx s r s'.
Proof.
  intros (A & B & C & D) Hr. unfold core_ok. repeat (split; auto). destruct r as [[]| |]; auto. congruence.
Qed.
Lemma core_ok_push rhs fx s s1 t y f : frame s s1 -> rhs t y = Ret f ->
  t = add (now s) (hstep s) -> core_ok rhs fx s (Ret tt) (set_cache (push (cache s1) t y f) s1).
Proof.
  intros (A & B & C & D) Hr Ht. unfold core_ok. cbn. repeat (split; auto).
  exists t, y, f. split; auto. split; cbn; auto. congruence.
Qed.

Lemma core_of_ok m fuel o rhs s r s' :
  (is_fixed m = false -> stages s <> []) ->
  core_of m fuel o rhs s = (r, s') -> core_ok rhs (is_fixed m) s r s'.
Proof.
  intros Hs H. destruct m; cbn [core_of is_fixed] in *.
  - unfold core_expl_ms, bind, lift, push_st in H. cbn in H.
    destruct (rhs _ _) as [f| |] eqn:e; inv H;
      [apply core_ok_push; auto; apply frame_refl | apply core_ok_err; try discriminate; apply frame_refl ..].
  - unfold core_impl_ms, bind, lift, push_st in H.
    destruct (impl_ms_fixed_step _ _ _ _ _ _) as [[t y]| |] eqn:ei;
      try (inv H; apply core_ok_err; try discriminate; apply frame_refl).
    destruct (rhs t y) as [f| |] eqn:e; inv H;
      [apply core_ok_push; auto; [apply frame_refl|] | apply core_ok_err; try discriminate; apply frame_refl ..].
    unfold impl_ms_fixed_step in ei. destruct (Nat.eqb _ 1).
    + destruct (j_newton _ _ _ _ _ _ _ _); inv ei; reflexivity.
    + destruct (newton_hd _ _ _ _ _); inv ei; reflexivity.
  - unfold core_erk, bind in H. destruct (erk_fixed_step A B C rhs s) as [r1 s1] eqn:e.
    apply frame_erk_fixed in e as (F & Hty).
    destruct r1 as [[t y]| |]; try (inv H; apply core_ok_err; auto; discriminate).
    specialize (Hty t y eq_refl). unfold lift, push_st in H.
    destruct (rhs t y) as [f| |] eqn:er; inv H;
      [apply core_ok_push; auto | apply core_ok_err; auto; discriminate ..].
  - eapply core_fsal_ok; eauto.
  - eapply core_fsal_ok; eauto.
Qed.

(** interpolation touches only the interpolator *)
Definition interp_only (s s' : st) : Prop :=
  cache s' = cache s /\ hstep s' = hstep s /\ stages s' = stages s.
Lemma interp_of_ok m rhs t s r s' : interp_of m rhs t s = (r, s') -> interp_only s s'.
Proof.
  destruct m; cbn [interp_of].
  1-3: unfold interp_default; intros H; inv H; repeat split.
  - unfold interp_rk. destruct (eqb t _). intros H; inv H; repeat split.
    destruct (eqb t _). intros H; inv H; repeat split.
    unfold bind, lift, ret. destruct (ltb t _); destruct (sdiv _ _); intros H; inv H; repeat split.
  - unfold interp_dop. destruct (eqb t _). intros H; inv H; repeat split.
    destruct (eqb t _). intros H; inv H; repeat split.
    unfold bind at 1. destruct (ltb t _).
    + cbn. unfold bind, lift, ret. destruct (sdiv _ _); intros H; inv H; repeat split.
    + destruct (dop_update _ _ _ _ _ s) as [r1 s1] eqn:e. intros H.
      assert (e' : interp_only s s1).
      { unfold dop_update, bind, lift in e. destruct (dop_extra _ _ _ _ _ _ _); inv e; repeat split. }
      destruct r1; unfold bind, lift, ret in H; [destruct (sdiv _ _); inv H; auto| inv H; auto | inv H; auto].
Qed.

(** ** Instances in use *)
(** the shapes __init__ establishes and every call keeps *)
Definition wf (m : meth) (s : st) : Prop :=
  buf_len (len_history m) (cache s) /\ length (stages s) = n_stages_of m.
Lemma wf_stages m s : wf m s -> is_fixed m = false -> stages s <> [].
Proof.
  intros (_ & B) C. destruct m; try discriminate; cbn in B; destruct (stages s); cbn in *; try lia; congruence.
Qed.

Lemma len_history_pos m : exists n, len_history m = S (S n).
Proof.
  destruct m; cbn [len_history]; unfold ms_len; try (now exists 0);
    exists (Nat.max (length A) 2 - 2); lia.
Qed.

Lemma core_wf m fuel o rhs s : wf m s -> wf m (snd (core_of m fuel o rhs s)).
Proof.
  intros Hw. destruct (core_of m fuel o rhs s) as [r s'] eqn:e.
  apply core_of_ok in e; [|now apply wf_stages].
  destruct e as (_ & B & _ & D), Hw as (Hb & Hs). cbn. split; [|congruence].
  destruct r; try congruence. destruct D as (t & y & f & (P1 & _) & _). rewrite P1. now apply push_len.
Qed.
Lemma interp_wf m rhs t s : wf m s -> wf m (snd (interp_of m rhs t s)).
Proof.
  intros Hw. destruct (interp_of m rhs t s) as [r s'] eqn:e.
  apply interp_of_ok in e as (A & _ & B). destruct Hw. split; cbn; congruence.
Qed.

Lemma session_wf m fuel o rhs tb fuel' cs s : wf m s ->
  wf m (session (solver_of m fuel o rhs tb) fuel' cs s).
Proof.
  apply session_inv.
  - intros b x _ _ Hx. now apply core_wf.
  - intros t x Hx. now apply interp_wf.
Qed.

(** ** C21: recorded derivatives *)
Definition entries_ok (rhs : rhs_t) (b : buffer) : Prop :=
  Forall2 (fun ty f => rhs (fst ty) (snd ty) = Ret f) (combine (ts b) (ys b)) (fs b).

Lemma combine_app_eq {A B} (a1 a2 : list A) (b1 b2 : list B) : length a1 = length b1 ->
  combine (a1 ++ a2) (b1 ++ b2) = combine a1 b1 ++ combine a2 b2.
Proof.
  revert b1; induction a1; intros [|b b1]; cbn; intros; try discriminate; auto. f_equal; auto.
Qed.
Lemma combine_skipn {A B} n (a : list A) (b : list B) :
  combine (skipn n a) (skipn n b) = skipn n (combine a b).
Proof.
  revert a b; induction n; intros [|x a] [|y b]; cbn; auto.
  now destruct (skipn n a).
Qed.
Lemma Forall2_skipn {A B} (R : A -> B -> Prop) n l1 l2 :
  Forall2 R l1 l2 -> Forall2 R (skipn n l1) (skipn n l2).
Proof. intros H; revert n; induction H; intros []; cbn; auto. Qed.

Lemma push_entries n rhs b t y f : buf_len (S n) b -> rhs t y = Ret f ->
  entries_ok rhs b -> entries_ok rhs (push b t y f).
Proof.
  intros Hl Hr He. unfold entries_ok. destruct Hl as (A & B & C).
  rewrite push_ts, push_ys, push_fs by (eapply nonnil_len; eauto).
  rewrite combine_app_eq by (rewrite !skipn_length; lia).
  apply Forall2_app; [rewrite combine_skipn; now apply Forall2_skipn | repeat constructor; auto].
Qed.

Lemma session_entries m fuel o rhs tb fuel' cs s : wf m s ->
  entries_ok rhs (cache s) -> entries_ok rhs (cache (session (solver_of m fuel o rhs tb) fuel' cs s)).
Proof.
  intros Hw He.
  apply (session_inv (solver_of m fuel o rhs tb)
           (fun s => wf m s /\ entries_ok rhs (cache s))); auto.
  - intros b x _ _ (Hx & Hy). split. now apply core_wf.
    cbn [s_core solver_of]. destruct (core_of m fuel o rhs x) as [r s'] eqn:e.
    apply core_of_ok in e; [|now apply wf_stages]. destruct e as (_ & _ & _ & D). cbn.
    destruct r; try congruence. destruct D as (t & y & f & (P1 & P2) & _). rewrite P1.
    destruct (len_history_pos m) as (k & Hk). destruct Hx as (Hx & _). rewrite Hk in Hx.
    eapply push_entries; eauto.
  - intros t x (Hx & Hy). split. now apply interp_wf. cbn [s_interp solver_of].
    destruct (interp_of m rhs t x) as [r s'] eqn:e. apply interp_of_ok in e as (A & _). cbn. congruence.
Qed.
End PCore.
