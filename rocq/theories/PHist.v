(** The recorded history of an instance: construction, invariants under every
    sequence of calls. *)
From Coq Require Import List ZArith Bool Arith Lia.
From Verif Require Import Base Scalar Vec MBuffer MZeros MSteps MApi MClasses Laws Spec SpecInst
  PStep PKeeps PCore.
Import ListNotations.

Section Lastn.
Context {A : Type}.
Lemma skipn_skipn n k (l : list A) : skipn n (skipn k l) = skipn (n + k) l.
Proof.
  revert l; induction k; intros l. now rewrite Nat.add_0_r.
  rewrite Nat.add_succ_r. destruct l; cbn; auto. apply skipn_nil.
Qed.
Lemma lastn_all (l : list A) : lastn (length l) l = l.
Proof. unfold lastn. now rewrite Nat.sub_diag. Qed.
Lemma lastn_snoc (a l : list A) x : a <> [] ->
  skipn 1 (lastn (length a) (a ++ l)) ++ [x] = lastn (length a) (a ++ l ++ [x]).
Proof.
  intros Ha. unfold lastn. rewrite skipn_skipn. rewrite !app_length; cbn [length].
  rewrite app_assoc. replace (length a + (length l + 1) - length a) with (1 + (length a + length l - length a)) by lia.
  rewrite (skipn_app _ (a ++ l)). rewrite app_length.
  assert (0 < length a) by (destruct a; cbn; [congruence|lia]).
  replace (1 + (length a + length l - length a) - (length a + length l)) with 0 by lia. reflexivity.
Qed.
Lemma lastn_length n (l : list A) : n <= length l -> length (lastn n l) = n.
Proof. unfold lastn; rewrite skipn_length; lia. Qed.
Lemma last_lastn n (l : list A) d : 0 < n -> last (lastn n l) d = last l d.
Proof.
  intros Hn. unfold lastn. destruct l as [|x l]; [now rewrite skipn_nil|].
  destruct (@exists_last _ (x :: l)) as (l' & y & e); [congruence|]. rewrite e, app_length. cbn [length].
  rewrite skipn_app. replace (length l' + 1 - n - length l') with 0 by lia. cbn [skipn]. now rewrite !last_snoc.
Qed.
Lemma last_repeat (x d : A) n : 0 < n -> last (repeat x n) d = x.
Proof. destruct n; [lia|]. clear. intros _. induction n; auto. Qed.
Lemma lastn_repeat_app (x : A) n l : length l <= n -> lastn n (repeat x n ++ l) = repeat x (n - length l) ++ l.
Proof.
  intros H. unfold lastn. rewrite app_length, repeat_length.
  replace (n + length l - n) with (length l) by lia. rewrite skipn_app, repeat_length.
  replace (length l - n) with 0 by lia. cbn [skipn]. f_equal.
  replace n with (length l + (n - length l)) at 1 by lia. rewrite repeat_app, skipn_app, repeat_length.
  rewrite Nat.sub_diag. rewrite skipn_all2 by (rewrite repeat_length; lia). reflexivity.
Qed.
End Lastn.

Section PHist.
Context {OT : Ops} {E : Env}.

Definition entry : Type := (T * vec * vec)%type.
Definition e_t (e : entry) : T := fst (fst e).
Definition e_y (e : entry) : vec := snd (fst e).
Definition e_f (e : entry) : vec := snd e.
Definition push_all (l : list entry) (b : buffer) : buffer :=
  fold_left (fun b e => push b (e_t e) (e_y e) (e_f e)) l b.

Lemma push_all_snoc l e b : push_all (l ++ [e]) b = push (push_all l b) (e_t e) (e_y e) (e_f e).
Proof. unfold push_all. now rewrite fold_left_app. Qed.

Lemma push_all_spec n l b : buf_len (S n) b ->
  ts (push_all l b) = lastn (S n) (ts b ++ map e_t l) /\
  ys (push_all l b) = lastn (S n) (ys b ++ map e_y l) /\
  fs (push_all l b) = lastn (S n) (fs b ++ map e_f l).
Proof.
  intros (A & B & C). induction l using rev_ind.
  - cbn. rewrite !app_nil_r. repeat split; [rewrite <- A | rewrite <- B | rewrite <- C]; now rewrite lastn_all.
  - destruct IHl as (IA & IB & IC). rewrite push_all_snoc, !map_app. cbn [map].
    assert (Ht : ts b <> []) by (eapply nonnil_len; eauto).
    assert (Hy : ys b <> []) by (eapply nonnil_len; eauto).
    assert (Hf : fs b <> []) by (eapply nonnil_len; eauto).
    rewrite push_ts, push_ys, push_fs.
    + rewrite IA, IB, IC. repeat split; [rewrite <- A | rewrite <- B | rewrite <- C]; now rewrite lastn_snoc.
    + eapply nonnil_len. rewrite IC. apply lastn_length. rewrite app_length; lia.
    + eapply nonnil_len. rewrite IB. apply lastn_length. rewrite app_length; lia.
    + eapply nonnil_len. rewrite IA. apply lastn_length. rewrite app_length; lia.
Qed.

Lemma iterate_push n t y f b : iterate n (fun b => push b t y f) b = push_all (repeat (t, y, f) n) b.
Proof. revert b; induction n; intros; cbn; auto. Qed.

Lemma lastn_over {A} (a l : list A) : lastn (length l) (a ++ l) = l.
Proof.
  unfold lastn. rewrite app_length, skipn_app. replace (length a + length l - length l) with (length a) by lia.
  rewrite skipn_all, Nat.sub_diag. reflexivity.
Qed.

Lemma map_repeat {A B} (f : A -> B) x n : map f (repeat x n) = repeat (f x) n.
Proof. induction n; cbn; congruence. Qed.

Lemma buffer_init_spec n g t y f : buf_len (S n) g ->
  buffer_init (S n) g t y f = mkbuf (repeat t (S n)) (repeat y (S n)) (repeat f (S n)).
Proof.
  intros H. unfold buffer_init. rewrite iterate_push.
  destruct (push_all_spec n (repeat (t, y, f) (S n)) g H) as (A & B & C).
  destruct (push_all _ _) as [a b c]. cbn [ts ys fs] in *.
  rewrite !map_repeat in *. cbn [e_t e_y e_f fst snd] in *. f_equal.
  - rewrite A. rewrite <- (repeat_length t (S n)) at 1. apply lastn_over.
  - rewrite B. rewrite <- (repeat_length y (S n)) at 1. apply lastn_over.
  - rewrite C. rewrite <- (repeat_length f (S n)) at 1. apply lastn_over.
Qed.

(** ** entries *)
Lemma entries_recorded rhs n b : buf_len n b -> (entries_ok rhs b <-> recorded_ok rhs b).
Proof.
  intros (A & B & C). unfold entries_ok, recorded_ok. split.
  - intros H. repeat split; try congruence. revert n A B C H.
    generalize (ts b) (ys b) (fs b). intros l; induction l as [|t l IH]; intros [|y l1] [|f l2] n A B C H i Hi;
      cbn in *; try lia.
    inversion H as [|? ? ? ? H1 H2]; subst. destruct i; cbn in *; auto. eapply IH; eauto; try lia. 
  - intros (_ & _ & H). revert n A B C H.
    generalize (ts b) (ys b) (fs b). intros l; induction l as [|t l IH]; intros [|y l1] [|f l2] n A B C H;
      cbn in *; try lia; auto.
    constructor. apply (H 0); lia. eapply (IH l1 l2 (n - 1)); try lia. intros i Hi. apply (H (S i)). lia.
Qed.

Lemma entries_last rhs n b : buf_len (S n) b -> entries_ok rhs b -> rhs (buf_t b) (buf_y b) = Ret (buf_f b).
Proof.
  intros H He. apply (entries_recorded rhs _ b H) in He. destruct H as (A & B & C).
  destruct He as (_ & _ & He). specialize (He n). rewrite A in He. specialize (He ltac:(lia)).
  unfold buf_t, buf_y, buf_f.
  assert (forall {X} (l : list X) d, length l = S n -> last l d = nth n l d) as key.
  { clear. intros X l d. revert n. induction l as [|x l IH]; intros n H; cbn in H; [lia|].
    destruct l; [cbn in H; replace n with 0 by lia; auto|].
    destruct n; [cbn in H; lia|]. change (last (x :: x0 :: l) d) with (last (x0 :: l) d).
    cbn [nth]. apply IH. cbn in *; lia. }
  rewrite !key; auto.
Qed.

Lemma repeat_entries rhs t y f n : rhs t y = Ret f ->
  entries_ok rhs (mkbuf (repeat t n) (repeat y n) (repeat f n)).
Proof. intros H. unfold entries_ok. cbn. induction n; cbn; constructor; auto. Qed.

(** ** construction *)
Definition good (rhs : rhs_t) (m : meth) (s : st) : Prop := wf m s /\ entries_ok rhs (cache s).

Lemma init_base_spec m g rhs t0 y0 h s : garbage_ok m g -> init_base m g rhs t0 y0 h = Ret s ->
  good rhs m s /\ exists f, rhs t0 y0 = Ret f /\
  cache s = mkbuf (repeat t0 (len_history m)) (repeat y0 (len_history m)) (repeat f (len_history m)) /\
  hstep s = match h with Some x => x | None => one end.
Proof.
  intros (A & B & C & D) H. unfold init_base in H. destruct (rhs t0 y0) as [f| |] eqn:e; inv H.
  destruct (len_history_pos m) as (k & Hk).
  assert (Hb : buf_len (S (S k)) (g_buf g)) by (rewrite <- Hk; repeat split; auto).
  assert (Hi : buffer_init (len_history m) (g_buf g) t0 y0 f =
     mkbuf (repeat t0 (len_history m)) (repeat y0 (len_history m)) (repeat f (len_history m))).
  { rewrite Hk. now apply buffer_init_spec. }
  cbn [obind] in *. unfold good, wf. cbn [cache hstep stages]. rewrite Hi. split.
  - split; [|now apply repeat_entries]. split; [|exact D]. repeat split; cbn; now rewrite repeat_length.
  - exists f. auto.
Qed.

Lemma good_set_h rhs m h s : good rhs m s -> good rhs m (set_h h s).
Proof. auto. Qed.

Lemma good_core rhs m fuel o s : good rhs m s -> good rhs m (snd (core_of m fuel o rhs s)).
Proof.
  intros (Hx & Hy). split. now apply core_wf.
  destruct (core_of m fuel o rhs s) as [r s'] eqn:e.
  apply core_of_ok in e; [|now apply wf_stages]. destruct e as (_ & _ & _ & D). cbn.
  destruct r; try congruence. destruct D as (t & y & f & (P1 & P2) & _). rewrite P1.
  destruct (len_history_pos m) as (k & Hk). destruct Hx as (Hx & _). rewrite Hk in Hx.
  eapply push_entries; eauto.
Qed.
Lemma good_interp rhs m t : keeps (good rhs m) (interp_of m rhs t).
Proof.
  intros s (A & B). split. now apply interp_wf.
  destruct (interp_of m rhs t s) as [r s'] eqn:e. apply interp_of_ok in e as (H & _). cbn. congruence.
Qed.

Lemma good_push rhs m s t y f : good rhs m s -> rhs t y = Ret f ->
  good rhs m (set_cache (push (cache s) t y f) s).
Proof.
  intros ((A & B) & C) H. destruct (len_history_pos m) as (k & Hk).
  split; [split|]; cbn; auto. now apply push_len. rewrite Hk in A. eapply push_entries; eauto.
Qed.

Lemma good_last rhs m s : good rhs m s -> rhs (now s) (state s) = Ret (deriv s).
Proof.
  intros ((A & _) & B). destruct (len_history_pos m) as (k & Hk). rewrite Hk in A. eapply entries_last; eauto.
Qed.


Lemma step_none sv fuel s : s_bound sv = PInf ->
  step sv fuel None None s =
  match s_core sv s with
  | (Ret _, s') => (Ret (ROne (now s') (CacheRow (length (ys (cache s')) - 1))), s')
  | (Raise e, s') => (Raise e, s')
  | (Loop, s') => (Loop, s')
  end.
Proof.
  intros H. unfold step, bind. rewrite H. unfold step_. cbn. unfold bind.
  destruct (s_core sv s) as [[| |] s']; auto.
Qed.

(** what the fixed step first stepper pushes *)
Lemma fs_fixed_loop_spec rhs m1 fuel1 o1 n : forall s1 c c',
  good rhs m1 s1 -> is_fixed m1 = true ->
  fs_fixed_loop n (solver_of m1 fuel1 o1 rhs PInf) s1 c = Ret c' ->
  exists l, c' = push_all l c /\ Forall (fun e => rhs (e_t e) (e_y e) = Ret (e_f e)) l /\
            map e_t l = map (fun k => grid (now s1) (hstep s1) (S k)) (seq 0 n).
Proof.
  induction n; intros s1 c c' Hg Hf H; cbn [fs_fixed_loop] in H.
  - inv H. exists []; repeat split; auto.
  - rewrite step_none in H by reflexivity. cbn [s_core solver_of] in H.
    pose proof (good_core rhs m1 fuel1 o1 s1 Hg) as Hg'.
    destruct (core_of m1 fuel1 o1 rhs s1) as [[[]| |] s'] eqn:e; try discriminate. cbn [snd] in Hg'.
    apply IHn in H as (l & A & B & C); auto.
    apply core_of_ok in e; [|intros; congruence]. destruct e as (_ & _ & E1 & t & y & f & (P1 & P2) & Ht).
    rewrite Hf in *. specialize (E1 eq_refl). specialize (Ht eq_refl).
    exists ((buf_t (cache s'), buf_y (cache s'), buf_f (cache s')) :: l). split; [exact A|]. split.
    + constructor; auto. cbn. exact (good_last _ _ _ Hg').
    + cbn [map seq]. f_equal.
      * cbn. rewrite P1. destruct (len_history_pos m1) as (k & Hk). destruct Hg as ((Hg & _) & _). rewrite Hk in Hg.
        rewrite (push_t _ _ _ _ _ Hg). exact Ht.
      * rewrite C. rewrite <- seq_shift, map_map. apply map_ext. intros a. rewrite E1.
        assert (Hn : now s' = t).
        { unfold now. rewrite P1. destruct (len_history_pos m1) as (k & Hk). destruct Hg as ((Hg & _) & _). rewrite Hk in Hg.
          apply (push_t _ _ _ _ _ Hg). }
        rewrite Hn, Ht. clear. induction a; cbn in *; auto. now rewrite IHa.
Qed.

Lemma fs_push_all_spec rhs rows : forall c c', fs_push_all rhs rows c = Ret c' ->
  exists l, c' = push_all l c /\ Forall (fun e => rhs (e_t e) (e_y e) = Ret (e_f e)) l /\
            map (fun e => (e_t e, e_y e)) l = rows.
Proof.
  induction rows as [|[t y] rows IH]; intros c c' H; cbn [fs_push_all] in H.
  - inv H. exists []; auto.
  - destruct (rhs t y) as [f| |] eqn:e; try discriminate. cbn in H.
    apply IH in H as (l & A & B & C). exists ((t, y, f) :: l). repeat split; auto. cbn. now rewrite C.
Qed.

Lemma good_push_all rhs m l : forall s, good rhs m s ->
  Forall (fun e => rhs (e_t e) (e_y e) = Ret (e_f e)) l ->
  good rhs m (set_cache (push_all l (cache s)) s).
Proof.
  induction l as [|e l IH]; intros s Hg Hl; cbn.
  - destruct s; auto.
  - inv Hl. apply (IH (set_cache (push (cache s) (e_t e) (e_y e) (e_f e)) s)); auto. now apply good_push.
Qed.

Lemma iterate_same n b : forall k, buf_len (S n) b ->
  iterate k (fun c => push c (buf_t c) (buf_y c) (buf_f c)) b =
  push_all (repeat (buf_t b, buf_y b, buf_f b) k) b.
Proof.
  intros k; revert b; induction k; intros b Hb; cbn; auto.
  rewrite IHk by now apply push_len.
  rewrite (push_t _ _ _ _ _ Hb), (push_y _ _ _ _ _ Hb), (push_f _ _ _ _ _ Hb). reflexivity.
Qed.

Lemma Forall_repeat {A} (P : A -> Prop) x n : P x -> Forall P (repeat x n).
Proof. intros; induction n; cbn; constructor; auto. Qed.

Lemma init_ms_good m g rhs t0 y0 h fs fuel s :
  garbage_ok m g ->
  (match fs with
   | FSNone => True
   | FSFixed mk => forall t y h sv s1, mk t y h = Ret (sv, s1) ->
       exists m1 fuel1 o1, sv = solver_of m1 fuel1 o1 rhs PInf /\ good rhs m1 s1 /\ is_fixed m1 = true
   | FSVar mk => True
   end) ->
  init_ms m g rhs t0 y0 h fs fuel = Ret s -> good rhs m s.
Proof.
  intros Hg Hfs H. unfold init_ms in H.
  destruct (init_base m g rhs t0 y0 h) as [s0| |] eqn:e; try discriminate. cbn [obind] in H.
  apply init_base_spec in e as (G0 & f & Hr & Hc & Hh); auto.
  assert (Hno : good rhs m (set_cache (iterate (len_history m - 1)
      (fun c => push c (buf_t c) (buf_y c) (buf_f c)) (cache s0)) s0)).
  { destruct (len_history_pos m) as (k & Hk). assert (Hb := G0). destruct Hb as ((Hb & _) & _). rewrite Hk in Hb.
    rewrite (iterate_same (S k)) by auto. apply good_push_all; auto. apply Forall_repeat. cbn.
    exact (good_last _ _ _ G0). }
  destruct (Nat.eqb (ms_order m) 1). { inv H; exact Hno. }
  destruct fs as [|mk|mk].
  - inv H; exact Hno.
  - destruct (mk _ _ _) as [[sv s1]| |] eqn:em; try discriminate. cbn [obind fst snd] in H.
    destruct (Hfs _ _ _ _ _ em) as (m1 & fuel1 & o1 & -> & G1 & F1).
    destruct (fs_fixed_loop _ _ _ _) as [c'| |] eqn:el; try discriminate. inv H.
    apply fs_fixed_loop_spec in el as (l & -> & B & _); auto. now apply good_push_all.
  - destruct (mk _ _) as [[sv s1]| |] eqn:em; try discriminate. cbn [obind fst snd] in H.
    destruct (run _ _ _ _) as [[rows| |] s2]; try discriminate.
    destruct (fs_push_all _ _ _) as [c'| |] eqn:el; try discriminate. inv H.
    apply fs_push_all_spec in el as (l & -> & B & _). now apply good_push_all.
Qed.

Lemma built_good rhs m s : built rhs m s -> good rhs m s.
Proof.
  induction 1.
  - eapply init_base_spec; eauto.
  - unfold init_var in H1. destruct (init_base m g rhs t0 y0 None) as [s0| |] eqn:e; try discriminate.
    cbn [obind] in H1. apply init_base_spec in e as (G0 & _); auto.
    destruct (match max_step o with Fin x => _ | PInf => _ end); try discriminate.
    destruct (ltb (atol o) zero); try discriminate.
    destruct (match first with Some h => Ret h | None => _ end) as [h| |]; try discriminate. cbn [obind] in H1.
    destruct m; try discriminate.
    + inv H1. exact G0.
    + destruct (dop_update _ _ _ _ _ _) as [[[]| |] s'] eqn:ed; try discriminate. inv H1.
      assert (interp_only (set_h h s0) s) as (I1 & I2 & I3).
      { unfold dop_update, bind, lift in ed. destruct (dop_extra _ _ _ _ _ _ _); inv ed; repeat split. }
      destruct G0 as ((W1 & W2) & W3). split; [split|]; rewrite ?I1, ?I3; auto.
  - eapply init_ms_good; eauto. exact I.
  - eapply init_ms_good; eauto. cbn. intros ? ? ? ? ? Hq; inv Hq. exists m1, fuel1, o1. auto.
  - eapply init_ms_good; eauto. exact I.
Qed.

Lemma session_good rhs m fuel o tb fuel' cs s : good rhs m s ->
  good rhs m (session (solver_of m fuel o rhs tb) fuel' cs s).
Proof.
  apply session_inv.
  - intros b x _ _ Hx. now apply good_core.
  - intros t. apply good_interp.
Qed.

Lemma C21_lemma rhs m s fuel o tb fuel' cs : built rhs m s ->
  recorded_ok rhs (cache (session (solver_of m fuel o rhs tb) fuel' cs s)) /\
  rhs (now (session (solver_of m fuel o rhs tb) fuel' cs s))
      (state (session (solver_of m fuel o rhs tb) fuel' cs s)) =
  Ret (deriv (session (solver_of m fuel o rhs tb) fuel' cs s)).
Proof.
  intros H. apply built_good in H. apply (session_good _ _ fuel o tb fuel' cs) in H. split.
  - destruct H as ((A & _) & B). eapply entries_recorded; eauto.
  - eapply good_last; eauto.
Qed.

(** ** follows *)
Lemma follows_snoc_step sv s l s1 s2 : follows sv s l s1 -> s_core sv s1 = (Ret tt, s2) ->
  follows sv s (l ++ [s2]) s2.
Proof.
  induction 1; cbn; intros.
  - eapply fol_step; eauto. constructor.
  - eapply fol_step; eauto.
  - eapply fol_quiet; eauto.
Qed.
Lemma follows_snoc_quiet sv s l s1 s2 : follows sv s l s1 -> cache s2 = cache s1 -> follows sv s l s2.
Proof.
  induction 1; intros.
  - eapply fol_quiet; eauto. constructor.
  - eapply fol_step; eauto.
  - eapply fol_quiet; eauto.
Qed.

Lemma C23_lemma rhs m s fuel o tb fuel' cs : built rhs m s ->
  exists l, follows (solver_of m fuel o rhs tb) s l (session (solver_of m fuel o rhs tb) fuel' cs s).
Proof.
  intros H. apply built_good in H.
  apply (session_inv (solver_of m fuel o rhs tb)
     (fun x => good rhs m x /\ exists l, follows (solver_of m fuel o rhs tb) s l x)).
  - intros b x _ _ (G & l & F). split. now apply good_core.
    destruct (s_core (solver_of m fuel o rhs tb) x) as [r x'] eqn:e. cbn [snd].
    destruct r as [[]| |].
    + eexists. eapply follows_snoc_step; eauto.
    + apply core_of_ok in e; [|now apply wf_stages; destruct G]. exists l. eapply follows_snoc_quiet; eauto. apply e.
    + apply core_of_ok in e; [|now apply wf_stages; destruct G]. exists l. eapply follows_snoc_quiet; eauto. apply e.
  - intros t x (G & l & F). split. now apply good_interp.
    exists l. eapply follows_snoc_quiet; eauto. cbn [s_interp solver_of].
    destruct (interp_of m rhs t x) as [r x'] eqn:e. apply interp_of_ok in e as (A & _). exact A.
  - split; auto. exists []. constructor.
Qed.

(** failing steps leave the history at the last completed step *)
Lemma C23_fail rhs m s fuel o tb : good rhs m s ->
  forall r s', s_core (solver_of m fuel o rhs tb) s = (r, s') -> r <> Ret tt -> cache s' = cache s.
Proof.
  intros G r s' H Hr. apply core_of_ok in H; [|now apply wf_stages; destruct G].
  destruct H as (_ & _ & _ & H). destruct r as [[]| |]; auto. congruence.
Qed.

Lemma chain_good rhs m fuel o tb b s l s' :
  chain (solver_of m fuel o rhs tb) b s l s' -> good rhs m s -> good rhs m s'.
Proof.
  induction 1; auto. intros G. apply IHchain. destruct H as (_ & H).
  pose proof (good_core rhs m fuel o s G) as K. cbn in H. rewrite H in K. exact K.
Qed.

Lemma C23_step rhs m s fuel o tb fuel' n u e s' : good rhs m s ->
  step (solver_of m fuel o rhs tb) fuel' n u s = (Raise e, s') ->
  exists b l s1, chain (solver_of m fuel o rhs tb) b s l s1 /\ cache s' = cache s1.
Proof.
  intros G H. set (sv := solver_of m fuel o rhs tb) in *.
  assert (fin : forall b l s1 r s2, chain sv b s l s1 -> s_core sv s1 = (r, s2) -> r <> Ret tt ->
      exists b l s1, chain sv b s l s1 /\ cache s2 = cache s1).
  { intros b l s1 r s2 C K Hr. exists b, l, s1. split; auto. eapply C23_fail; eauto.
    eapply chain_good; eauto. }
  unfold step in H. destruct u as [u|].
  - destruct (ext_lt u (buf_t (cache s))) eqn:el; [discriminate|].
    destruct n as [k|]; unfold bind, check_time in H; destruct (ext_gt u (s_bound sv)); cbn in H;
      try (inv H; exists PInf, [], s'; split; auto; constructor).
    + destruct (k <? 0)%Z; cbn in H; try (inv H; exists PInf, [], s'; split; auto; constructor).
      destruct (nsteps_ sv (Z.to_nat k) u s) as [o1 s1] eqn:en. apply nsteps_spec in en.
      destruct o1 as [[? []]| |]; inv H. cbn in en. destruct en as (l & s1 & A & B & C & D).
      eapply fin; eauto. discriminate.
    + destruct (steps_ sv fuel' u s) as [o1 s1] eqn:en. apply steps_spec in en.
      destruct o1; inv H. destruct en as (l & s1 & A & B & C & D). eapply fin; eauto. discriminate.
  - destruct n as [k|].
    + destruct (k <? 0)%Z; [inv H; exists PInf, [], s'; split; auto; constructor |].
      unfold bind in H. destruct (nsteps_ sv (Z.to_nat k) (s_bound sv) s) as [o1 s1] eqn:en.
      apply nsteps_spec in en. destruct o1 as [[? []]| |]; inv H.
      * cbn in en. destruct en as (l' & A & _). exists (s_bound sv), l', s'. auto.
      * destruct en as (l & s1 & A & B & C & D). eapply fin; eauto. discriminate.
    + unfold bind in H. destruct (step_cases sv (s_bound sv) s) as [[Hw He] | [Hw He]]; rewrite He in H.
      * inv H.
      * destruct (s_core sv s) as [[| |] s1] eqn:ec; inv H.
        eapply (fin PInf []); eauto. constructor. discriminate.
Qed.

(** ** C22, C10 *)
Definition grows (rhs : rhs_t) (m : meth) (s : st) (l : list entry) (s' : st) : Prop :=
  cache s' = push_all l (cache s) /\
  Forall (fun e => rhs (e_t e) (e_y e) = Ret (e_f e)) l /\
  (is_fixed m = true ->
     hstep s' = hstep s /\ map e_t l = map (fun k => grid (now s) (hstep s) (S k)) (seq 0 (length l))).

Lemma rev_case {A} (l : list A) : l = [] \/ exists x l', l = l' ++ [x].
Proof. destruct l as [|a l]; auto. right. destruct (@exists_last _ (a :: l)) as (l' & x & e); [congruence|eauto]. Qed.

Lemma grows_now rhs m s l s' : wf m s -> is_fixed m = true -> grows rhs m s l s' ->
  now s' = grid (now s) (hstep s) (length l).
Proof.
  intros (W & _) Hf (A & _ & C). destruct (C Hf) as (_ & C').
  unfold now at 1, buf_t. rewrite A. destruct (len_history_pos m) as (k & Hk). rewrite Hk in W.
  destruct (push_all_spec _ l _ W) as (-> & _). rewrite last_lastn by lia.
  destruct (rev_case l) as [-> | (x & l' & ->)]; [now rewrite app_nil_r |].
  rewrite C', app_length. cbn [length]. rewrite Nat.add_1_r, seq_S, map_app, app_assoc. cbn [map].
  now rewrite last_snoc.
Qed.

Lemma C22_lemma rhs m s fuel o tb fuel' cs : built rhs m s ->
  exists l, grows rhs m s l (session (solver_of m fuel o rhs tb) fuel' cs s).
Proof.
  intros H. apply built_good in H.
  apply (session_inv (solver_of m fuel o rhs tb)
     (fun x => good rhs m x /\ exists l, grows rhs m s l x)).
  - intros b x _ _ (G & l & F). split. now apply good_core.
    cbn [s_core solver_of]. destruct (core_of m fuel o rhs x) as [r x'] eqn:e. cbn [snd].
    apply core_of_ok in e; [|now apply wf_stages; destruct G].
    destruct e as (_ & _ & E1 & E2). pose proof F as (F1 & F2 & F3).
    destruct r as [[]| |].
    + destruct E2 as (t & y & f & (P1 & P2) & Ht). exists (l ++ [(t, y, f)]). split; [|split].
      * rewrite push_all_snoc. cbn. congruence.
      * apply Forall_app; split; auto.
      * intros Hf. destruct (F3 Hf) as (A & B). split; [rewrite E1; auto|].
        rewrite app_length, map_app, B. cbn [map length]. rewrite Nat.add_1_r, seq_S, map_app. cbn [map].
        f_equal. cbn. f_equal. rewrite (Ht Hf). rewrite A.
        rewrite (grows_now rhs m s l x); auto. now destruct H.
    + exists l. split; [congruence|]. split; auto. intros Hf. rewrite (E1 Hf). auto.
    + exists l. split; [congruence|]. split; auto. intros Hf. rewrite (E1 Hf). auto.
  - intros t x (G & l & F1 & F2 & F3). split. now apply good_interp.
    exists l. cbn [s_interp solver_of]. destruct (interp_of m rhs t x) as [r x'] eqn:e.
    apply interp_of_ok in e as (A & B & _). cbn. split; [congruence|]. split; auto. now rewrite B.
  - split; auto. exists []. split; [|split]; auto.
Qed.
End PHist.
