(** run: C08, C15-C18. *)
From Coq Require Import List ZArith Bool Arith Lia Permutation.
From Verif Require Import Base Scalar Vec MBuffer MZeros MSteps MApi MClasses Laws Spec SpecInst
  PStep PKeeps PCore PHist PRun PRun2.
Import ListNotations.

Section A.
Context {OT : Ops} {L : OrdLaws OT} {E : Env}.

Lemma fancy_perm {A} (l : list A) idx r :
  Permutation idx (seq 0 (length l)) -> fancy l idx = Ret r -> Permutation r l.
Proof.
  intros Hp Hf. destruct l as [|d l].
  { apply fancy_spec in Hf as (A1 & _). cbn in Hp. apply Permutation_sym, Permutation_nil in Hp. subst.
    destruct r; [constructor | discriminate]. }
  remember (d :: l) as R eqn:HR. clear HR.
  pose proof (perm_range _ _ Hp) as Hi. rewrite Forall_forall in Hi.
  assert (E1 : r = map (fun i => nth i R d) idx).
  { pose proof (fancy_spec _ _ _ Hf) as (G1 & G2). apply nth_error_ext. intros i.
    rewrite nth_error_map. destruct (nth_error idx i) as [k|] eqn:ek; cbn [option_map].
    - rewrite (G2 _ _ ek). apply nth_error_nth'. apply Hi. eapply nth_error_In; eauto.
    - apply nth_error_None. apply nth_error_None in ek. lia. }
  assert (E2 : R = map (fun i => nth i R d) (seq 0 (length R))).
  { apply nth_error_ext. intros i. rewrite nth_error_map.
    destruct (lt_dec i (length R)).
    - rewrite (nth_error_nth' (seq 0 (length R)) 0) by (now rewrite seq_length).
      rewrite seq_nth by lia. cbn [option_map plus]. now apply nth_error_nth'.
    - rewrite (proj2 (nth_error_None (seq 0 (length R)) i)) by (rewrite seq_length; lia).
      cbn [option_map]. apply nth_error_None. lia. }
  rewrite E1. transitivity (map (fun i => nth i R d) (seq 0 (length R))); [|now rewrite <- E2].
  now apply Permutation_map.
Qed.

Lemma ordered_perm t t' : ordered t t' -> Permutation t' t /\ is_sorted t' = true.
Proof.
  intros [(A & ->) | (_ & A & B & C)]; split; auto. eapply fancy_perm; eauto.
Qed.

Lemma sorted_unique (anti : forall x y : T, leb x y = true -> leb y x = true -> x = y) a :
  forall b, is_sorted a = true -> is_sorted b = true -> Permutation a b -> a = b.
Proof.
  induction a as [|x a IH]; intros b Ha Hb Hp.
  - apply Permutation_nil in Hp. auto.
  - destruct b as [|y b]; [apply Permutation_sym, Permutation_nil in Hp; discriminate|].
    destruct (sorted_cons _ _ Ha) as (Ha1 & Ha2). destruct (sorted_cons _ _ Hb) as (Hb1 & Hb2).
    rewrite Forall_forall in Ha2, Hb2.
    assert (x = y).
    { assert (Hy : In y (x :: a)) by (eapply Permutation_in; [symmetry; exact Hp | now left]).
      assert (Hx : In x (y :: b)) by (eapply Permutation_in; [exact Hp | now left]).
      destruct Hy as [|Hy]; auto. destruct Hx as [|Hx]; auto. }
    subst y. f_equal. apply IH; auto. eapply Permutation_cons_inv; eauto.
Qed.

Lemma sorted_num ta tr : is_sorted (ta :: tr) = true -> tr <> [] -> Forall num (ta :: tr).
Proof.
  intros H Hn. destruct (sorted_cons _ _ H) as (_ & F). constructor.
  - destruct tr as [|b tr]; [congruence|]. inversion F as [|? ? Hb]; subst. exact (ol_num_l _ _ Hb).
  - eapply Forall_impl; [|exact F]. cbn. intros x Hx. exact (ol_num_r _ _ Hx).
Qed.

Lemma list_max_ge t : forall a, num a -> Forall num t ->
  num (list_max a t) /\ leb a (list_max a t) = true /\ Forall (fun x => leb x (list_max a t) = true) t.
Proof.
  unfold list_max. induction t as [|b t IH]; intros a Ha Ht; cbn [fold_left].
  - repeat split; auto.
  - inv Ht. assert (Hm : num (npmax a b) /\ leb a (npmax a b) = true /\ leb b (npmax a b) = true).
    { unfold npmax. destruct (ltb a b) eqn:e; cbn.
      - repeat split; auto. now apply ol_lt_le.
      - rewrite ol_eqb, H1; cbn. repeat split; auto. now apply nlt_le. }
    destruct Hm as (M1 & M2 & M3). destruct (IH _ M1 H2) as (I1 & I2 & I3).
    repeat split; auto. eapply ol_trans; eauto. constructor; auto. eapply ol_trans; eauto.
Qed.

Variable m : meth.
Variables (fuelc : nat) (o : options) (rhs : rhs_t) (tb : ext).
Let sv := solver_of m fuelc o rhs tb.

Lemma run_events_rejects fuel t ta tr evs s : ordered t (ta :: tr) ->
  ltb ta (buf_t0 (cache s)) = true \/ ext_gt (Fin (list_max ta tr)) tb = true ->
  run_events sv fuel t evs s = (Raise ValueError, s).
Proof.
  intros Ho H. unfold run_events. cbv zeta. unfold bind at 1.
  assert (H1 : (if is_sorted t then ret t else lift (fancy t (np_argsort t))) s = (Ret (ta :: tr), s)).
  { destruct Ho as [(-> & ->) | (-> & _ & Hf & _)]; auto. unfold lift. now rewrite Hf. }
  rewrite H1. destruct (ltb ta (buf_t0 (cache s))) eqn:e; [reflexivity|].
  destruct H as [H|H]; [discriminate|]. unfold bind at 1. unfold check_time. cbn [s_bound sv solver_of].
  rewrite H. reflexivity.
Qed.

(** C08 for run and run_events: a time before the history or after t_bound *)
Lemma C08_run fuel t t' evs s x : ordered t t' -> In x t -> num (buf_t0 (cache s)) ->
  ltb x (buf_t0 (cache s)) = true \/ gt_ext x tb = true ->
  run_events sv fuel t evs s = (Raise ValueError, s).
Proof.
  intros Ho Hx Hn H. destruct (ordered_perm _ _ Ho) as (Hp & Hs).
  assert (Hx' : In x t') by (eapply Permutation_in; [symmetry; exact Hp | exact Hx]).
  destruct t' as [|ta tr]; [destruct Hx'|].
  apply (run_events_rejects fuel t ta tr); auto.
  destruct (sorted_cons _ _ Hs) as (_ & F). destruct H as [H|H].
  - left. destruct Hx' as [->|Hx']; auto. rewrite Forall_forall in F.
    eapply ol_le_lt_trans; eauto.
  - right. destruct tb as [z|]; [|discriminate]. cbn in H. cbn.
    destruct tr as [|b tr'].
    + destruct Hx' as [->|[]]. exact H.
    + pose proof (sorted_num _ _ Hs ltac:(discriminate)) as Hall. inv Hall.
      destruct (list_max_ge (b :: tr') ta H2 H3) as (_ & A & B).
      eapply ol_lt_le_trans; [exact H|]. destruct Hx' as [->|Hx']; auto.
      rewrite Forall_forall in B. auto.
Qed.

(** C15 *)
Lemma C15_lemma (anti : forall x y : T, leb x y = true -> leb y x = true -> x = y)
  fuel t1 t1' t2 t2' s r1 s1 : ordered t1 t1' -> ordered t2 t2' -> Permutation t1 t2 ->
  run sv fuel t1 s = (Ret r1, s1) -> length r1 = length t1 ->
  exists r2, run sv fuel t2 s = (Ret r2, s1) /\ map fst r1 = t1 /\ map fst r2 = t2 /\ Permutation r1 r2.
Proof.
  intros O1 O2 Hp H1 Hl.
  destruct (ordered_perm _ _ O1) as (P1 & S1). destruct (ordered_perm _ _ O2) as (P2 & S2).
  assert (t1' = t2').
  { apply sorted_unique; auto. rewrite P1, Hp. now symmetry. }
  subst t2'.
  assert (Hc : exists r', run sv fuel t1' s = (Ret r', s1) /\ length r' = length t1' /\ Permutation r1 r' /\ map fst r1 = t1).
  { destruct O1 as [(A & ->) | (A & B)].
    - exists r1. repeat split; auto. eapply run_complete_times; eauto.
    - pose proof H1 as H1'. pose proof (run_unsorted m fuelc o rhs tb fuel t1 t1' s A B) as Hu.
      fold sv in Hu. rewrite Hu in H1'.
      destruct (run sv fuel t1' s) as [[r'| |] s'] eqn:er; try discriminate. inv H1'.
      pose proof B as (Bp & _ & _).
      assert (Hlr : length r' = length t1).
      { (* every index of the inverse permutation was in range and there are as many rows *)
        pose proof (fancy_spec _ _ _ H0) as (F1 & F2).
        pose proof (inv_perm_perm _ _ Bp) as Ip.
        assert (length r' <= length t1').
        { apply C13_lemma in er as (x & K & _); auto.
          apply (f_equal (@length _)) in K. rewrite map_length, firstn_length in K. lia. }
        rewrite (Permutation_length P1) in H.
        destruct (Nat.eq_dec (length r') (length t1)); auto. exfalso.
        assert (Hin : In (length r') (inv_perm (np_argsort t1))).
        { eapply Permutation_in. symmetry; exact Ip. apply in_seq. lia. }
        apply In_nth_error in Hin as (i & Hi). specialize (F2 _ _ Hi).
        rewrite (proj2 (nth_error_None r' (length r'))) in F2 by lia.
        apply nth_error_None in F2. rewrite F1 in F2.
        assert (i < length (inv_perm (np_argsort t1))) by (apply nth_error_Some; congruence). lia. }
      exists r'. rewrite (Permutation_length P1). split; auto. split; auto.
      destruct (C15_rows m fuelc o rhs tb fuel t1 t1' s r' s1 A B er Hlr) as (rr & R1 & R2 & R3 & _).
      fold sv in R1. rewrite H1 in R1. inv R1. auto. }
  destruct Hc as (r' & Hr' & Hlr & Hpr & Hf1).
  destruct O2 as [(A & ->) | (A & B)].
  - exists r'. repeat split; auto. eapply run_complete_times; eauto.
  - destruct (C15_rows m fuelc o rhs tb fuel t2 t1' s r' s1 A B Hr') as (rr & R1 & R2 & R3 & _).
    { rewrite Hlr. now apply Permutation_length. }
    exists rr. repeat split; auto. rewrite Hpr. now symmetry.
Qed.

(** ** C17: the steps taken depend only on the largest time *)
Lemma upto_mono ti tj s l s' : upto_target sv ti s l s' -> leb ti tj = true -> upto_target sv tj s l s'.
Proof.
  intros (A & B) H. split; auto. eapply Forall_impl; [|exact B]. cbn. intros. eapply ol_lt_le_trans; eauto.
Qed.
Lemma last_cons_d {A} (a x : A) l : last (a :: l) x = last l a.
Proof. revert a x; induction l as [|b l IH]; intros a x; auto. change (last (a :: b :: l) x) with (last (b :: l) x). now rewrite !IH. Qed.
Lemma removelast_cons_app {A} (x : A) l1 l2 :
  removelast (x :: l1 ++ l2) = removelast (x :: l1) ++ match l2 with [] => [] | _ => removelast (last l1 x :: l2) end.
Proof.
  revert x; induction l1 as [|a l1 IH]; intros x.
  - destruct l2; reflexivity.
  - change (removelast (x :: (a :: l1) ++ l2)) with (x :: removelast (a :: l1 ++ l2)).
    change (removelast (x :: a :: l1)) with (x :: removelast (a :: l1)). cbn [app]. f_equal. rewrite IH.
    f_equal. now rewrite last_cons_d.
Qed.
Lemma upto_app ti s l1 s1 l2 s2 : upto_target sv ti s l1 s1 -> upto_target sv ti s1 l2 s2 ->
  upto_target sv ti s (l1 ++ l2) s2.
Proof.
  intros (A & B) (C & D). split. eapply chain_app; eauto.
  rewrite removelast_cons_app. apply Forall_app. split; auto.
  destruct l2; auto. rewrite <- (chain_last _ _ _ _ _ A). exact D.
Qed.
Lemma upto_sim ti s l s' x : upto_target sv ti s l s' -> sim x s ->
  exists lx x', upto_target sv ti x lx x' /\ sim x' s'.
Proof.
  intros (A & B) Hx. destruct (sim_chain m fuelc o rhs tb _ _ _ _ A x Hx) as (lx & x' & C & D & F).
  exists lx, x'. split; auto. split; auto.
  clear A C D. revert s x Hx B. induction F as [|x1 y1 lx1 ly1 Hxy F IH]; intros s x0 Hx B.
  - constructor.
  - change (removelast (x0 :: x1 :: lx1)) with (x0 :: removelast (x1 :: lx1)).
    change (removelast (s :: y1 :: ly1)) with (s :: removelast (y1 :: ly1)) in B. inv B.
    constructor. now rewrite (sim_now _ _ Hx). eapply IH; eauto.
Qed.

(** where a sampled run ends, up to the interpolator *)
Lemma sampled_end s t vs s' : sampled sv s t vs s' -> is_sorted t = true -> t <> [] ->
  exists l x, upto_target sv (last t zero) s l x /\ sim s' x /\ ltb (now x) (last t zero) = false.
Proof.
  induction 1; intros Hs Hn; [congruence|].
  destruct (sorted_cons _ _ Hs) as (Hs1 & Hs2).
  apply (interp_sim m) in H1.
  destruct ts as [|tj ts].
  - inv H2. exists l, s1. cbn. auto.
  - destruct IHsampled as (l2 & x & A & B & C); auto; [discriminate|].
    destruct (upto_sim _ _ _ _ s1 A (sim_sym _ _ H1)) as (lx & x' & A' & B').
    change (last (ti :: tj :: ts) zero) with (last (tj :: ts) zero).
    exists (l ++ lx), x'. split.
    + eapply upto_app; eauto. eapply upto_mono; eauto. rewrite Forall_forall in Hs2. apply Hs2.
      destruct (@exists_last _ (tj :: ts)) as (q & z & ->); [discriminate|].
      rewrite last_snoc. apply in_or_app. right. now left.
    + split. eapply sim_trans; eauto. now apply sim_sym. now rewrite (sim_now _ _ B').
Qed.

(** the stopping point of stepping towards [ti] is unique *)
Definition stopped (ti : T) (x : st) : Prop := ltb (now x) ti = false \/ would_pass tb x.
Lemma upto_unique ti s l1 x1 l2 x2 : upto_target sv ti s l1 x1 -> upto_target sv ti s l2 x2 ->
  stopped ti x1 -> stopped ti x2 -> l1 = l2 /\ x1 = x2.
Proof.
  intros (A & B). revert l2 x2 B.
  induction A as [s|s y1 l1 x1 Hy A IH]; intros l2 x2 B (C & D) S1 S2.
  - inversion C as [|? y2 l2' ? Hy2 C2]; subst; auto.
    change (removelast (s :: y2 :: l2')) with (s :: removelast (y2 :: l2')) in D.
    inversion D as [|? ? D1 D2]; subst.
    destruct Hy2 as (Hw & _). destruct S1 as [S1|S1]; [congruence | contradiction].
  - change (removelast (s :: y1 :: l1)) with (s :: removelast (y1 :: l1)) in B.
    inversion B as [|? ? B1 B2]; subst.
    inversion C as [|? y2 l2' ? Hy2 C2]; subst.
    + destruct Hy as (Hw & _). destruct S2 as [S2|S2]; [congruence | contradiction].
    + change (removelast (s :: y2 :: l2')) with (s :: removelast (y2 :: l2')) in D.
      inversion D as [|? ? D1 D2]; subst.
      destruct Hy as (_ & Hc), Hy2 as (_ & Hc'). rewrite Hc in Hc'. inversion Hc'; subst y2.
      destruct (IH l2' x2) as (-> & ->); auto. split; auto.
Qed.

Lemma firstn_sorted n t : is_sorted t = true -> is_sorted (firstn n t) = true.
Proof.
  revert t; induction n; intros [|a t] H; auto. destruct (sorted_cons _ _ H) as (H1 & H2).
  cbn [firstn]. specialize (IHn t H1). destruct t as [|b t]; [now rewrite firstn_nil|].
  destruct n; auto. cbn [firstn is_sorted] in *. apply andb_true_iff. split; auto. now inv H2.
Qed.

Lemma sorted_last_ge t x : is_sorted t = true -> In x t -> leb x (last t zero) = true \/ t = [x].
Proof.
  revert x; induction t as [|a t IH]; intros x Hs Hx; [destruct Hx|].
  destruct (sorted_cons _ _ Hs) as (H1 & H2). destruct t as [|b t].
  - right. destruct Hx as [->|[]]. reflexivity.
  - left. change (last (a :: b :: t) zero) with (last (b :: t) zero).
    destruct Hx as [->|Hx].
    + rewrite Forall_forall in H2. apply H2.
      destruct (@exists_last _ (b :: t)) as (q & z & ->); [discriminate|].
      rewrite last_snoc. apply in_or_app. right. now left.
    + destruct (IH x H1 Hx) as [H|H]; auto. inversion H; subst. cbn.
      rewrite Forall_forall in H2. specialize (H2 x (or_introl eq_refl)). eapply ol_num_r; eauto.
Qed.

Lemma run_end fuel t s rows s' : is_sorted t = true -> run sv fuel t s = (Ret rows, s') ->
  exists l x, upto_target sv (last t zero) s l x /\ sim s' x /\ stopped (last t zero) x.
Proof.
  intros Hs H. destruct t as [|ta tr] eqn:et; [discriminate|]. rewrite <- et in *.
  assert (Hne : t <> []) by (rewrite et; discriminate). clear et.
  apply C13_lemma in H as (s1 & A & B & C); auto. fold sv in B, C.
  destruct C as [(Hl & ->) | (tj & Hj & l & Hu & Hlt & Hw)].
  - rewrite A, Hl, firstn_all in B. destruct (sampled_end _ _ _ _ B Hs Hne) as (l & x & P1 & P2 & P3).
    exists l, x. repeat split; auto; try apply P1. now left.
  - assert (Hj1 : leb tj (last t zero) = true).
    { destruct (sorted_last_ge t tj Hs) as [|Ht]; auto.
      - eapply nth_error_In; eauto.
      - rewrite Ht. cbn. eapply lt_num_r; eauto. }
    destruct (map fst rows) as [|r0 rr] eqn:er.
    + inv B. exists l, s'. split; [|split].
      * eapply upto_mono; eauto.
      * apply sim_refl.
      * now right.
    + rewrite <- er in B, A. assert (Hs' : is_sorted (map fst rows) = true) by (rewrite A; now apply firstn_sorted).
      destruct (sampled_end _ _ _ _ B Hs') as (l1 & x & P1 & P2 & P3); [rewrite er; discriminate|].
      destruct (upto_sim _ _ _ _ x Hu) as (lx & x' & Q1 & Q2); [now apply sim_sym|].
      exists (l1 ++ lx), x'. split; [|split].
      * eapply upto_app; eapply upto_mono; eauto.
        destruct (sorted_last_ge t (last (map fst rows) zero) Hs) as [|Ht]; auto.
        -- rewrite A. destruct (@exists_last _ (firstn (length rows) t)) as (q & z & e).
           { rewrite <- A, er. discriminate. }
           rewrite e, last_snoc. rewrite <- (firstn_skipn (length rows) t), e. rewrite <- app_assoc.
           apply in_or_app. right. now left.
        -- exfalso. rewrite Ht in Hj. destruct rows as [|rw rows]; [discriminate|].
           cbn [length nth_error] in Hj. destruct (length rows); discriminate.
      * now apply sim_sym.
      * right. eapply sim_pass; eauto.
Qed.

Lemma C17_lemma fuel1 fuel2 t1 t2 s r1 s1 r2 s2 :
  is_sorted t1 = true -> is_sorted t2 = true -> last t1 zero = last t2 zero ->
  run sv fuel1 t1 s = (Ret r1, s1) -> run sv fuel2 t2 s = (Ret r2, s2) ->
  cache s1 = cache s2 /\ hstep s1 = hstep s2 /\ stages s1 = stages s2.
Proof.
  intros H1 H2 He R1 R2.
  apply run_end in R1 as (l1 & x1 & A1 & B1 & C1); auto.
  apply run_end in R2 as (l2 & x2 & A2 & B2 & C2); auto. rewrite <- He in *.
  destruct (upto_unique _ _ _ _ _ _ A1 A2 C1 C2) as (-> & ->).
  apply sim_iff. eapply sim_trans; eauto. now apply sim_sym.
Qed.

Lemma C17_stepping fuel t s rows s' : is_sorted t = true ->
  run sv fuel t s = (Ret rows, s') ->
  exists l x, upto_target sv (last t zero) s l x /\
    (ltb (now x) (last t zero) = false \/ would_pass tb x) /\
    cache s' = cache x /\ hstep s' = hstep x /\ stages s' = stages x.
Proof.
  intros Hs H. apply run_end in H as (l & x & A & B & C); auto. exists l, x. split; auto. split; auto.
  now apply sim_iff.
Qed.

(** ** C16: splitting a sorted request *)
Lemma run_eval_short fuel l1 l2 : forall s v s',
  (forall x y, In x l1 -> In y l2 -> leb x y = true) ->
  run_eval_ sv fuel l1 s = (Ret v, s') -> length v < length l1 ->
  run_eval_ sv fuel l2 s' = (Ret [], s').
Proof.
  induction l1 as [|ti l1 IH]; intros s v s' Hle H Hl; [cbn in Hl; lia|].
  cbn [run_eval_] in H. unfold bind in H.
  destruct (run_until sv fuel ti s) as [[[]| |] s1] eqn:eu; try discriminate.
  - destruct (interp_copy (s_interp sv) ti s1) as [[y| |] s2]; try discriminate.
    destruct (run_eval_ sv fuel l1 s2) as [[v1| |] s3] eqn:e1; inv H.
    eapply IH; eauto. intros; apply Hle; auto; now right. cbn in Hl; lia.
  - inv H. destruct l2 as [|tj l2]; auto. cbn [run_eval_]. unfold bind.
    assert (Hf : fuel <> 0).
    { intros ->. cbn [run_until] in eu. destruct (ltb (buf_t (cache s)) ti); discriminate. }
    apply run_until_spec in eu as (l & _ & Hlt & Hw).
    assert (Htj : ltb (buf_t (cache s')) tj = true).
    { eapply ol_lt_le_trans; [exact Hlt|]. apply Hle; now left. }
    destruct fuel as [|fuel']; [congruence|]. cbn [run_until]. rewrite Htj. unfold bind.
    destruct (step_cases sv (s_bound sv) s') as [[_ He] | [Hn _]]; [|contradiction].
    rewrite He. reflexivity.
Qed.
Lemma run_eval_app fuel l1 l2 : forall s,
  (forall x y, In x l1 -> In y l2 -> leb x y = true) ->
  run_eval_ sv fuel (l1 ++ l2) s =
  match run_eval_ sv fuel l1 s with
  | (Ret v1, s1) =>
      match run_eval_ sv fuel l2 s1 with
      | (Ret v2, s2) => (Ret (v1 ++ v2), s2)
      | (Raise e, s2) => (Raise e, s2)
      | (Loop, s2) => (Loop, s2)
      end
  | (Raise e, s1) => (Raise e, s1)
  | (Loop, s1) => (Loop, s1)
  end.
Proof.
  induction l1 as [|ti l1 IH]; intros s Hle.
  - cbn [app run_eval_]. unfold ret. destruct (run_eval_ sv fuel l2 s) as [[| |] ?]; auto.
  - destruct (run_eval_ sv fuel (ti :: l1) s) as [o1 s1] eqn:e1. pose proof e1 as e1'.
    cbn [app run_eval_] in e1 |- *. unfold bind in e1 |- *.
    destruct (run_until sv fuel ti s) as [[[]| |] s0] eqn:eu; try (inv e1; reflexivity).
    + destruct (interp_copy (s_interp sv) ti s0) as [[y| |] s2]; try (inv e1; reflexivity).
      rewrite IH by (intros; apply Hle; auto; now right).
      destruct (run_eval_ sv fuel l1 s2) as [[v1| |] s3]; inv e1; try reflexivity.
      destruct (run_eval_ sv fuel l2 s1) as [[v2| |] s4]; reflexivity.
    + inv e1. apply (run_eval_short _ _ l2) in e1'; auto. 2: (cbn; lia). now rewrite e1'.
Qed.

Lemma run_eval_len fuel l : forall s v s', run_eval_ sv fuel l s = (Ret v, s') ->
  length v <= length l.
Proof.
  induction l as [|ti l IH]; intros s v s' H; cbn [run_eval_] in H.
  - inv H. auto.
  - unfold bind in H. destruct (run_until sv fuel ti s) as [[[]| |] s1]; try discriminate.
    + destruct (interp_copy (s_interp sv) ti s1) as [[y| |] s2]; try discriminate.
      destruct (run_eval_ sv fuel l s2) as [[v1| |] s3] eqn:e; inv H. apply IH in e. cbn. lia.
    + inv H. cbn. lia.
Qed.

(** ** the recorded times of a state reached by forward steps are in order *)

Lemma sorted_skip1 t : is_sorted t = true -> is_sorted (skipn 1 t) = true.
Proof. destruct t as [|a t]; auto. intros H. apply (sorted_cons _ _ H). Qed.
Lemma sorted_snoc t x : is_sorted t = true -> t <> [] -> leb (last t zero) x = true ->
  is_sorted (t ++ [x]) = true.
Proof.
  induction t as [|a t IH]; intros H Hn Hl; [congruence|].
  destruct t as [|b t].
  - cbn in *. now rewrite Hl.
  - change (is_sorted ((a :: b :: t) ++ [x])) with (leb a b && is_sorted ((b :: t) ++ [x])).
    change (is_sorted (a :: b :: t)) with (leb a b && is_sorted (b :: t)) in H.
    apply andb_true_iff in H as (H1 & H2). rewrite H1. cbn [andb]. apply IH; auto; discriminate.
Qed.
Lemma sorted_hd_last t : is_sorted t = true -> num (last t zero) -> t <> [] ->
  leb (hd zero t) (last t zero) = true.
Proof.
  destruct t as [|a t]; [congruence|]. intros H Hn _. destruct t as [|b t]; auto.
  destruct (sorted_cons _ _ H) as (_ & F). rewrite Forall_forall in F. apply F.
  change (last (a :: b :: t) zero) with (last (b :: t) zero).
  destruct (@exists_last _ (b :: t)) as (q & z & ->); [discriminate|].
  rewrite last_snoc. apply in_or_app. right. now left.
Qed.

Lemma core_in_order b s s' : wf m s -> completes sv b s s' -> leb (now s) (now s') = true ->
  in_order s -> in_order s' /\ leb (buf_t0 (cache s')) (now s) = true.
Proof.
  intros W (_ & Hc) Hle (Ho & Hn). cbn [s_core sv solver_of] in Hc.
  assert (W2 := W). destruct W2 as (W2 & _). destruct (len_history_pos m) as (k & Hk). rewrite Hk in W2.
  apply core_of_ok in Hc; [|intros; now apply (wf_stages m)].
  destruct Hc as (_ & _ & _ & t & y & f & (P1 & _) & _).
  destruct W2 as (W1 & W2 & W3).
  assert (Hne : ts (cache s) <> []) by (eapply nonnil_len; eauto).
  assert (Ht : ts (cache s') = skipn 1 (ts (cache s)) ++ [t]) by (rewrite P1; now apply push_ts).
  assert (Hnow : now s' = t) by (unfold now, buf_t; now rewrite Ht, last_snoc).
  destruct (ts (cache s)) as [|a [|c tl]] eqn:ets; cbn in W1; try lia; try congruence.
  assert (Hlast : now s = last (c :: tl) zero) by (unfold now, buf_t; rewrite ets; reflexivity).
  destruct (sorted_cons _ _ Ho) as (Ho1 & _).
  split; [split|].
  - rewrite Ht. cbn [skipn]. apply sorted_snoc; auto. discriminate. rewrite <- Hlast, <- Hnow. auto.
  - exact (ol_num_r _ _ Hle).
  - unfold buf_t0. rewrite Ht. cbn [skipn app hd]. rewrite Hlast.
    apply (sorted_hd_last (c :: tl)); auto. now rewrite <- Hlast. discriminate.
Qed.

Lemma chain_in_order s l s' : wf m s -> forward sv s -> in_order s ->
  chain sv tb s l s' -> wf m s' /\ in_order s'.
Proof.
  intros W F O C. revert W F O. induction C as [s|s s1 l s2 Hc C IH]; intros W F O; auto.
  assert (W1 : wf m s1).
  { destruct Hc as (_ & Hc). pose proof (core_wf m fuelc o rhs s W) as K. cbn in Hc. now rewrite Hc in K. }
  apply IH; auto.
  - intros l' x x' Cx Hx. apply (F (s1 :: l') x x'); auto. econstructor; eauto.
  - exact (proj1 (core_in_order tb s s1 W Hc (F [] s s1 (chain_nil _ _ _) Hc) O)).
Qed.

(** the window after stepping towards [ti] reaches back to [ti] *)
Lemma upto_window ti s l s' : wf m s -> forward sv s -> in_order s ->
  upto_target sv ti s l s' -> leb (buf_t0 (cache s)) ti = true -> leb (buf_t0 (cache s')) ti = true.
Proof.
  intros W F O (C & Hl) H0. destruct (rev_case l) as [->|(x & l' & ->)].
  - inv C. auto.
  - apply chain_split in C as (x1 & C1 & C2).
    inversion C2 as [|? y ? ? Hc C3]; subst. inversion C3; subst.
    destruct (chain_in_order _ _ _ W F O C1) as (W1 & O1).
    destruct (core_in_order _ _ _ W1 Hc (F _ _ _ C1 Hc) O1) as (_ & K).
    eapply ol_trans; [exact K|]. apply ol_lt_le.
    rewrite removelast_cons_app in Hl. apply Forall_app in Hl as (_ & Hl).
    cbn in Hl. inversion Hl; subst. rewrite (chain_last _ _ _ _ _ C1). assumption.
Qed.

Lemma list_max_sorted_le z a t x : Forall num (a :: t) -> In x (a :: t) ->
  ltb z (list_max a t) = false -> ltb z x = false.
Proof.
  intros F Hx H. inversion F as [|? ? F1 F2]; subst.
  destruct (list_max_ge t a F1 F2) as (_ & A & B).
  destruct (ltb z x) eqn:e; auto. assert (leb x (list_max a t) = true).
  { destruct Hx as [->|Hx]; auto. rewrite Forall_forall in B. auto. }
  assert (ltb z (list_max a t) = true) by (eapply ol_lt_le_trans; eauto). congruence.
Qed.
Lemma list_max_in t : forall a, Forall num (a :: t) -> In (list_max a t) (a :: t).
Proof.
  unfold list_max. induction t as [|b t IH]; intros a F; [now left|]. cbn [fold_left].
  inversion F as [|? ? F1 F2]; inversion F2 as [|? ? F3 F4]; subst.
  unfold npmax. rewrite ol_eqb, F3. cbn. rewrite orb_false_r.
  destruct (ltb a b).
  - right. apply IH. now constructor.
  - destruct (IH a) as [H|H]; [now constructor| |]. now left. right; now right.
Qed.
Lemma list_max_part z a t b t' : Forall num (a :: t) -> incl (b :: t') (a :: t) ->
  ext_gt (Fin (list_max a t)) z = false -> ext_gt (Fin (list_max b t')) z = false.
Proof.
  intros F I H. destruct z as [z|]; auto. cbn in *. eapply list_max_sorted_le; eauto.
  apply I. apply list_max_in. eapply incl_Forall; eauto.
Qed.

Lemma sorted_app l1 l2 : is_sorted (l1 ++ l2) = true ->
  is_sorted l1 = true /\ is_sorted l2 = true /\ (forall x y, In x l1 -> In y l2 -> leb x y = true).
Proof.
  induction l1 as [|a l1 IH]; intros H; cbn [app] in H.
  - split; [reflexivity | split; [exact H | intros x y []]].
  - destruct (sorted_cons _ _ H) as (H1 & H2). destruct (IH H1) as (A & B & C).
    rewrite Forall_forall in H2. split; [|split; [exact B|]].
    + destruct l1 as [|b l1]; auto. change (leb a b && is_sorted (b :: l1) = true).
      rewrite A, andb_true_r. apply H2. now left.
    + intros x y [->|Hx] Hy; auto. apply H2. apply in_or_app. auto.
Qed.

Lemma C16_lemma fuel a1 t1 a2 t2 s :
  wf m s -> in_order s -> forward sv s ->
  is_sorted ((a1 :: t1) ++ (a2 :: t2)) = true ->
  leb (buf_t0 (cache s)) a1 = true ->
  (forall x, In x ((a1 :: t1) ++ (a2 :: t2)) -> gt_ext x tb = false) ->
  run sv fuel ((a1 :: t1) ++ (a2 :: t2)) s =
  (do r1 <- run sv fuel (a1 :: t1) ;; do r2 <- run sv fuel (a2 :: t2) ;; ret (r1 ++ r2)) s.
Proof.
  intros W O F Hs Hlo Hhi.
  destruct (sorted_app _ _ Hs) as (S1 & S2 & S12).
  assert (Hnum : Forall num ((a1 :: t1) ++ a2 :: t2)).
  { apply (sorted_num a1 (t1 ++ a2 :: t2)); auto. destruct t1; discriminate. }
  assert (Hmax : forall a t, incl (a :: t) ((a1 :: t1) ++ a2 :: t2) ->
             ext_gt (Fin (list_max a t)) tb = false).
  { intros a t I. apply Hhi. apply I. apply list_max_in. eapply incl_Forall; eauto. }
  assert (Hn0 : num (buf_t0 (cache s))) by exact (ol_num_l _ _ Hlo).
  pose proof (Hmax a1 t1 ltac:(intros x Hx; apply in_or_app; left; exact Hx)) as M1.
  pose proof (Hmax a2 t2 ltac:(intros x Hx; apply in_or_app; right; exact Hx)) as M2.
  unfold bind at 1.
  change ((a1 :: t1) ++ a2 :: t2) with (a1 :: (t1 ++ a2 :: t2)) in *.
  assert (Hlo' : ltb a1 (buf_t0 (cache s)) = false) by now apply le_nlt.
  pose proof (run_as_eval m fuelc o rhs tb fuel a1 (t1 ++ a2 :: t2) s Hs Hn0 Hlo' (Hmax _ _ (incl_refl _))) as R.
  fold sv in R. rewrite R. clear R.
  change (a1 :: t1 ++ a2 :: t2) with ((a1 :: t1) ++ a2 :: t2).
  rewrite run_eval_app by auto.
  pose proof (run_as_eval m fuelc o rhs tb fuel a1 t1 s S1 Hn0 Hlo' M1) as R.
  fold sv in R. destruct (run sv fuel (a1 :: t1) s) as [o1 s1] eqn:er. rewrite R in er.
  destruct (run_eval_ sv fuel (a1 :: t1) s) as [[v1| |] s1'] eqn:e1; inv R; auto.
  (* the second call passes its checks *)
  assert (Hlo2 : leb (buf_t0 (cache s1')) a2 = true).
  { pose proof (run_as_eval m fuelc o rhs tb fuel a1 t1 s S1 Hn0 Hlo' M1) as R.
    fold sv in R. rewrite e1 in R. apply run_end in R as (l & x & U & Sx & _); auto.
    apply sim_iff in Sx as (-> & _ & _).
    assert (Hl2 : leb (last (a1 :: t1) zero) a2 = true).
    { apply S12; [|now left]. destruct (@exists_last _ (a1 :: t1)) as (q & z & e); [discriminate|].
      rewrite e, last_snoc. apply in_or_app. right. now left. }
    eapply ol_trans; [|exact Hl2]. eapply upto_window; eauto.
    eapply ol_trans; [exact Hlo|]. destruct t1 as [|c t1]. exact (ol_num_r _ _ Hlo).
    destruct (sorted_last_ge _ a1 S1) as [K|K]; auto; [now left | discriminate]. }
  assert (Hn2 : num (buf_t0 (cache s1'))) by exact (ol_num_l _ _ Hlo2).
  unfold bind.
  pose proof (run_as_eval m fuelc o rhs tb fuel a2 t2 s1' S2 Hn2 (le_nlt _ _ Hlo2) M2) as R2.
  fold sv in R2. rewrite R2.
  destruct (run_eval_ sv fuel (a2 :: t2) s1') as [[v2| |] s2] eqn:e2; auto.
  unfold ret. f_equal. f_equal.
  destruct (le_lt_dec (length (a1 :: t1)) (length v1)) as [Hl|Hl].
  - change (combine ((a1 :: t1) ++ a2 :: t2) (v1 ++ v2) = combine (a1 :: t1) v1 ++ combine (a2 :: t2) v2).
    apply combine_app_eq. pose proof (run_eval_len _ _ _ _ _ e1). lia.
  - apply (run_eval_short _ _ (a2 :: t2)) in e1; auto. rewrite e1 in e2. inv e2.
    change (combine ((a1 :: t1) ++ a2 :: t2) (v1 ++ []) = combine (a1 :: t1) v1 ++ combine (a2 :: t2) []).
    rewrite app_nil_r, combine_nil, app_nil_r. clear - Hl.
    revert v1 Hl. generalize (a1 :: t1) as l. induction l as [|x l IH]; intros v Hl; [cbn in Hl; lia|].
    destruct v as [|y v]; auto. cbn [app combine]. f_equal. apply IH. cbn in Hl. lia.
Qed.
End A.
