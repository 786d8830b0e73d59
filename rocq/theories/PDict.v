(** CaseInsensitiveDict refines the abstract map. *)
From Coq Require Import List Arith Sorted Bool Lia.
From Verif Require Import Base MRegistry SpecDict.
Import ListNotations.

Section PDict.
Context {K V : Type} (keqb : K -> K -> bool) (lower : K -> K).
Hypothesis KE : forall a b, keqb a b = true <-> a = b.
Notation cid := (@cid K V).
Notation amap := (@amap K V).

Lemma ke_refl a : keqb a a = true.
Proof. now apply KE. Qed.
Lemma ke_false a b : keqb a b = false <-> a <> b.
Proof. split; intros H. intros e. apply KE in e. congruence. destruct (keqb a b) eqn:e; auto. apply KE in e. contradiction. Qed.
Lemma ke_sym a b : keqb a b = keqb b a.
Proof. destruct (keqb a b) eqn:e. apply KE in e. subst. symmetry. apply ke_refl. symmetry. apply ke_false. apply ke_false in e. congruence. Qed.

Fixpoint look (bs : list nat) (d : cid) (lk : K) : option (nat * K * V) :=
  match bs, d with
  | b :: bs', (k', (k, v)) :: d' => if keqb k' lk then Some (b, k, v) else look bs' d' lk
  | _, _ => None
  end.

Definition rep (d : cid) (m : amap) : Prop :=
  exists bs, length bs = length d /\ StronglySorted lt bs /\ Forall (fun b => b < clock m) bs /\
    NoDup (map fst d) /\ (forall e, In e d -> fst e = lower (fst (snd e))) /\
    forall lk, cell m lk = look bs d lk.

Lemma od_get_look lk : forall bs d, length bs = length d ->
  od_get keqb d lk = match look bs d lk with Some (_, k, v) => Some (k, v) | None => None end.
Proof.
  induction bs as [|b bs IH]; intros [|[k' [k v]] d] H; cbn in *; try lia; auto.
  destruct (keqb k' lk); auto.
Qed.
Lemma rep_get d m lk : rep d m -> od_get keqb d lk = match cell m lk with Some (_, k, v) => Some (k, v) | None => None end.
Proof. intros (bs & L & _ & _ & _ & _ & C). now rewrite C, (od_get_look lk bs d L). Qed.

Lemma rep_blank : rep [] (blank).
Proof. exists []. repeat split; cbn; auto; try constructor. intros e []. Qed.

(** look and membership *)
Lemma look_none d lk : forall bs, length bs = length d -> look bs d lk = None <-> ~ In lk (map fst d).
Proof.
  induction d as [|[k' [k v]] d IH]; intros [|b bs] L; cbn in *; try lia.
  - tauto.
  - destruct (keqb k' lk) eqn:e.
    + apply KE in e. split; [discriminate|]. intros H. exfalso. apply H. auto.
    + apply ke_false in e. rewrite IH by lia. intuition.
Qed.

Lemma set_new (d : cid) lk k v : ~ In lk (map fst d) -> od_set keqb d lk (k, v) = d ++ [(lk, (k, v))].
Proof.
  induction d as [|[k' kv] d IH]; intros H; cbn in *; auto.
  rewrite (proj2 (ke_false k' lk)) by intuition. now rewrite IH by intuition.
Qed.
Lemma look_app lk0 k v lk b : forall d bs, length bs = length d -> ~ In lk0 (map fst d) ->
  look (bs ++ [b]) (d ++ [(lk0, (k, v))]) lk = if keqb lk lk0 then Some (b, k, v) else look bs d lk.
Proof.
  induction d as [|[k' [k1 v1]] d IH]; intros [|b1 bs] L H; cbn in *; try lia.
  - rewrite ke_sym. destruct (keqb lk lk0); auto.
  - destruct (keqb k' lk) eqn:e.
    + apply KE in e. subst. rewrite (proj2 (ke_false lk lk0)); auto.
    + rewrite IH by (auto; lia). auto.
Qed.
Lemma set_old_keys (d : cid) lk kv : In lk (map fst d) -> map fst (od_set keqb d lk kv) = map fst d.
Proof.
  induction d as [|[k' kv'] d IH]; intros H; cbn in *; [tauto|].
  destruct (keqb k' lk) eqn:e; cbn; auto. apply ke_false in e. rewrite IH by intuition. auto.
Qed.
Lemma look_set_old lk0 k v lk : forall d bs, length bs = length d -> NoDup (map fst d) -> In lk0 (map fst d) ->
  look bs (od_set keqb d lk0 (k, v)) lk =
    if keqb lk lk0 then match look bs d lk with Some (b, _, _) => Some (b, k, v) | None => None end else look bs d lk.
Proof.
  induction d as [|[k' [k1 v1]] d IH]; intros [|b1 bs] L N H; cbn in L, N, H; try lia; try tauto. cbn [od_set look]. inversion N; subst.
  destruct (keqb k' lk0) eqn:e0; cbn.
  - apply KE in e0. subst k'. rewrite (ke_sym lk lk0). destruct (keqb lk0 lk); auto.
  - destruct (keqb k' lk) eqn:e.
    + apply KE in e. subst k'. now rewrite e0.
    + apply IH; auto. apply ke_false in e0. intuition.
Qed.
Lemma set_length (d : cid) lk kv : In lk (map fst d) -> length (od_set keqb d lk kv) = length d.
Proof. intros H. rewrite <- (map_length fst), (set_old_keys _ _ _ H). apply map_length. Qed.
Lemma set_in (d : cid) lk kv e : In e (od_set keqb d lk kv) -> In e d \/ e = (lk, kv).
Proof.
  induction d as [|[k' kv'] d IH]; cbn; [intuition|]. destruct (keqb k' lk) eqn:e0; cbn; intros [H|H]; auto.
  - apply KE in e0. subst. auto.
  - apply IH in H. tauto.
Qed.

Lemma sorted_app_last bs b : StronglySorted lt bs -> Forall (fun x => x < b) bs -> StronglySorted lt (bs ++ [b]).
Proof.
  induction 1 as [|x l S IH F]; intros H; cbn; [repeat constructor|]. inversion H; subst. constructor; auto.
  apply Forall_app. split; auto.
Qed.

Lemma rep_write d m k v : rep d m -> rep (cid_set keqb lower d k v) (write keqb lower m k v).
Proof.
  intros (bs & L & S & F & N & I & C). unfold cid_set.
  assert (In (lower k) (map fst d) \/ ~ In (lower k) (map fst d)) as [H|H].
  { destruct (look bs d (lower k)) eqn:e. left. { destruct (in_dec (fun a b => match bool_dec (keqb a b) true with
       | left h => left (proj1 (KE a b) h) | right h => right (fun c => h (proj2 (KE a b) c)) end) (lower k) (map fst d)); auto.
      apply (look_none d (lower k) bs L) in n. congruence. }
    right. now apply (look_none d (lower k) bs L). }
  - exists bs. repeat split; auto.
    + now rewrite set_length.
    + cbn. eapply Forall_impl; [|exact F]. intros; cbn in *; lia.
    + now rewrite set_old_keys.
    + intros e He. apply set_in in He as [He| ->]; auto.
    + intros lk. cbn [write cell]. rewrite (look_set_old _ _ _ _ d bs L N H), C.
      destruct (keqb lk (lower k)) eqn:e; auto. apply KE in e. subst lk.
      destruct (look bs d (lower k)) as [[[b ?] ?]|] eqn:e2; auto.
      apply (look_none d (lower k) bs L) in e2. contradiction.
  - rewrite set_new by auto. exists (bs ++ [clock m]). repeat split.
    + rewrite !app_length. cbn. lia.
    + apply sorted_app_last; auto.
    + cbn. apply Forall_app. split; [|repeat constructor]. eapply Forall_impl; [|exact F]. intros; cbn in *; lia.
    + rewrite map_app. cbn. apply NoDup_rev in N. rewrite <- (rev_involutive (map fst d ++ [lower k])). apply NoDup_rev.
      rewrite rev_app_distr. cbn. constructor; auto. now rewrite <- in_rev.
    + intros e He. apply in_app_or in He as [He|[<-|[]]]; auto.
    + intros lk. cbn [write cell]. rewrite (look_app _ _ _ _ _ d bs L H), C.
      destruct (keqb lk (lower k)) eqn:e; auto. apply KE in e. subst lk.
      rewrite (proj2 (look_none d (lower k) bs L) H). auto.
Qed.

(** removal of one key together with its birth *)
Fixpoint del_b (bs : list nat) (d : cid) (lk : K) : list nat :=
  match bs, d with
  | b :: bs', (k', _) :: d' => if keqb k' lk then bs' else b :: del_b bs' d' lk
  | _, _ => bs
  end.
Lemma del_facts lk0 : forall d bs, length bs = length d -> NoDup (map fst d) ->
  length (del_b bs d lk0) = length (od_del keqb d lk0) /\
  (forall x, In x (del_b bs d lk0) -> In x bs) /\
  (forall e, In e (od_del keqb d lk0) -> In e d) /\
  (StronglySorted lt bs -> StronglySorted lt (del_b bs d lk0)) /\
  NoDup (map fst (od_del keqb d lk0)) /\
  (forall lk, look (del_b bs d lk0) (od_del keqb d lk0) lk = if keqb lk lk0 then None else look bs d lk).
Proof.
  induction d as [|[k' [k1 v1]] d IH]; intros [|b1 bs] L N; cbn in *; try lia.
  - repeat split; auto. intros lk. now destruct (keqb lk lk0).
  - inversion N; subst. destruct (IH bs) as (I1 & I2 & I3 & I4 & I5 & I6); [lia|auto|].
    destruct (keqb k' lk0) eqn:e; cbn.
    + apply KE in e. subst k'. repeat split; auto; try lia.
      * intros S. now inversion S.
      * intros lk. rewrite (ke_sym lk lk0). destruct (keqb lk0 lk) eqn:e; auto. apply KE in e. subst lk.
        apply look_none; auto; lia.
    + repeat split; auto; try lia.
      * intros x [->|H]; auto.
      * intros x [->|H]; auto.
      * intros S. inversion S; subst. constructor; auto. apply Forall_forall. intros x Hx.
        apply (proj1 (Forall_forall _ _) H4). auto.
      * constructor; auto. intros H. apply H1. apply in_map_iff in H as (x & <- & Hx). apply in_map. auto.
      * intros lk. destruct (keqb k' lk) eqn:e2; [|apply I6]. apply KE in e2. subst. now rewrite e.
Qed.
Lemma rep_erase d m lk : rep d m -> rep (od_del keqb d lk) (erase keqb m lk).
Proof.
  intros (bs & L & S & F & N & I & C). destruct (del_facts lk d bs L N) as (I1 & I2 & I3 & I4 & I5 & I6).
  exists (del_b bs d lk). repeat split; auto.
  - apply Forall_forall. intros x Hx. apply (proj1 (Forall_forall _ _) F). auto.
  - intros x. cbn. rewrite I6, C. reflexivity.
Qed.

Lemma rep_first k' kv d m : rep ((k', kv) :: d) m -> exists b,
  cell m k' = Some (b, fst kv, snd kv) /\ k' = lower (fst kv) /\
  forall lk' b' k2 v', cell m lk' = Some (b', k2, v') -> b <= b'.
Proof.
  intros (bs & L & S & F & N & I & C). destruct bs as [|b bs]; [cbn in L; lia|]. destruct kv as [k v].
  exists b. split; [|split].
  - rewrite C. cbn. now rewrite ke_refl.
  - apply (I (k', (k, v))). now left.
  - intros lk' b' k2 v' H. rewrite C in H. cbn in H. destruct (keqb k' lk'); [injection H as <- <- <-; lia|].
    inversion S; subst.
    assert (IN : forall bs d, look bs d lk' = Some (b', k2, v') -> In b' bs).
    { clear. induction bs as [|x bs IH]; intros [|[? [? ?]] d] H; cbn in *; try discriminate.
      destruct (keqb k lk'); [injection H as <- <- <-; auto|eauto]. }
    apply IN in H. apply (proj1 (Forall_forall _ _) H3) in H. lia.
Qed.

Lemma popitem_rep d m : rep d m ->
  match d with
  | [] => cid_popitem keqb lower d = (Raise KeyError, []) /\ (forall lk, cell m lk = None)
  | (k', (k, v)) :: d' => cid_popitem keqb lower d = (Ret (k, v), d') /\ rep d' (erase keqb m k') /\
      exists b, cell m k' = Some (b, k, v) /\ forall lk' b' k2 v', cell m lk' = Some (b', k2, v') -> b <= b'
  end.
Proof.
  intros R. destruct d as [|[k' [k v]] d'].
  - split; auto. intros lk. destruct R as (bs & L & _ & _ & _ & _ & C). destruct bs; [|discriminate]. now rewrite C.
  - destruct (rep_first _ _ _ _ R) as (b & H1 & H2 & H3). cbn in H1, H2. unfold cid_popitem. cbn [cid_keys map fst snd].
    unfold cid_get, cid_del. cbn [od_get od_del]. rewrite <- H2, ke_refl. split; auto. split; eauto.
    pose proof (rep_erase _ _ k' R) as RE. cbn in RE. now rewrite ke_refl in RE.
Qed.

Lemma clear_rep : forall n d m, rep d m -> length d <= n -> cid_clear keqb lower (S n) d = [].
Proof.
  induction n as [|n IH]; intros d m R L; pose proof (popitem_rep d m R) as P.
  - destruct d; [|cbn in L; lia]. cbn. reflexivity.
  - destruct d as [|[k' [k v]] d'].
    + cbn. reflexivity.
    + destruct P as (P & RE & _). change (cid_clear keqb lower (S (S n)) ((k', (k, v)) :: d')) with
        (match cid_popitem keqb lower ((k', (k, v)) :: d') with (Ret _, x) => cid_clear keqb lower (S n) x | _ => (k', (k, v)) :: d' end).
      rewrite P. eapply IH; eauto. cbn in L. lia.
Qed.

Lemma perform_ok o d m : rep d m -> exists m', sem keqb lower o m (fst (perform keqb lower o d)) m' /\
  rep (snd (perform keqb lower o d)) m'.
Proof.
  intros R. destruct o as [k v|k|k|k|k| | |k v|l]; cbn [perform].
  - exists (write keqb lower m k v). split. constructor. now apply rep_write.
  - unfold cid_del. rewrite (rep_get d m _ R). destruct (cell m (lower k)) as [[[b k'] v']|] eqn:e; cbn.
    + exists (erase keqb m (lower k)). split. econstructor; eauto. now apply rep_erase.
    + exists m. split; auto. now constructor.
  - unfold cid_get. rewrite (rep_get d m _ R). exists m. split; auto.
    destruct (cell m (lower k)) as [[[b k'] v']|] eqn:e; cbn; econstructor; eauto.
  - unfold cid_mem, cid_get. rewrite (rep_get d m _ R). exists m. split; auto.
    destruct (cell m (lower k)) as [[[b k'] v']|] eqn:e; cbn; econstructor; eauto.
  - unfold cid_pop, cid_del, cid_get. rewrite (rep_get d m _ R).
    destruct (cell m (lower k)) as [[[b k'] v']|] eqn:e; cbn.
    + exists (erase keqb m (lower k)). split. econstructor; eauto. now apply rep_erase.
    + exists m. split; auto. now constructor.
  - pose proof (popitem_rep d m R) as P. destruct d as [|[k' [k v]] d'].
    + destruct P as (-> & P). exists m. split; auto. now constructor.
    + destruct P as (-> & RE & b & P1 & P2). exists (erase keqb m k'). split; auto. cbn. econstructor; eauto.
  - exists (blank). split. now constructor. cbn [fst snd]. unfold cid_len. rewrite (clear_rep (length d) d m); auto. apply rep_blank.
  - unfold cid_setdefault, cid_get. rewrite (rep_get d m _ R).
    destruct (cell m (lower k)) as [[[b k'] v']|] eqn:e; cbn.
    + exists m. split; auto. econstructor; eauto.
    + exists (write keqb lower m k v). split. now constructor. now apply rep_write.
  - exists (fold_left (fun m p => write keqb lower m (fst p) (snd p)) l m). split. constructor. cbn [snd]. unfold cid_update.
    revert d m R. induction l as [|p l IH]; intros d m R; cbn; auto. apply IH. now apply rep_write.
Qed.

Lemma look_nth bs : forall d i b k v, NoDup (map fst d) -> nth_error bs i = Some b -> nth_error (map snd d) i = Some (k, v) ->
  exists lk, nth_error (map fst d) i = Some lk /\ look bs d lk = Some (b, k, v).
Proof.
  induction bs as [|b0 bs IH]; intros [|[k' [k1 v1]] d] [|i] b k v N H1 H2; cbn in *; try discriminate.
  - injection H1 as <-. injection H2 as <- <-. exists k'. split; auto. now rewrite ke_refl.
  - inversion N; subst. destruct (IH d i b k v H4 H1 H2) as (lk & E1 & E2). exists lk. split; auto.
    rewrite (proj2 (ke_false k' lk)); auto. intros ->. apply H3. eapply nth_error_In; eauto.
Qed.

Lemma rep_lists d m : rep d m -> lists lower (cid_items d) m.
Proof.
  intros (bs & L & S & F & N & I & C). exists bs. unfold cid_items. rewrite map_length. repeat split; auto.
  - intros i k v H. destruct (nth_error bs i) as [b|] eqn:eb.
    + destruct (look_nth bs d i b k v N eb H) as (lk & E1 & E2). exists b. split; auto. rewrite C.
      replace (lower k) with lk; auto. rewrite nth_error_map in E1, H. destruct (nth_error d i) as [e|] eqn:ee; [|discriminate].
      injection E1 as <-. injection H as H. apply nth_error_In in ee. rewrite (I _ ee), H. reflexivity.
    + apply nth_error_None in eb. assert (nth_error (map snd d) i <> None) by congruence.
      apply nth_error_Some in H0. rewrite map_length in H0. lia.
  - rewrite C in H. clear - H I KE L.
    assert (In (lk, (k, v)) d). { revert d L I H. induction bs as [|x bs IH]; intros [|[? [? ?]] d] L I H; cbn in *; try discriminate.
      destruct (keqb k0 lk) eqn:e; [apply KE in e; injection H as <- <- <-; subst; auto|]. right. eapply IH; eauto. }
    apply (I _ H0).
  - rewrite C in H. clear - H L KE.
    assert (In (lk, (k, v)) d). { revert d L H. induction bs as [|x bs IH]; intros [|[? [? ?]] d] L H; cbn in *; try discriminate.
      destruct (keqb k0 lk) eqn:e; [apply KE in e; injection H as <- <- <-; subst; auto|]. right. eapply IH; eauto. }
    apply (in_map snd) in H0. exact H0.
Qed.

Lemma perform_all_ok (os : list (@op K V)) : forall d m, rep d m -> exists m', sem_all keqb lower os m (fst (perform_all keqb lower os d)) m' /\
  rep (snd (perform_all keqb lower os d)) m'.
Proof.
  induction os as [|o os IH]; intros d m R; cbn [perform_all].
  - exists m. split; auto. constructor.
  - destruct (perform_ok o d m R) as (m1 & S1 & R1). destruct (perform keqb lower o d) as [r d1]. cbn [fst snd] in *.
    destruct (IH d1 m1 R1) as (m2 & S2 & R2). destruct (perform_all keqb lower os d1) as [rs d2]. cbn [fst snd] in *.
    exists m2. split; auto. econstructor; eauto.
Qed.

Lemma C51_lemma (os : list (@op K V)) : exists m, sem_all keqb lower os blank (fst (perform_all keqb lower os [])) m /\
  let d := snd (perform_all keqb lower os []) in
  lists lower (cid_items d) m /\ cid_keys d = map fst (cid_items d) /\ cid_len d = length (cid_items d) /\
  forall k, cid_get keqb lower d k = match cell m (lower k) with Some (_, _, v) => @Ret V v | None => Raise KeyError end.
Proof.
  destruct (perform_all_ok os [] blank rep_blank) as (m & S & R). exists m. split; auto.
  cbv zeta. split; [now apply rep_lists|]. split; [|split].
  - unfold cid_keys, cid_items. now rewrite map_map.
  - unfold cid_len, cid_items. now rewrite map_length.
  - intros k. unfold cid_get. rewrite (rep_get _ _ _ R). destruct (cell m (lower k)) as [[[? ?] ?]|]; auto.
Qed.

(** ** equality and copy *)
(** the dictionaries a client can have *)
Lemma reached_rep d : reached keqb lower d -> exists m, rep d m.
Proof. intros (os & ->). destruct (perform_all_ok os [] blank rep_blank) as (m & _ & R). eauto. Qed.

Lemma cid_of_rep l : exists m, rep (cid_of keqb lower l) m.
Proof.
  unfold cid_of. generalize rep_blank. generalize (@blank K V) as m. generalize ([] : cid) as d.
  induction l as [|p l IH]; intros d m R; cbn; eauto using rep_write.
Qed.
Lemma copy_same (d : cid) m : rep d m -> cid_of keqb lower (cid_items d) = d.
Proof.
  intros (bs & _ & _ & _ & N & I & _). unfold cid_of, cid_items.
  enough (G : forall d0, NoDup (map fst (d0 ++ d)) -> fold_left (fun x p => cid_set keqb lower x (fst p) (snd p)) (map snd d) d0 = d0 ++ d)
    by apply (G [] N). clear N bs.
  induction d as [|[lk [k v]] d IH]; intros d0 N; cbn [map snd fold_left fst].
  - now rewrite app_nil_r.
  - assert (Hlk : lk = lower k) by (apply (I (lk, (k, v))); now left).
    rewrite map_app in N. cbn in N. pose proof (NoDup_remove_2 _ _ _ N) as N2.
    unfold cid_set. rewrite <- Hlk, set_new by (intros c; apply N2; apply in_or_app; auto).
    rewrite IH.
    + now rewrite <- app_assoc.
    + intros e He. apply I. now right.
    + rewrite <- app_assoc. cbn. rewrite map_app. cbn. exact N.
Qed.

Lemma pd_get_acc (l : list (K * V)) k : forall acc, NoDup (map fst l) ->
  fold_left (fun acc p => if keqb (fst p) k then Some (snd p) else acc) l acc =
  match fold_right (fun p r => if keqb (fst p) k then Some (snd p) else r) None l with Some x => Some x | None => acc end.
Proof.
  induction l as [|[a v] l IH]; intros acc N; cbn; auto. inversion N; subst. rewrite IH by auto.
  destruct (keqb a k) eqn:e; auto. apply KE in e. subst a.
  replace (fold_right (fun p r => if keqb (fst p) k then Some (snd p) else r) None l) with (@None V); auto.
  symmetry. clear -H1 KE. induction l as [|[b w] l IH]; cbn in *; auto. rewrite (proj2 (ke_false b k)) by intuition. apply IH. tauto.
Qed.
Lemma pd_get_od (d : cid) k : NoDup (map fst d) ->
  pd_get keqb (cid_lower_items d) k = match od_get keqb d k with Some (_, v) => Some v | None => None end.
Proof.
  intros N. unfold pd_get. rewrite pd_get_acc.
  - induction d as [|[a [s v]] d IH]; cbn; auto. destruct (keqb a k); auto. inversion N; subst.
    specialize (IH H2). unfold cid_lower_items in IH. rewrite <- IH. now destruct (fold_right _ None (map _ d)).
  - unfold cid_lower_items. rewrite map_map. exact N.
Qed.
Lemma od_get_in (d : cid) k : od_get keqb d k <> None <-> In k (map fst d).
Proof.
  induction d as [|[a kv] d IH]; cbn; [tauto|]. destruct (keqb a k) eqn:e.
  - apply KE in e. split; [auto|discriminate].
  - rewrite IH. apply ke_false in e. intuition.
Qed.

Variable veqb : V -> V -> bool.
Hypothesis VE : forall a b, veqb a b = true <-> a = b.
(** [d1 == d2], d2 being seen through its items *)
Lemma pd_sub (a b : cid) : NoDup (map fst a) -> NoDup (map fst b) ->
  forallb (fun p => match pd_get keqb (cid_lower_items a) (fst p), pd_get keqb (cid_lower_items b) (fst p) with
     | Some u, Some v => veqb u v | _, _ => false end) (cid_lower_items a) = true <->
  forall k s v, od_get keqb a k = Some (s, v) -> exists s', od_get keqb b k = Some (s', v).
Proof.
  intros Na Nb. rewrite forallb_forall. split.
  - intros H k s v Hk. assert (IN : In (k, v) (cid_lower_items a)).
    { clear H. revert Hk. unfold cid_lower_items. induction a as [|[a1 [s1 v1]] a IH]; cbn; [discriminate|].
      destruct (keqb a1 k) eqn:e. apply KE in e. intros H. injection H as -> ->. subst. auto.
      intros H. right. apply IH; auto. now inversion Na. }
    specialize (H _ IN). cbn [fst] in H. rewrite !pd_get_od in H by auto. rewrite Hk in H.
    destruct (od_get keqb b k) as [[s' v']|]; [|discriminate]. apply VE in H. subst. eauto.
  - intros H [k v] IN. cbn [fst]. rewrite !pd_get_od by auto.
    destruct (od_get keqb a k) as [[s' v']|] eqn:e.
    + destruct (H _ _ _ e) as (s2 & ->). now apply VE.
    + exfalso. apply (proj2 (od_get_in a k)); auto. unfold cid_lower_items in IN. apply in_map_iff in IN as (x & E & IN).
      injection E as <- _. now apply in_map.
Qed.

Lemma cid_eq_iff d1 d2 m1 m2 : rep d1 m1 -> rep d2 m2 ->
  cid_eq keqb lower veqb d1 (cid_items d2) = true <-> forall k, cid_get keqb lower d1 k = cid_get keqb lower d2 k.
Proof.
  intros R1 R2. unfold cid_eq, pd_eqb. rewrite (copy_same d2 m2 R2). rewrite andb_true_iff.
  assert (N1 : NoDup (map fst d1)) by (destruct R1 as (? & _ & _ & _ & ? & _); auto).
  assert (N2 : NoDup (map fst d2)) by (destruct R2 as (? & _ & _ & _ & ? & _); auto).
  rewrite !pd_sub by auto.
  assert (LK : forall d m lk s v, rep d m -> od_get keqb d lk = Some (s, v) -> lk = lower s).
  { intros d m lk s v R H. rewrite (rep_get d m _ R) in H. destruct (cell m lk) as [[[b k] v']|] eqn:e; [|discriminate].
    injection H as -> ->. destruct (rep_lists _ _ R) as (bs & _ & _ & _ & L). apply L in e. tauto. }
  unfold cid_get. split.
  - intros (H1 & H2) k. destruct (od_get keqb d1 (lower k)) as [[s v]|] eqn:e1.
    + destruct (H1 _ _ _ e1) as (s' & ->). auto.
    + destruct (od_get keqb d2 (lower k)) as [[s v]|] eqn:e2; auto. destruct (H2 _ _ _ e2) as (s' & e). congruence.
  - intros H. split; intros lk s v e.
    + pose proof (LK _ _ _ _ _ R1 e) as ->. specialize (H s). rewrite e in H.
      destruct (od_get keqb d2 (lower s)) as [[s' v']|]; [|discriminate]. injection H as ->. eauto.
    + pose proof (LK _ _ _ _ _ R2 e) as ->. specialize (H s). rewrite e in H.
      destruct (od_get keqb d1 (lower s)) as [[s' v']|]; [|discriminate]. injection H as ->. eauto.
Qed.

Lemma C52_eq d1 d2 : reached keqb lower d1 -> reached keqb lower d2 ->
  cid_eq keqb lower veqb d1 (cid_items d2) = true <-> forall k, cid_get keqb lower d1 k = cid_get keqb lower d2 k.
Proof. intros H1 H2. apply reached_rep in H1 as (m1 & R1), H2 as (m2 & R2). eapply cid_eq_iff; eauto. Qed.
Lemma C52_equiv : (forall d, reached keqb lower d -> cid_eq keqb lower veqb d (cid_items d) = true) /\
  (forall d1 d2, reached keqb lower d1 -> reached keqb lower d2 -> cid_eq keqb lower veqb d1 (cid_items d2) = cid_eq keqb lower veqb d2 (cid_items d1)) /\
  (forall d1 d2 d3, reached keqb lower d1 -> reached keqb lower d2 -> reached keqb lower d3 -> cid_eq keqb lower veqb d1 (cid_items d2) = true ->
     cid_eq keqb lower veqb d2 (cid_items d3) = true -> cid_eq keqb lower veqb d1 (cid_items d3) = true).
Proof.
  split; [|split].
  - intros d H. apply C52_eq; auto.
  - intros d1 d2 H1 H2. apply eq_true_iff_eq. rewrite !C52_eq by auto. split; auto.
  - intros d1 d2 d3 H1 H2 H3. rewrite !C52_eq by auto. intros A B k. now rewrite A.
Qed.
Lemma C52_copy d : reached keqb lower d -> reached keqb lower (cid_copy keqb lower d) /\
  cid_items (cid_copy keqb lower d) = cid_items d /\
  (forall k, cid_get keqb lower (cid_copy keqb lower d) k = cid_get keqb lower d k) /\
  cid_eq keqb lower veqb (cid_copy keqb lower d) (cid_items d) = true.
Proof.
  intros H. pose proof H as H'. apply reached_rep in H' as (m & R).
  assert (E : cid_copy keqb lower d = d) by exact (copy_same d m R). rewrite E. repeat split; auto. now apply C52_eq.
Qed.
End PDict.
