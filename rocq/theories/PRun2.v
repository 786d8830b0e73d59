(** run: order of requests, splitting, sampling, rejected requests. *)
From Coq Require Import List ZArith Bool Arith Lia Permutation.
From Verif Require Import Base Scalar Vec MBuffer MZeros MSteps MApi MClasses Laws Spec SpecInst
  PStep PKeeps PCore PHist PRun.
Import ListNotations.

Section Perm.
Context {OT : Ops} {E : Env}.

(** fancy indexing is map nth when indices are in range *)
Lemma fancy_spec {A} (l : list A) idx r : fancy l idx = Ret r ->
  length r = length idx /\ forall i k, nth_error idx i = Some k -> nth_error r i = nth_error l k.
Proof.
  unfold fancy. revert r; induction idx as [|k idx IH]; intros r H; cbn in H.
  - inv H. split; auto. intros [|] ? h; discriminate.
  - destruct (nth_error l k) eqn:e; try discriminate. cbn in H.
    destruct (omapM _ idx) as [r'| |] eqn:er; try discriminate. inv H.
    destruct (IH r' eq_refl) as (A1 & A2). split; cbn; auto. intros [|i] k' h; cbn in *.
    + inv h. congruence.
    + auto.
Qed.
Lemma fancy_total {A} (l : list A) idx : Forall (fun k => k < length l) idx -> exists r, fancy l idx = Ret r.
Proof.
  unfold fancy. induction 1 as [|k idx Hk _ IH]; cbn; eauto.
  destruct (nth_error l k) eqn:e; [|apply nth_error_None in e; lia]. destruct IH as (r & ->). cbn; eauto.
Qed.
Lemma fancy_ext {A} (l : list A) idx r r' :
  length r = length idx -> (forall i k, nth_error idx i = Some k -> nth_error r i = nth_error l k /\ k < length l) ->
  fancy l idx = Ret r' -> r = r'.
Proof.
  intros Hl H Hf. apply fancy_spec in Hf as (A1 & A2).
  revert r r' Hl H A1 A2. induction idx as [|k idx IH]; intros r r' Hl H A1 A2.
  - destruct r, r'; cbn in *; try lia; auto.
  - destruct r as [|x r], r' as [|x' r']; cbn in *; try lia. f_equal.
    + destruct (H 0 k eq_refl) as (B & _). specialize (A2 0 k eq_refl). cbn in *. congruence.
    + apply IH; auto. intros i k' h. apply (H (S i) k' h). intros i k' h. apply (A2 (S i) k' h).
Qed.

Lemma perm_range idx n : Permutation idx (seq 0 n) -> Forall (fun k => k < n) idx.
Proof.
  intros H. apply Forall_forall. intros k Hk. eapply Permutation_in in Hk; eauto. apply in_seq in Hk. lia.
Qed.

Lemma nth_map_seq {B} (f : nat -> B) n i d : i < n -> nth i (map f (seq 0 n)) d = f i.
Proof.
  intros Hi. apply nth_error_nth. rewrite nth_error_map.
  rewrite (nth_error_nth' (seq 0 n) 0) by (now rewrite seq_length). rewrite seq_nth by auto. reflexivity.
Qed.

Lemma inv_perm_spec idx n : Permutation idx (seq 0 n) ->
  length (inv_perm idx) = n /\
  forall i, i < n -> nth i (inv_perm idx) 0 < n /\ nth (nth i (inv_perm idx) 0) idx 0 = i.
Proof.
  intros H. assert (Hl : length idx = n). { rewrite (Permutation_length H). apply seq_length. }
  unfold inv_perm. rewrite map_length, seq_length. split; auto. intros i Hi. rewrite Hl.
  rewrite nth_map_seq by auto.
  destruct (find (fun j => Nat.eqb (nth j idx 0) i) (seq 0 n)) eqn:ef.
  - apply find_some in ef as (A & B). apply in_seq in A. apply Nat.eqb_eq in B. split; auto. lia.
  - exfalso. assert (Hin : In i idx). { eapply Permutation_in. symmetry; exact H. apply in_seq. lia. }
    apply (In_nth _ _ 0) in Hin as (j & Hj & Hij).
    pose proof (find_none _ _ ef j) as K. cbn in K. rewrite Hij, Nat.eqb_refl in K.
    assert (true = false) by (apply K, in_seq; lia). discriminate.
Qed.

Lemma inv_perm_perm idx n : Permutation idx (seq 0 n) -> Permutation (inv_perm idx) (seq 0 n).
Proof.
  intros H. destruct (inv_perm_spec idx n H) as (Hl & Hs).
  apply NoDup_Permutation_bis.
  - apply (NoDup_nth _ 0). rewrite Hl. intros i j Hi Hj e.
    destruct (Hs i Hi) as (_ & A). destruct (Hs j Hj) as (_ & B). congruence.
  - rewrite seq_length. lia.
  - intros k Hk. apply (In_nth _ _ 0) in Hk as (i & Hi & <-). rewrite Hl in Hi.
    apply in_seq. destruct (Hs i Hi). lia.
Qed.

(** [rows[inv_perm idx]] puts row i of the sorted list at place idx[i] *)
Lemma unsort {A} (idx : list nat) (rows r : list A) n :
  Permutation idx (seq 0 n) -> length rows = n -> fancy rows (inv_perm idx) = Ret r ->
  length r = n /\ forall i k, nth_error idx i = Some k -> nth_error r k = nth_error rows i.
Proof.
  intros H Hr Hf. destruct (inv_perm_spec idx n H) as (Hl & Hs).
  pose proof (fancy_spec _ _ _ Hf) as (A1 & A2). split; [congruence|].
  intros i k Hk.
  assert (Hkn : k < n). { pose proof (perm_range _ _ H) as R. rewrite Forall_forall in R. apply R. eapply nth_error_In; eauto. }
  destruct (Hs k Hkn) as (B1 & B2).
  assert (Hj : nth_error (inv_perm idx) k = Some (nth k (inv_perm idx) 0)).
  { apply nth_error_nth'. lia. }
  rewrite (A2 _ _ Hj). f_equal.
  assert (ND : NoDup idx). { eapply Permutation_NoDup. symmetry; exact H. apply seq_NoDup. }
  assert (Hil : length idx = n). { rewrite (Permutation_length H). apply seq_length. }
  eapply (proj1 (NoDup_nth idx 0)); auto. lia. apply nth_error_Some. congruence.
  rewrite B2. symmetry. now apply nth_error_nth.
Qed.
End Perm.

Section Run2.
Context {OT : Ops} {L : OrdLaws OT} {E : Env}.
Variable m : meth.
Variables (fuelc : nat) (o : options) (rhs : rhs_t) (tb : ext).
Let sv := solver_of m fuelc o rhs tb.

(** unsorted requests are run on the rearranged list *)
Lemma run_unsorted fuel t t' s : is_sorted t = false -> argsorts t t' ->
  run sv fuel t s =
  match run sv fuel t' s with
  | (Ret rows, s') => (fancy rows (inv_perm (np_argsort t)), s')
  | (Raise e, s') => (Raise e, s')
  | (Loop, s') => (Loop, s')
  end.
Proof.
  intros Hn (Hp & Hf & Hs).
  destruct t' as [|ta tr].
  { apply fancy_spec in Hf as (A & _). apply Permutation_length in Hp. rewrite seq_length in Hp.
    destruct t; [discriminate|]. cbn in *. lia. }
  unfold run at 1. unfold run_events. cbv zeta. rewrite Hn. unfold bind at 1. unfold bind at 1. unfold lift at 1. rewrite Hf.
  pose proof (run_sorted_eq m fuelc o rhs tb fuel ta tr s Hs) as K. fold sv in K. rewrite K. clear K.
  unfold now. destruct (ltb ta (buf_t0 (cache s))) eqn:e1; [reflexivity|].
  unfold bind at 1. unfold check_time. change (s_bound sv) with tb.
  destruct (ext_gt (Fin (list_max ta tr)) tb); [reflexivity|]. unfold ret at 1.
  unfold bind at 1. cbv zeta.
  match goal with |- context [mapM ?f ?l s] => destruct (mapM f l s) as [[yold| |] s1] end; auto.
  unfold bind.
  match goal with |- context [run_eval_ sv fuel ?l s1] => destruct (run_eval_ sv fuel l s1) as [[vs| |] s2] end; auto.
  unfold ret. rewrite andb_false_r. cbn [rr_rows rr_tev rr_yev]. unfold lift.
  match goal with |- context [fancy ?a ?b] => destruct (fancy a b) end; reflexivity.
Qed.

Lemma run_complete_times fuel t s rows s' : is_sorted t = true -> run sv fuel t s = (Ret rows, s') ->
  length rows = length t -> map fst rows = t.
Proof.
  intros Hs H Hl. apply C13_lemma in H as (s1 & A & _); auto. rewrite A, Hl, firstn_all. reflexivity.
Qed.

Lemma nth_error_ext {A} (l l' : list A) : (forall i, nth_error l i = nth_error l' i) -> l = l'.
Proof.
  revert l'; induction l as [|a l IH]; intros [|b l'] H; auto.
  - specialize (H 0). discriminate.
  - specialize (H 0). discriminate.
  - f_equal. specialize (H 0). cbn in H. congruence. apply IH. intros i. apply (H (S i)).
Qed.

(** all requested times answered: the rows come in the order of the request *)
Lemma C15_rows fuel t t' s rows' s' : is_sorted t = false -> argsorts t t' ->
  run sv fuel t' s = (Ret rows', s') -> length rows' = length t ->
  exists rows, run sv fuel t s = (Ret rows, s') /\ map fst rows = t /\ Permutation rows rows' /\
    forall i k, nth_error (np_argsort t) i = Some k -> nth_error rows k = nth_error rows' i.
Proof.
  intros Hn Ha Hr Hl. pose proof Ha as (Hp & Hf & Hs).
  rewrite (run_unsorted fuel t t' s Hn Ha), Hr.
  assert (Hi : Forall (fun k => k < length rows') (inv_perm (np_argsort t))).
  { apply (perm_range _ (length rows')). rewrite Hl. now apply inv_perm_perm. }
  destruct (fancy_total rows' _ Hi) as (rows & Hrows). exists rows. rewrite Hrows.
  destruct (unsort (np_argsort t) rows' rows (length t) Hp Hl Hrows) as (U1 & U2).
  split; [reflexivity|]. split; [|split].
  - pose proof (fancy_spec _ _ _ Hf) as (F1 & F2).
    assert (Lidx : length (np_argsort t) = length t) by (rewrite (Permutation_length Hp); apply seq_length).
    assert (Ht' : map fst rows' = t').
    { eapply run_complete_times; eauto. rewrite F1, Lidx. exact Hl. }
    apply nth_error_ext. intros k. destruct (lt_dec k (length t)) as [Hk|Hk].
    + assert (Hin : In k (np_argsort t)). { eapply Permutation_in. symmetry; exact Hp. apply in_seq; lia. }
      apply In_nth_error in Hin as (i & Hi').
      rewrite nth_error_map, (U2 i k Hi'), <- nth_error_map, Ht'. apply F2. auto.
    + transitivity (@None T); [|symmetry]; apply nth_error_None. rewrite map_length, U1. lia. lia.
  - (* a permutation: rows = map (nth _ rows') (inv_perm ..) *)
    destruct rows' as [|d rows']. { destruct rows; [constructor|]. cbn in *; lia. }
    set (R := d :: rows') in *.
    assert (E1 : rows = map (fun i => nth i R d) (inv_perm (np_argsort t))).
    { pose proof (fancy_spec _ _ _ Hrows) as (G1 & G2). apply nth_error_ext. intros i.
      rewrite nth_error_map. destruct (nth_error (inv_perm (np_argsort t)) i) as [k|] eqn:ek; cbn [option_map].
      - rewrite (G2 _ _ ek). apply nth_error_nth'.
        rewrite Forall_forall in Hi. apply Hi. eapply nth_error_In; eauto.
      - apply nth_error_None. apply nth_error_None in ek. lia. }
    assert (E2 : R = map (fun i => nth i R d) (seq 0 (length R))).
    { apply nth_error_ext. intros i. rewrite nth_error_map.
      destruct (lt_dec i (length R)).
      - rewrite (nth_error_nth' (seq 0 (length R)) 0) by (now rewrite seq_length).
        rewrite seq_nth by lia. cbn [option_map plus]. now apply nth_error_nth'.
      - rewrite (proj2 (nth_error_None (seq 0 (length R)) i)) by (rewrite seq_length; lia).
        cbn [option_map]. apply nth_error_None. lia. }
    rewrite E1. transitivity (map (fun i => nth i R d) (seq 0 (length R))); [|now rewrite <- E2].
    rewrite Hl. apply Permutation_map. now apply inv_perm_perm.
  - exact U2.
Qed.
End Run2.
