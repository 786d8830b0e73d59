(** C33: the values run returns (continued). *)
From Coq Require Import List ZArith QArith Bool Arith Lia Reals Lra.
From Verif Require Import Base Scalar Vec MBuffer MZeros MSteps MApi MDop853 MClasses Laws Spec SpecInst
  PStep PKeeps PCore PHist PRun PInterp PBound PVecR SpecRK PDim PRK PFwd PTerm SpecMS PMS PMS2 PRK2 PRK3 PMS3 SpecOrder SpecConv PConv1 PConv2 PConv3 PConv4 PConv5.
Import ListNotations.
Open Scope R_scope.

Section Run.
Context {E : @Env Rops}.
Variables (rhs : @rhs_t Rops) (n : nat) (L t0 te M : R) (y dy : R -> list R).
Hypothesis HL : lipschitz n L rhs.
Hypothesis HS : sol_ok n t0 te M y dy.
Hypothesis HD : forall t, t0 <= t <= te -> rhs t (y t) = Ret (dy t).
Variables (m : @meth Rops) (La E0 D h : R) (fuelc : nat) (o : @options Rops) (tb : @ext Rops).
Hypothesis Pos : 0 <= La /\ 0 <= E0 /\ 0 <= D /\ 0 < h.
Hypothesis Fx : is_fixed m = true.
Hypothesis Cl : forall x x', ab_inv rhs t0 te y m La E0 D h x -> core_of (E := E) m fuelc o rhs x = (Ret tt, x') -> ab_inv rhs t0 te y m La E0 D h x'.
Notation I := (ab_inv rhs t0 te y m La E0 D h).
Notation sv := (solver_of (E := E) m fuelc o rhs tb).

Lemma core_push x x' : I x -> core_of (E := E) m fuelc o rhs x = (Ret tt, x') ->
  now x' = now x + h /\ exists y' f', cache x' = push (cache x) (now x + h) y' f'.
Proof.
  intros (G & Hx & _) Hc. apply core_of_ok in Hc; [|apply wf_stages; apply G].
  destruct Hc as (_ & _ & E1 & t' & y' & f' & (P1 & P2) & P3). specialize (P3 Fx). rewrite Hx in P3. subst t'.
  destruct (len_history_pos m) as (N & HN). pose proof G as ((Wb & _) & _). rewrite HN in Wb.
  split; [|exists y', f'; exact P1]. unfold now at 1. rewrite P1. apply (push_t (S N)). exact Wb.
Qed.

Lemma chain_mono b x l x1 : chain sv b x l x1 -> I x -> I x1 /\ now x <= now x1.
Proof.
  induction 1 as [|s s1 l s2 (_ & Hc) _ IH]; intros Hi; [split; [auto|lra]|].
  cbn [s_core solver_of] in Hc. pose proof (Cl _ _ Hi Hc) as I1. destruct (IH I1) as (I2 & Hle).
  destruct (core_push _ _ Hi Hc) as (Hn & _). split; [exact I2|]. rewrite Hn in Hle. lra.
Qed.

Lemma oldest_old c N tn e t' y' f' : buf_len (S (S N)) c -> wnear rhs t0 y (S (S N)) e c tn h -> buf_t0 (push c t' y' f') <= tn.
Proof.
  intros (B1 & _) W. unfold buf_t0. rewrite push_ts by (eapply nonnil_len; eauto).
  destruct (ts c) as [|a [|b l]] eqn:e1; try discriminate. cbn [skipn app].
  assert (Hin : In b (ts c)) by (rewrite e1; cbn; auto). apply in_rev_nth in Hin as (j & Hj & Hb).
  assert (Hj' : (j < S (S N))%nat). { eapply Nat.lt_le_trans; [exact Hj|]. rewrite e1. apply Nat.eq_le_incl. exact B1. }
  destruct (W j Hj') as (ti & yi & fi & A1 & _ & _ & _ & A5 & _).
  pose proof (eq_trans (eq_sym A1) Hb) as Eq. injection Eq as ->. apply A5.
Qed.

Lemma upto_window b x l x1 ti : chain sv b x l x1 -> Forall (fun z => @ltb Rops (now z) ti = true) (removelast (x :: l)) ->
  I x -> now x1 <= te -> l = [] /\ x1 = x \/ buf_t0 (cache x1) <= ti.
Proof.
  induction 1 as [|s s1 l s2 (_ & Hc) Hch IH]; intros F Hi Hte; [auto|]. right.
  cbn [s_core solver_of] in Hc. pose proof (Cl _ _ Hi Hc) as I1. destruct (core_push _ _ Hi Hc) as (Hn & y' & f' & Hp).
  destruct (chain_mono _ _ _ _ Hch I1) as (I2 & Hle).
  change (removelast (s :: s1 :: l)) with (s :: removelast (s1 :: l)) in F. inversion F as [|? ? F1 F2]; subst.
  destruct (IH F2 I1 Hte) as [(-> & ->)|Hw]; [|exact Hw].
  apply Rltb_true in F1. rewrite Hp. pose proof Hi as (G & _ & _ & W). destruct (len_history_pos m) as (N & HN).
  pose proof G as ((Wb & _) & _). rewrite HN in *. specialize (W ltac:(rewrite Hn in Hle; lra)).
  pose proof (oldest_old (cache s) N (now s) _ (now s + h) y' f' Wb W). lra.
Qed.

Hypothesis Hint : interp_of m rhs = interp_default.

Lemma sampled_mono x tl vs x3 : sampled sv x tl vs x3 -> I x -> I x3 /\ now x <= now x3.
Proof.
  induction 1 as [|s ti l s1 a s2 tl vs s3 (Hch & _) _ Hi _ IH]; intros Ix; [split; [auto|lra]|].
  cbn [s_interp solver_of] in Hi. rewrite Hint in Hi. unfold interp_default in Hi. injection Hi as _ <-.
  destruct (chain_mono _ _ _ _ Hch Ix) as (I1 & L1). destruct (IH I1) as (I3 & L3). split; [exact I3|]. lra.
Qed.

Lemma sampled_near F x tl vs x3 : 0 <= F ->
  (forall t i, t0 <= t <= te -> (i < n)%nat -> Rabs (cmp i (dy t)) <= F) ->
  (forall s t i, t0 <= s <= t -> t <= te -> (i < n)%nat -> Rabs (cmp i (y t) - cmp i (y s)) <= F * (t - s)) ->
  sampled sv x tl vs x3 -> I x -> now x3 <= te -> @is_sorted Rops tl = true -> (forall t tl', tl = t :: tl' -> buf_t0 (cache x) <= t) ->
  let e := acc La E0 D h (te - t0) in let W := INR (len_history m - 1) * h in
  Forall2 (fun t v => near (5 * e + 5 * (F * W) + 2 * (W * (L * e))) v (y t)) tl vs.
Proof.
  intros HF F1 F2 Hs Hi Hte Ho Hw e W. revert Hi Hte Ho Hw.
  induction Hs as [|s ti l s1 a s2 tl vs s3 (Hch & Hlt) Hge Hin Hs IH]; intros Hi Hte Ho Hw; [constructor|].
  cbn [s_interp solver_of] in Hin. rewrite Hint in Hin. unfold interp_default in Hin. injection Hin as Hin <-.
  destruct (chain_mono _ _ _ _ Hch Hi) as (I1 & L1). destruct (sampled_mono _ _ _ _ Hs I1) as (I3 & L3).
  assert (Hte1 : now s1 <= te) by lra. apply Rltb_false in Hge.
  assert (Hlo : buf_t0 (cache s1) <= ti).
  { destruct (upto_window _ _ _ _ _ Hch Hlt Hi Hte1) as [(-> & ->)|H]; [|exact H]. apply (Hw ti tl). reflexivity. }
  constructor.
  - pose proof I1 as (G & _ & Ht1 & Wn). specialize (Wn Hte1). destruct (len_history_pos m) as (N & HN).
    pose proof G as ((Wb & _) & _). rewrite HN in Wb, Wn. unfold W. replace (len_history m - 1)%nat with (S N) by lia.
    assert (He : 0 <= e) by (apply acc_pos; lra).
    apply (hermite_near rhs n L t0 te M y dy HL HS HD F (S N) e (cache s1) h ti a); auto; try lra.
    + eapply wnear_mono; [|exact Wn]. unfold e. apply acc_mono; lra.
  - apply IH; auto.
    + destruct tl as [|b tl]; auto. cbn [is_sorted] in Ho. now apply andb_true_iff in Ho as (_ & Ho).
    + intros t tl' ->. cbn [is_sorted] in Ho. apply andb_true_iff in Ho as (Ho & _). apply Rleb_true in Ho. lra.
Qed.
End Run.

Lemma Forall2_combine {A B} (P : A -> B -> Prop) l1 l2 : Forall2 P l1 l2 -> Forall (fun r => P (fst r) (snd r)) (combine l1 l2).
Proof. induction 1; cbn; constructor; auto. Qed.
Lemma Forall2_imp {A B} (P Q : A -> B -> Prop) l1 l2 : (forall a b, P a b -> Q a b) -> Forall2 P l1 l2 -> Forall2 Q l1 l2.
Proof. intros H. induction 1; constructor; auto. Qed.
Lemma combine_split_id {A B} (l : list (A * B)) : combine (map fst l) (map snd l) = l.
Proof. induction l as [|[a b] l IH]; cbn; auto. now rewrite IH. Qed.
Lemma sorted_firstn k : forall l : list (@T Rops), is_sorted l = true -> is_sorted (firstn k l) = true.
Proof.
  induction k as [|k IH]; intros [|a l] H; auto. destruct l as [|b l]; [destruct k; reflexivity|].
  change (leb a b && is_sorted (b :: l) = true) in H. apply andb_true_iff in H as (H1 & H2). specialize (IH _ H2).
  destruct k as [|k]; [reflexivity|]. change (leb a b && is_sorted (firstn (S k) (b :: l)) = true). now rewrite H1, IH.
Qed.

Lemma run_near {E : @Env Rops} rhs n L t0 te M y dy m La E0 D : t0 <= te -> lipschitz n L rhs -> sol_ok n t0 te M y dy ->
  (forall t, t0 <= t <= te -> rhs t (y t) = Ret (dy t)) -> 0 <= La /\ 0 <= E0 /\ 0 <= D -> is_fixed m = true -> interp_of m rhs = interp_default ->
  exists K, forall h fuelc o tb fuel t rows (s s' : @st Rops), 0 < h <= 1 ->
    (forall x x', ab_inv rhs t0 te y m La E0 D h x -> core_of (E := E) m fuelc o rhs x = (Ret tt, x') -> ab_inv rhs t0 te y m La E0 D h x') ->
    ab_inv rhs t0 te y m La E0 D h s -> is_sorted t = true -> run (E := E) (solver_of (E := E) m fuelc o rhs tb) fuel t s = (Ret rows, s') -> now s' <= te ->
    Forall (fun r => near (K * h) (snd r) (y (fst r))) rows.
Proof.
  intros Hte HL HS HD HP Fx Hint. destruct (slope_bound n t0 te M y dy HS Hte) as (F & HF & F1 & F2).
  set (N := INR (len_history m - 1)). assert (HN : 0 <= N) by apply pos_INR.
  set (K0 := acc La E0 D 1 (te - t0)). assert (HK0 : 0 <= K0) by (apply acc_pos; lra).
  exists (5 * K0 + 5 * (F * N) + 2 * (N * (L * K0))).
  intros h fuelc o tb fuel t rows s s' Hh Cl Hi Hs Hr Hn.
  destruct (C13_lemma m fuelc o rhs tb fuel t s rows s' Hs Hr) as (s1 & R1 & R2 & R3).
  assert (HP' : 0 <= La /\ 0 <= E0 /\ 0 <= D /\ 0 < h) by lra.
  destruct (sampled_mono (E := E) rhs t0 te y m La E0 D h fuelc o tb HP' Fx Cl Hint _ _ _ _ R2 Hi) as (I1 & L1).
  assert (Hn1 : now s1 <= te).
  { destruct R3 as [(_ & ->)|(tj & _ & l & (Hch & _) & _)]; auto.
    destruct (chain_mono (E := E) rhs t0 te y m La E0 D h fuelc o tb HP' Fx Cl _ _ _ _ Hch I1) as (_ & L2). lra. }
  rewrite <- (combine_split_id rows). apply (Forall2_combine (fun t v => near ((5 * K0 + 5 * (F * N) + 2 * (N * (L * K0))) * h) v (y t))). 
  pose proof (sampled_near (E := E) rhs n L t0 te M y dy HL HS HD m La E0 D h fuelc o tb HP' Fx Cl Hint F s _ _ _ HF F1 F2 R2 Hi Hn1) as Q.
  cbn zeta in Q. assert (Hacc : acc La E0 D h (te - t0) = K0 * h) by (unfold K0, acc; lra). rewrite Hacc in Q. fold N in Q.
  eapply Forall2_imp; [|apply Q].
  - intros a b Hab. eapply near_mono; [|exact Hab].
    assert (P1 : 0 <= L * K0) by (apply Rmult_le_pos; [apply HL|auto]). assert (P2 : 0 <= N * (L * K0)) by (apply Rmult_le_pos; auto).
    assert (P3 : h * (N * (L * K0) * h) <= 1 * (N * (L * K0) * h)) by (apply Rmult_le_compat_r; [apply Rmult_le_pos; lra|lra]). lra.
  - rewrite R1. now apply sorted_firstn.
  - intros t1 tl' Ht. destruct t as [|ta tr]; [destruct rows; discriminate|].
    destruct rows as [|r rows]; [discriminate|]. rewrite R1 in Ht. cbn [length firstn] in Ht. injection Ht as -> _.
    rewrite run_sorted_eq in Hr by auto. destruct (ltb t1 _) eqn:e; [discriminate|]. apply Rltb_false in e. lra.
Qed.
