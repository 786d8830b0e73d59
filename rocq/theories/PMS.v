(** Linear multistep methods over the reals. *)
From Coq Require Import List ZArith QArith Bool Arith Lia Reals Lra.
From Verif Require Import Base Scalar Vec MBuffer MZeros MSteps MApi MClasses Laws Spec SpecInst
  PStep PCore PHist PBound PVecR SpecRK PDim PTop1 SpecZeros PZeros PZeros2 SpecMS.
Import ListNotations.
Open Scope R_scope.

(** ** polynomials *)
Lemma pder_from_eval p : forall k x, peval (pder_from (k + 1) p) x = peval (pder_from k p) x + peval p x.
Proof.
  induction p as [|a p IH]; intros k x; cbn; [lra|]. rewrite (IH (k + 1)). lra.
Qed.
Lemma pder_from_0 p : forall x, peval (pder_from 0 p) x = x * peval (pder p) x.
Proof. destruct p; intros x; cbn; [lra|]. rewrite Rplus_0_l. lra. Qed.
Lemma peval_derivative p : forall x, derivable_pt_lim (peval p) x (peval (pder p) x).
Proof.
  induction p as [|a p IH]; intros x.
  - cbn. apply derivable_pt_lim_const.
  - assert (E : peval (pder (a :: p)) x = 0 + (1 * peval p x + x * peval (pder p) x)).
    { cbn [pder]. replace 1 with (0 + 1) at 1 by lra. rewrite pder_from_eval, pder_from_0. lra. }
    rewrite E. apply (derivable_pt_lim_plus (fct_cte a) (fun x => x * peval p x)).
    + apply derivable_pt_lim_const.
    + apply (derivable_pt_lim_mult id (peval p)); [apply derivable_pt_lim_id|apply IH].
Qed.

(** ** step() and the step function *)
Lemma took_core {OT : Ops} (sv : solver) s s' : took_step sv s s' -> s_core sv s = (Ret tt, s').
Proof.
  intros (fuel & t & a & H). unfold step, bind in H.
  destruct (step_cases sv (s_bound sv) s) as [(_ & E)|(_ & E)]; rewrite E in H.
  - discriminate.
  - destruct (s_core sv s) as [[[]| |] s1]; cbn in H; inversion H; subst; auto.
Qed.

(** ** the combination of history rows *)
Lemma Forall_skipn {A} (P : A -> Prop) k l : Forall P l -> Forall P (skipn k l).
Proof.
  intros H. apply Forall_forall. intros x Hx. rewrite Forall_forall in H. apply H.
  rewrite <- (firstn_skipn k l). apply in_or_app. auto.
Qed.
Lemma dot_scale h B : forall F, dot (map (Rmult h) B) F = h * dot B F.
Proof. induction B as [|b B IH]; intros [|f F]; cbn; try lra. rewrite IH. lra. Qed.

Section Comb.
Context {E : @Env Rops}.
Lemma ms_comb_cmp n (A B : list R) (s : @st Rops) i : buf_len (ms_len (OT := Rops) A) (cache s) -> length A = length B ->
  dims n s -> length (state s) = n -> (i < n)%nat ->
  cmp i (@ms_combination Rops A B (cache s) (hstep s)) =
  hstep s * dot B (map (fun f => cmp i f) (lastn (length B) (fs (cache s)))) -
  dot A (map (fun y => cmp i y) (lastn (length A) (ys (cache s)))).
Proof.
  intros (_ & Ly & Lf) LAB (Dy & Df) Hn Hi. unfold ms_combination, ysize. change (buf_y (cache s)) with (state s). rewrite Hn.
  unfold lastn. rewrite Ly, Lf.
  assert (K : forall (u v : list (@vec Rops)), Forall (fun k => length k = n) u -> Forall (fun k => length k = n) v ->
    cmp i (@vsub Rops (@lincomb Rops n (map (@mul Rops (hstep s)) B) u) (@lincomb Rops n A v)) =
    hstep s * dot B (map (fun f => cmp i f) u) - dot A (map (fun y => cmp i y) v)).
  { intros u v Hu Hv. rewrite (vsub_cmp n); [|apply lincomb_len|apply lincomb_len|]; try assumption. rewrite !(lincomb_cmp n) by assumption.
    change (@mul Rops) with Rmult. rewrite dot_scale. reflexivity. }
  destruct (_ || _) eqn:e.
  - apply K; apply Forall_skipn; auto.
  - apply orb_false_iff in e as (e1 & e2). apply Nat.ltb_ge in e1, e2. unfold ms_len in *.
    assert (Z : forall a b, (Nat.max a 2 <= a)%nat -> a = b -> (Nat.max a 2 - a = 0)%nat /\ (Nat.max a 2 - b = 0)%nat) by (intros; lia).
    destruct (Z _ _ e1 LAB) as (Z1 & Z2).
    match goal with |- _ = _ * dot _ (map _ (skipn ?a _)) - dot _ (map _ (skipn ?b _)) => replace a with 0%nat by (symmetry; exact Z2); replace b with 0%nat by (symmetry; exact Z1) end.
    cbn [skipn]. apply K; auto.
Qed.
Lemma ms_comb_len n (A B : list R) (s : @st Rops) : dims n s -> length (state s) = n ->
  length (@ms_combination Rops A B (cache s) (hstep s)) = n.
Proof. intros (Dy & Df) Hn. apply ms_combination_dim; auto. Qed.

Definition pushed (s s' : @st Rops) : Prop :=
  s' = set_cache (push (cache s) (now s') (state s') (deriv s')) s.
(** ** explicit steps *)
Lemma expl_step A B fuelc o rhs tb s s' n : buf_len (ms_len (OT := Rops) A) (cache s) -> length A = length B ->
  dims n s -> length (state s) = n ->
  took_step (solver_of (E := E) (ExplMS A B) fuelc o rhs tb) s s' ->
  now s' = now s + hstep s /\ length (state s') = n /\ lm_relation A B 0 s (state s') [] /\
  rhs (now s + hstep s) (state s') = Ret (deriv s') /\ pushed s s'.
Proof.
  intros W LAB D Hn H. apply took_core in H. cbn in H. unfold core_expl_ms, expl_ms_fixed_step, bind, lift in H.
  destruct (rhs _ _) as [f| |] eqn:er in H; try discriminate. unfold push_st in H. injection H as <-.
  assert (WL : exists k, ms_len (OT := Rops) A = S k) by (unfold ms_len; exists (Nat.max (length A) 2 - 1)%nat; lia).
  destruct WL as (k & WL). pose proof W as W'. rewrite WL in W'.
  unfold now, state, deriv. cbn [cache set_cache].
  rewrite (push_t k), (push_y k), (push_f k) by auto. split; [reflexivity|]. split; [now apply ms_comb_len|]. split; [|split; [exact er|]].
  2:{ unfold pushed, now, state, deriv. cbn [cache set_cache]. rewrite (push_t k), (push_y k), (push_f k) by auto. reflexivity. }
  intros i Hi. unfold state in Hi, Hn. rewrite Hn in Hi. rewrite (ms_comb_cmp n) by auto. lra.
Qed.

(** ** implicit steps *)
Lemma impl_step_gen A B Bn fuelc o rhs tb s s' : buf_len (ms_len (OT := Rops) A) (cache s) ->
  took_step (solver_of (E := E) (ImplMS A B Bn) fuelc o rhs tb) s s' ->
  now s' = now s + hstep s /\ rhs (now s + hstep s) (state s') = Ret (deriv s') /\ pushed s s' /\
  impl_ms_fixed_step A B Bn rhs (cache s) (hstep s) = Ret (now s + hstep s, state s').
Proof.
  intros W H. apply took_core in H. cbn in H. unfold core_impl_ms, bind, lift in H.
  destruct (impl_ms_fixed_step A B Bn rhs (cache s) (hstep s)) as [[t y]| |] eqn:ei; try discriminate.
  assert (Ht : t = now s + hstep s).
  { unfold impl_ms_fixed_step in ei. destruct (Nat.eqb _ 1).
    - destruct (j_newton _ _ _ _ _ _ _ _); cbn in ei; try discriminate. now injection ei.
    - destruct (newton_hd _ _ _ _ _); cbn in ei; try discriminate. now injection ei. }
  destruct (rhs t y) as [f| |] eqn:er; try discriminate. unfold push_st in H. injection H as <-.
  assert (WL : exists k, ms_len (OT := Rops) A = S k) by (unfold ms_len; exists (Nat.max (length A) 2 - 1)%nat; lia).
  destruct WL as (k & WL). rewrite WL in W.
  unfold now, state, deriv in *. cbn [cache set_cache]. rewrite (push_t k), (push_y k), (push_f k) by auto.
  subst t. split; [reflexivity|]. split; [exact er|]. split; [|reflexivity].
  unfold pushed, now, state, deriv. cbn [cache set_cache]. rewrite (push_t k), (push_y k), (push_f k) by auto. reflexivity.
Qed.
End Comb.

(** ** histories on a polynomial *)
Lemma solution_cmp Ps t i : cmp i (solution Ps t) = peval (nth i Ps []) t.
Proof. unfold solution. change 0 with ((fun p => peval p t) []). now rewrite map_nth. Qed.
Lemma slope_cmp Ps t i : cmp i (slope Ps t) = peval (pder (nth i Ps [])) t.
Proof. unfold slope. change 0 with ((fun p => peval (pder p) t) []). now rewrite map_nth. Qed.
Lemma skipn_map' {A B} (f : A -> B) k : forall l, skipn k (map f l) = map f (skipn k l).
Proof. induction k; intros [|x l]; cbn; auto. Qed.
Lemma skipn_seq k : forall a n, skipn k (seq a n) = seq (a + k) (n - k).
Proof.
  induction k as [|k IH]; intros a n; [now rewrite Nat.add_0_r, Nat.sub_0_r|].
  destruct n; auto. cbn [seq skipn]. rewrite IH. f_equal; lia.
Qed.
Lemma map_seq_shift {A} (f : nat -> A) k n : map f (seq k n) = map (fun j => f (k + j)%nat) (seq 0 n).
Proof.
  rewrite <- (Nat.add_0_r k) at 1. generalize 0%nat. induction n; intros a; cbn; auto.
  f_equal. rewrite <- IHn. f_equal. f_equal. lia.
Qed.
Lemma lastn_map {A B} (f : A -> B) k l : lastn k (map f l) = map f (lastn k l).
Proof. unfold lastn. now rewrite map_length, skipn_map'. Qed.
Lemma tracks_ys k Ps s i : tracks k Ps s ->
  map (fun y => cmp i y) (lastn k (ys (cache s))) =
  map (fun j => peval (nth i Ps []) (now s - INR (k - 1 - j) * hstep s)) (seq 0 k).
Proof.
  intros (Ht & Hy & _). rewrite Hy, Ht.
  rewrite !map_map. apply map_ext. intros j. apply solution_cmp.
Qed.
Lemma tracks_fs k Ps s i : tracks k Ps s ->
  map (fun y => cmp i y) (lastn k (fs (cache s))) =
  map (fun j => peval (pder (nth i Ps [])) (now s - INR (k - 1 - j) * hstep s)) (seq 0 k).
Proof.
  intros (Ht & _ & Hf). rewrite Hf, Ht.
  rewrite !map_map. apply map_ext. intros j. apply slope_cmp.
Qed.
Lemma last_map' {A B} (f : A -> B) l d : l <> [] -> last (map f l) (f d) = f (last l d).
Proof. induction l as [|a [|b l] IH]; intros H; try reflexivity; try congruence. cbn in *. apply IH. discriminate. Qed.
Lemma last_def {A} (l : list A) d d' : l <> [] -> last l d = last l d'.
Proof. induction l as [|a [|b l] IH]; intros H; try reflexivity; try congruence. cbn in *. apply IH. discriminate. Qed.
Lemma last_skipn {A} k : forall (l : list A) d, (k < length l)%nat -> last (skipn k l) d = last l d.
Proof.
  induction k as [|k IH]; intros l d H; [reflexivity|]. destruct l as [|a l]; [cbn in H; lia|]. cbn [skipn].
  cbn in H. rewrite IH by lia. destruct l; [cbn in H; lia|reflexivity].
Qed.
Lemma last_lastn {A} k (l : list A) d : (0 < k)%nat -> (0 < length l)%nat -> last (lastn k l) d = last l d.
Proof. intros H H'. unfold lastn. apply last_skipn. lia. Qed.
Lemma lastn_nonnil {A} k (l : list A) : (0 < k)%nat -> (0 < length l)%nat -> lastn k l <> [].
Proof. intros H H' e. apply (f_equal (@length _)) in e. unfold lastn in e. rewrite skipn_length in e. cbn in e. lia. Qed.
Lemma tracks_now k Ps s n : (0 < k)%nat -> buf_len (S n) (cache s) -> tracks k Ps s ->
  state s = solution Ps (now s) /\ deriv s = slope Ps (now s).
Proof.
  intros Hk (L1 & L2 & L3) (_ & Hy & Hf). unfold state, deriv, now, buf_y, buf_f, buf_t.
  rewrite <- (last_lastn k (ts (cache s))), <- (last_lastn k (ys (cache s))), <- (last_lastn k (fs (cache s))) by lia.
  rewrite Hy, Hf.
  assert (N : lastn k (ts (cache s)) <> []) by (apply lastn_nonnil; lia).
  split.
  - rewrite (last_def _ _ (solution Ps (@zero Rops))) by (destruct (lastn k (ts (cache s))); [congruence|discriminate]). now apply last_map'.
  - rewrite (last_def _ _ (slope Ps (@zero Rops))) by (destruct (lastn k (ts (cache s))); [congruence|discriminate]). now apply last_map'.
Qed.
Lemma lastn_push {A} k (l : list A) x n : length l = S n -> (0 < k <= S n)%nat ->
  lastn k (skipn 1 l ++ [x]) = skipn 1 (lastn k l) ++ [x].
Proof.
  intros L H. unfold lastn. rewrite app_length, skipn_length, L. cbn [length].
  replace (S n - 1 + 1 - k)%nat with (S n - k)%nat by lia. rewrite skipn_app, skipn_length, L.
  replace (S n - k - (S n - 1))%nat with 0%nat by lia. change (skipn 0 [x]) with [x]. f_equal.
  assert (G : forall a b (l : list A), skipn a (skipn b l) = skipn (a + b) l).
  { intros a b. revert a. induction b as [|b IH]; intros a l'; [now rewrite Nat.add_0_r|].
    destruct l' as [|z l']; [now rewrite !skipn_nil|]. rewrite Nat.add_succ_r. cbn [skipn]. apply IH. }
  rewrite !G. f_equal. lia.
Qed.
Lemma tracks_push k Ps s s' n : (0 < k <= S n)%nat -> buf_len (S n) (cache s) -> tracks k Ps s -> pushed s s' ->
  now s' = now s + hstep s -> state s' = solution Ps (now s') -> deriv s' = slope Ps (now s') -> tracks k Ps s'.
Proof.
  intros Hk (L1 & L2 & L3) (Ht & Hy & Hf) P N St D. unfold pushed in P. rewrite St, D in P.
  assert (N1 : ts (cache s) <> []) by (eapply nonnil_len; eauto).
  assert (N2 : ys (cache s) <> []) by (eapply nonnil_len; eauto).
  assert (N3 : fs (cache s) <> []) by (eapply nonnil_len; eauto).
  assert (Ts : ts (cache s') = skipn 1 (ts (cache s)) ++ [now s']) by (rewrite P at 1; cbn [cache set_cache]; now apply push_ts).
  assert (Ys : ys (cache s') = skipn 1 (ys (cache s)) ++ [solution Ps (now s')]) by (rewrite P at 1; cbn [cache set_cache]; exact (@push_ys Rops _ _ _ _ N2)).
  assert (Fs : fs (cache s') = skipn 1 (fs (cache s)) ++ [slope Ps (now s')]) by (rewrite P at 1; cbn [cache set_cache]; exact (@push_fs Rops _ _ _ _ N3)).
  assert (Hh : hstep s' = hstep s) by (now rewrite P).
  assert (Lt : lastn k (ts (cache s')) = skipn 1 (lastn k (ts (cache s))) ++ [now s']) by (rewrite Ts; eapply lastn_push; eauto).
  assert (Ly : lastn k (ys (cache s')) = skipn 1 (lastn k (ys (cache s))) ++ [solution Ps (now s')]) by (rewrite Ys; eapply lastn_push; eauto).
  assert (Lf : lastn k (fs (cache s')) = skipn 1 (lastn k (fs (cache s))) ++ [slope Ps (now s')]) by (rewrite Fs; eapply lastn_push; eauto).
  split; [|split].
  - rewrite Lt, Hh, N, Ht. destruct k as [|k]; [lia|]. rewrite skipn_map', skipn_seq, map_seq_shift.
    rewrite (seq_S k 0), map_app. cbn [Nat.add]. rewrite Nat.sub_succ, Nat.sub_0_r. cbn [map]. f_equal.
    + apply map_ext_in. intros j Hj. apply in_seq in Hj.
      replace (k - j)%nat with (S (k - S j))%nat by lia. rewrite S_INR.
      match goal with |- @eq _ ?a ?b => change (@eq R a b) end. ring.
    + f_equal. rewrite Nat.sub_diag. cbn [INR]. match goal with |- @eq _ ?a ?b => change (@eq R a b) end. ring.
  - rewrite Ly, Lt, map_app. cbn [map]. f_equal. rewrite Hy. apply skipn_map'.
  - rewrite Lf, Lt, map_app. cbn [map]. f_equal. rewrite Hf. apply skipn_map'.
Qed.

(** ** exactness on polynomials, as an identity between the coefficients *)
Definition exact_deg (A B : list R) (Bn : R) (k : nat) : Prop := forall p t h, degree_le k p ->
  peval p (t + h) + dot A (map (fun j => peval p (t - INR (length A - 1 - j) * h)) (seq 0 (length A))) =
  h * (dot B (map (fun j => peval (pder p) (t - INR (length B - 1 - j) * h)) (seq 0 (length B))) + Bn * peval (pder p) (t + h)).

Lemma Rops_lits l : @lits Rops l = map (fun q => IZR (Qnum q) / IZR (Zpos (Qden q))) l.
Proof. unfold lits. apply map_ext. intros q. apply lit_R. Qed.
Lemma Rops_over l d : @over Rops l d = map (fun z => IZR z / IZR (Zpos d)) l.
Proof. unfold over. apply map_ext. intros q. rewrite lit_R. reflexivity. Qed.
