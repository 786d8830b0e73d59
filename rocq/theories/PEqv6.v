(** Corresponding problems: the three maps. *)
From Coq Require Import List ZArith Bool Arith Lia Reals Lra Psatz.
From Verif Require Import Base Scalar Vec MBuffer MZeros MSteps MApi MClasses Spec SpecInst SpecRK SpecEqv SpecEqv2 Laws PBound PVecR PCore PHist PDim PEqv1 PEqv2 PEqv3 PEqv4 PEqv5.
Import ListNotations.

(** ** components *)
Section Pick.
Context {OT : Ops} {E : Env}.
Variables (n : nat) (idx : list nat).
Hypothesis Hidx : Forall (fun i => i < n) idx.
Lemma nth_map2 (h : T -> T -> T) : forall u v i, length u = length v -> i < length u -> nth i (map2 h u v) zero = h (nth i u zero) (nth i v zero).
Proof. induction u as [|a u IH]; intros [|b v] [|i] H1 H2; cbn in *; try lia; auto. apply IH; lia. Qed.
Lemma pick_map2 (h : T -> T -> T) u v : length u = n -> length v = n -> map2 h (pick idx u) (pick idx v) = pick idx (map2 h u v).
Proof.
  intros Hu Hv. unfold pick. clear -Hidx Hu Hv. revert Hidx. induction idx as [|i l IH]; intros H; [reflexivity|]. inversion H; subst. cbn [map map2]. f_equal; [|now apply IH].
  symmetry. apply nth_map2; lia.
Qed.
Lemma pick_scale c u : length u = n -> vscale c (pick idx u) = pick idx (vscale c u).
Proof.
  intros Hu. unfold vscale, pick. rewrite map_map. clear - Hidx Hu. revert Hidx. induction idx as [|i l IH]; intros H; [reflexivity|]. inversion H; subst. cbn [map]. f_equal; [|now apply IH].
  rewrite (nth_indep (map (mul c) u) zero (mul c zero)) by (rewrite map_length; lia). now rewrite map_nth.
Qed.
Lemma pick_acc K : forall c acc, length acc = n -> Forall (has_dim n) K -> lincomb_acc (pick idx acc) c (map (pick idx) K) = pick idx (lincomb_acc acc c K).
Proof.
  induction K as [|k K IH]; intros [|x c] acc Ha HK; cbn [lincomb_acc map]; try reflexivity. apply Forall_cons_iff in HK as (Hk & HK). unfold has_dim in Hk.
  rewrite pick_scale by auto. unfold vadd at 1. rewrite pick_map2 by (auto; unfold vscale; now rewrite map_length). apply IH; auto.
  apply vadd_l; auto. now apply vscale_l.
Qed.
Lemma pick_zero : pick idx (vzero n) = vzero (length idx).
Proof.
  unfold pick, vzero. clear -Hidx. revert Hidx. induction idx as [|i l IH]; intros H; [reflexivity|]. inversion H; subst. cbn. rewrite IH by auto. f_equal.
  clear. revert i. induction n as [|k IH]; intros [|i]; cbn; auto.
Qed.
Lemma pick_lin y c K : has_dim n y -> Forall (has_dim n) K ->
  lincomb (length (pick idx y)) c (map (pick idx) K) = pick idx (lincomb (length y) c K) /\ has_dim n (lincomb (length y) c K).
Proof.
  intros Hy HK. unfold has_dim in Hy. rewrite Hy. split; [|now apply lincomb_l]. unfold pick at 1. rewrite map_length. unfold lincomb. rewrite <- pick_zero. apply pick_acc; auto. apply repeat_length.
Qed.
Lemma pick_alike rhs rhs' : keeps_dim n rhs -> (forall t y, length y = n -> rhs' t (pick idx y) = omap (pick idx) (rhs t y)) ->
  forall m s s' fuelc o tb fuel fuel' cs cs', twin now_as_is (pick idx) (has_dim n) explicit rhs rhs' m s s' ->
  Forall2 (corr_call now_as_is (pick idx) (has_dim n)) cs cs' ->
  alike now_as_is (pick idx) (has_dim n) (solver_of m fuelc o rhs tb) (solver_of m fuelc o rhs' tb) fuel'
    (session (solver_of m fuelc o rhs tb) fuel cs s) (session (solver_of m fuelc o rhs' tb) fuel cs' s').
Proof.
  intros Hd Hr m s s' fuelc o tb fuel fuel' cs cs' Ht Hc.
  assert (Et : ext_map now_as_is tb = tb) by now destruct tb.
  pose proof (map_alike (pick idx) (has_dim n)) as K. cbv zeta in K.
  rewrite <- Et. rewrite Et at 1 3.
  refine (K _ _ _ _ rhs rhs' _ _ m s s' fuelc o tb fuel fuel' cs cs' Ht Hc).
  - intros u v Hu Hv. split; [now apply pick_map2|now apply vadd_l].
  - intros u v Hu Hv. split; [now apply pick_map2|now apply vsub_l].
  - intros c u Hu. split; [now apply pick_scale|now apply vscale_l].
  - apply pick_lin.
  - exact Hr.
  - intros t y k Hy Hk. exact (Hd t y k Hy Hk).
Qed.
Lemma pick_twins rhs rhs' : keeps_dim n rhs -> (forall t y, length y = n -> rhs' t (pick idx y) = omap (pick idx) (rhs t y)) ->
  twins_built now_as_is (pick idx) (has_dim n) explicit rhs rhs'.
Proof.
  intros Hd Hr. refine (map_twins (pick idx) (has_dim n) _ _ _ _ rhs rhs' Hr _).
  - intros u v Hu Hv. split; [now apply pick_map2|now apply vadd_l].
  - intros u v Hu Hv. split; [now apply pick_map2|now apply vsub_l].
  - intros c u Hu. split; [now apply pick_scale|now apply vscale_l].
  - apply pick_lin.
  - intros t y k Hy Hk. exact (Hd t y k Hy Hk).
Qed.
End Pick.

(** ** another origin of time *)
Section Later.
Context {E : @Env Rops}.
Open Scope R_scope.
Variable c : R.
Notation f := (later c : @T Rops -> @T Rops).
Lemma later_lt (a b : @T Rops) : ltb (f a) (f b) = ltb a b.
Proof. apply Bool.eq_iff_eq_true. rewrite !Rltb_true. unfold later. split; intros H; lra. Qed.
Lemma later_le (a b : @T Rops) : leb (f a) (f b) = leb a b.
Proof. apply Bool.eq_iff_eq_true. rewrite !Rleb_true. unfold later. split; intros H; lra. Qed.
Lemma later_eq (a b : @T Rops) : eqb (f a) (f b) = eqb a b.
Proof. apply Bool.eq_iff_eq_true. rewrite !Reqb_true. unfold later. split; intros H; lra. Qed.
Lemma later_add (a h : @T Rops) : add (f a) h = f (add a h).
Proof. unfold later. cbn. lra. Qed.
Lemma later_sub (a b : @T Rops) : sub (f a) (f b) = sub a b.
Proof. unfold later. cbn. lra. Qed.
Lemma later_mid (a b : @T Rops) : div (add (f a) (f b)) two = f (div (add a b) two).
Proof. rewrite two_R. unfold later. cbn. lra. Qed.
Lemma later_max (a b : @T Rops) : npmax (f a) (f b) = f (npmax a b).
Proof. unfold npmax. rewrite later_lt, later_eq. destruct (_ || _)%bool; reflexivity. Qed.
Lemma later_alike (rhs rhs' : @rhs_t Rops) : (forall t y, rhs' (t + c) y = rhs t y) ->
  (forall l, @np_argsort Rops E (map (later c) l) = @np_argsort Rops E l) ->
  forall m s s' fuelc o tb fuel fuel' cs cs', twin (E := E) (later c : @T Rops -> @T Rops) same any any_class rhs rhs' m s s' ->
  Forall2 (corr_call (OT := Rops) (later c) same any) cs cs' ->
  alike (E := E) (later c : @T Rops -> @T Rops) same any (solver_of (E := E) m fuelc o rhs tb) (solver_of (E := E) m fuelc o rhs' (ext_map (OT := Rops) (later c) tb)) fuel'
    (session (E := E) (solver_of (E := E) m fuelc o rhs tb) fuel cs s)
    (session (E := E) (solver_of (E := E) m fuelc o rhs' (ext_map (OT := Rops) (later c) tb)) fuel cs' s').
Proof.
  intros Hr Hs m s s' fuelc o tb fuel fuel' cs cs' Ht Hc.
  refine (shift_alike (OT := Rops) (E := E) (later c) later_lt later_le later_eq later_add later_sub later_mid later_max Hs rhs rhs' _ m s s' fuelc o tb fuel fuel' cs cs' Ht Hc).
  intros t y _. unfold later. rewrite Hr. destruct (rhs t y); reflexivity.
Qed.
Lemma later_twins (rhs rhs' : @rhs_t Rops) : (forall t y, rhs' (t + c) y = rhs t y) ->
  twins_built (E := E) (later c : @T Rops -> @T Rops) same any any_class rhs rhs'.
Proof.
  intros Hr. refine (shift_twins (OT := Rops) (E := E) (later c) later_lt later_add later_sub rhs rhs' _).
  intros t y _. unfold later. rewrite Hr. destruct (rhs t y); reflexivity.
Qed.
End Later.

(** ** matrices *)
Section Mat.
Context {E : @Env Rops}.
Open Scope R_scope.
Variables (n : nat) (A : list (list R)).
Notation g := (matvec A : @vec Rops -> @vec Rops).
Lemma dot_map2 (h : R -> R -> R) : (forall a b a' b' x, x * h a b + h a' b' = h (x * a + a') (x * b + b')) -> h 0 0 = 0 ->
  forall row u v, length u = length v -> dot row (map2 h u v) = h (dot row u) (dot row v).
Proof.
  intros Hh H0. induction row as [|x row IH]; intros [|a u] [|b v] H; cbn in *; try discriminate; try (now rewrite H0).
  rewrite IH by lia. apply Hh.
Qed.
Lemma dot_scale x : forall row u, dot row (@vscale Rops x u) = x * dot row u.
Proof. induction row as [|a row IH]; intros [|b u]; cbn in *; try lra. unfold vscale in IH. cbn in IH. rewrite IH. lra. Qed.
Lemma mat_map2 (h : R -> R -> R) : (forall a b a' b' x, x * h a b + h a' b' = h (x * a + a') (x * b + b')) -> h 0 0 = 0 ->
  forall u v, length u = length v -> map2 h (matvec A u) (matvec A v) = matvec A (map2 h u v).
Proof. intros Hh H0 u v H. unfold matvec. induction A as [|r B IH]; cbn; [reflexivity|]. rewrite IH. f_equal. symmetry. now apply dot_map2. Qed.
Lemma mat_add (u v : @vec Rops) : length u = length v -> vadd (g u) (g v) = g (vadd u v).
Proof. intros H. apply (mat_map2 Rplus); auto; intros; lra. Qed.
Lemma mat_sub (u v : @vec Rops) : length u = length v -> vsub (g u) (g v) = g (vsub u v).
Proof. intros H. apply (mat_map2 Rminus); auto; intros; lra. Qed.
Lemma mat_scale x (u : @vec Rops) : vscale x (g u) = g (vscale x u).
Proof. unfold matvec, vscale. rewrite map_map. apply map_ext. intros r. symmetry. apply dot_scale. Qed.
Lemma mat_zero : g (@vzero Rops n) = @vzero Rops (length A).
Proof.
  assert (Z : forall r, dot r (@vzero Rops n) = 0).
  { intros r. unfold vzero. rewrite zero_R. clear. revert r. induction n as [|k IH]; intros [|x r]; cbn [repeat dot]; try reflexivity. rewrite IH. lra. }
  unfold matvec. induction A as [|r B IH]; [reflexivity|]. cbn [map length]. rewrite IH, Z. unfold vzero. rewrite zero_R. reflexivity.
Qed.
Lemma mat_acc K : forall c (acc : @vec Rops), length acc = n -> Forall (has_dim (OT := Rops) n) K -> lincomb_acc (g acc) c (map g K) = g (lincomb_acc acc c K).
Proof.
  induction K as [|k K IH]; intros [|x c] acc Ha HK; cbn [lincomb_acc map]; try reflexivity. apply Forall_cons_iff in HK as (Hk & HK). unfold has_dim in Hk.
  rewrite mat_scale. rewrite mat_add by (rewrite (vscale_len n); auto). apply IH; auto.
  apply vadd_len; auto. now apply vscale_len.
Qed.
Lemma mat_lin (y : @vec Rops) c K : has_dim (OT := Rops) n y -> Forall (has_dim (OT := Rops) n) K ->
  lincomb (length (g y)) c (map g K) = g (lincomb (length y) c K) /\ has_dim (OT := Rops) n (lincomb (length y) c K).
Proof.
  intros Hy HK. unfold has_dim in Hy. rewrite Hy. split; [|now apply lincomb_len].
  replace (length (g y)) with (length A) by (unfold matvec; now rewrite map_length). unfold lincomb. rewrite <- mat_zero. apply mat_acc; auto. apply repeat_length.
Qed.
Lemma mat_alike (rhs rhs' : @rhs_t Rops) : keeps_dim (OT := Rops) n rhs -> (forall t y, length y = n -> rhs' t (matvec A y) = omap (matvec A) (rhs t y)) ->
  forall m s s' fuelc o tb fuel fuel' cs cs', twin (E := E) (OT := Rops) now_as_is (matvec A) (has_dim n) explicit rhs rhs' m s s' ->
  Forall2 (corr_call (OT := Rops) now_as_is (matvec A) (has_dim n)) cs cs' ->
  alike (OT := Rops) (E := E) now_as_is (matvec A) (has_dim n) (solver_of (E := E) m fuelc o rhs tb) (solver_of (E := E) m fuelc o rhs' tb) fuel'
    (session (E := E) (solver_of (E := E) m fuelc o rhs tb) fuel cs s) (session (E := E) (solver_of (E := E) m fuelc o rhs' tb) fuel cs' s').
Proof.
  intros Hd Hr m s s' fuelc o tb fuel fuel' cs cs' Ht Hc.
  assert (Et : ext_map (OT := Rops) now_as_is tb = tb) by now destruct tb.
  pose proof (map_alike (OT := Rops) (E := E) (matvec A) (has_dim n)) as K. cbv zeta in K.
  rewrite <- Et. rewrite Et at 1 3.
  refine (K _ _ _ _ rhs rhs' _ _ m s s' fuelc o tb fuel fuel' cs cs' Ht Hc).
  - intros u v Hu Hv. split; [apply mat_add; congruence|now apply vadd_len].
  - intros u v Hu Hv. split; [apply mat_sub; congruence|now apply vsub_len].
  - intros x u Hu. split; [now apply mat_scale|now apply vscale_len].
  - apply mat_lin.
  - exact Hr.
  - intros t y k Hy Hk. exact (Hd t y k Hy Hk).
Qed.
Lemma mat_twins (rhs rhs' : @rhs_t Rops) : keeps_dim (OT := Rops) n rhs -> (forall t y, length y = n -> rhs' t (matvec A y) = omap (matvec A) (rhs t y)) ->
  twins_built (E := E) (OT := Rops) now_as_is (matvec A) (has_dim n) explicit rhs rhs'.
Proof.
  intros Hd Hr. refine (map_twins (OT := Rops) (E := E) (matvec A) (has_dim n) _ _ _ _ rhs rhs' Hr _).
  - intros u v Hu Hv. split; [apply mat_add; congruence|now apply vadd_len].
  - intros u v Hu Hv. split; [apply mat_sub; congruence|now apply vsub_len].
  - intros x u Hu. split; [now apply mat_scale|now apply vscale_len].
  - apply mat_lin.
  - intros t y k Hy Hk. exact (Hd t y k Hy Hk).
Qed.
End Mat.
