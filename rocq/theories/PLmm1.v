(** Zero-stability of linear multistep formulas: a norm of the last errors that a
    step with perturbation r increases by at most a multiple of |r|. *)
From Coq Require Import List ZArith QArith Bool Arith Lia Reals Lra Qreals.
From Verif Require Import Base Scalar Vec Laws PVecR PMS5 PConv1.
Import ListNotations.
Open Scope R_scope.

(** ** largest absolute value *)
Fixpoint mx (l : list R) : R := match l with [] => 0 | x :: l' => Rmax (Rabs x) (mx l') end.
Lemma mx_pos l : 0 <= mx l.
Proof. induction l as [|x l IH]; cbn; [lra|]. eapply Rle_trans; [exact IH|apply Rmax_r]. Qed.
Lemma mx_in x l : In x l -> Rabs x <= mx l.
Proof.
  induction l as [|a l IH]; intros H; [contradiction|]. cbn. destruct H as [->|H]; [apply Rmax_l|].
  eapply Rle_trans; [now apply IH|apply Rmax_r].
Qed.
Lemma mx_le l v : 0 <= v -> (forall x, In x l -> Rabs x <= v) -> mx l <= v.
Proof.
  intros Hv. induction l as [|a l IH]; intros H; cbn; [exact Hv|]. apply Rmax_lub; [apply H; now left|apply IH; intros; apply H; now right].
Qed.
Lemma sumA_cons x c : sumA (x :: c) = Rabs x + sumA c. Proof. reflexivity. Qed.
Lemma dot_mx c : forall w, Rabs (dot c w) <= sumA c * mx w.
Proof.
  induction c as [|x c IH]; intros [|a w]; cbn [dot mx]; rewrite ?Rabs_R0, ?sumA_cons; try (cbn; lra).
  - eapply Rle_trans; [apply Rabs_triang|]. rewrite Rabs_mult, Rmult_plus_distr_r.
    pose proof (Rmax_l (Rabs a) (mx w)). pose proof (Rmax_r (Rabs a) (mx w)). pose proof (Rabs_pos x). pose proof (sumA_pos c).
    apply Rplus_le_compat; [apply Rmult_le_compat_l; lra|]. eapply Rle_trans; [apply IH|]. apply Rmult_le_compat_l; lra.
Qed.

(** a + r b *)
Fixpoint axpy (a : list R) (r : R) (b : list R) : list R :=
  match a, b with x :: a', y :: b' => x + r * y :: axpy a' r b' | _, _ => [] end.
Lemma axpy_len a r : forall b, length a = length b -> length (axpy a r b) = length a.
Proof. induction a as [|x a IH]; intros [|y b] H; cbn in *; try discriminate; auto. Qed.
Lemma mx_axpy a r : forall b, mx (axpy a r b) <= mx a + Rabs r * mx b.
Proof.
  induction a as [|x a IH]; intros [|y b]; cbn [axpy mx]; rewrite ?Rmult_0_r; try lra.
  - pose proof (mx_pos (y :: b)). pose proof (Rabs_pos r). cbn [mx] in *. assert (0 <= Rabs r * Rmax (Rabs y) (mx b)) by (apply Rmult_le_pos; lra). lra.
  - pose proof (mx_pos (x :: a)) as P. cbn [mx] in P. lra.
  - pose proof (Rmax_l (Rabs x) (mx a)). pose proof (Rmax_r (Rabs x) (mx a)). pose proof (Rmax_l (Rabs y) (mx b)). pose proof (Rmax_r (Rabs y) (mx b)).
    pose proof (Rabs_pos r). apply Rmax_lub.
    + eapply Rle_trans; [apply Rabs_triang|]. rewrite Rabs_mult. apply Rplus_le_compat; [lra|apply Rmult_le_compat_l; lra].
    + eapply Rle_trans; [apply IH|]. apply Rplus_le_compat; [lra|apply Rmult_le_compat_l; lra].
Qed.
Lemma dot_axpy c : forall a r b, length a = length b -> dot c (axpy a r b) = dot c a + r * dot c b.
Proof.
  induction c as [|x c IH]; intros [|u a] r [|v b] H; cbn [axpy dot] in *; try discriminate; try lra. injection H as H. rewrite IH by exact H. lra.
Qed.
Lemma axpy_app a r : forall b x y, length a = length b -> axpy (a ++ [x]) r (b ++ [y]) = axpy a r b ++ [x + r * y].
Proof. induction a as [|u a IH]; intros [|v b] x y H; cbn in *; try discriminate; auto. rewrite IH by lia. reflexivity. Qed.
Lemma axpy_skip a r b : skipn 1 (axpy a r b) = axpy (skipn 1 a) r (skipn 1 b).
Proof. destruct a as [|x a], b as [|y b]; cbn [axpy skipn]; try reflexivity. destruct a; reflexivity. Qed.

(** ** the recursion of the differences *)
Definition shift (w : list R) (x : R) : list R := skipn 1 (w ++ [x]).
Definition comp (S w : list R) : list R := shift w (dot S w).
Lemma shift_len w x : length (shift w x) = length w.
Proof. unfold shift. rewrite skipn_length, app_length. cbn. lia. Qed.
Lemma shift_axpy a r b x y : length a = length b -> shift (axpy a r b) (x + r * y) = axpy (shift a x) r (shift b y).
Proof. intros H. unfold shift. rewrite <- axpy_app by exact H. apply axpy_skip. Qed.
Lemma comp_axpy S a r b : length a = length b -> comp S (axpy a r b) = axpy (comp S a) r (comp S b).
Proof. intros H. unfold comp. rewrite dot_axpy by exact H. now apply shift_axpy. Qed.
Fixpoint iter_comp (S : list R) (m : nat) (w : list R) : list R := match m with O => w | S m' => iter_comp S m' (comp S w) end.
Fixpoint orb (S : list R) (m : nat) (w : list R) : R := match m with O => 0 | S m' => mx w + orb S m' (comp S w) end.
Lemma orb_pos S m : forall w, 0 <= orb S m w.
Proof. induction m as [|m IH]; intros w; cbn [orb]; [lra|]. pose proof (mx_pos w). specialize (IH (comp S w)). lra. Qed.
Lemma orb_axpy S m : forall a r b, length a = length b -> orb S m (axpy a r b) <= orb S m a + Rabs r * orb S m b.
Proof.
  induction m as [|m IH]; intros a r b H; cbn [orb]; [lra|]. rewrite comp_axpy by exact H.
  specialize (IH (comp S a) r (comp S b)). unfold comp in IH at 1 2. rewrite !shift_len in IH. specialize (IH H). pose proof (mx_axpy a r b). lra.
Qed.
Lemma orb_next S m : forall w, mx w + orb S m (comp S w) = orb S m w + mx (iter_comp S m w).
Proof. induction m as [|m IH]; intros w; cbn [orb iter_comp]; [lra|]. rewrite IH. lra. Qed.

Definition contracts (S : list R) (m : nat) (th : R) : Prop := (0 < m)%nat /\ 0 <= th < 1 /\
  forall w, length w = length S -> mx (iter_comp S m w) <= th * mx w.

(** ** differences of consecutive errors *)
Fixpoint diffs (e : list R) : list R := match e with a :: ((b :: _) as e') => b - a :: diffs e' | _ => [] end.
Fixpoint psums (acc : R) (A : list R) : list R := match A with a :: ((_ :: _) as A') => acc + a :: psums (acc + a) A' | _ => [] end.
Lemma diffs_len e : length (diffs e) = (length e - 1)%nat.
Proof. induction e as [|a [|b e] IH]; [reflexivity|reflexivity|]. cbn [diffs length] in *. rewrite IH. lia. Qed.
Lemma psums_len A : forall acc, length (psums acc A) = (length A - 1)%nat.
Proof. induction A as [|a [|b A] IH]; intros acc; [reflexivity|reflexivity|]. cbn [psums length] in *. rewrite IH. lia. Qed.
Lemma dot_psums A : forall acc e, length e = length A -> A <> [] -> dot A e + acc * hd 0 e = (acc + sumR A) * last e 0 - dot (psums acc A) (diffs e).
Proof.
  induction A as [|a A IH]; intros acc e H Hn; [congruence|]. destruct e as [|x e]; [discriminate|]. injection H as H.
  destruct A as [|b A].
  - destruct e; [|discriminate]. cbn. lra.
  - destruct e as [|y e]; [discriminate|]. specialize (IH (acc + a) (y :: e) H ltac:(discriminate)). 
    change (psums acc (a :: b :: A)) with (acc + a :: psums (acc + a) (b :: A)). change (diffs (x :: y :: e)) with (y - x :: diffs (y :: e)).
    change (last (x :: y :: e) 0) with (last (y :: e) 0). change (dot (a :: b :: A) (x :: y :: e)) with (a * x + dot (b :: A) (y :: e)).
    change (sumR (a :: b :: A)) with (a + sumR (b :: A)). cbn [hd dot] in *.
    match goal with |- context [dot (psums ?u ?v) ?z] => set (X := dot (psums u v) z) in * end. clearbody X. lra.
Qed.
Lemma diffs_push e x : e <> [] -> diffs (skipn 1 e ++ [x]) = shift (diffs e) (x - last e 0).
Proof.
  intros H. assert (G : diffs (e ++ [x]) = diffs e ++ [x - last e 0]).
  { clear - H. induction e as [|a [|b e] IH]; [congruence|reflexivity|]. specialize (IH ltac:(discriminate)).
    change (diffs ((a :: b :: e) ++ [x])) with (b - a :: diffs ((b :: e) ++ [x])). rewrite IH. reflexivity. }
  unfold shift. rewrite <- G. destruct e as [|a [|b e]]; [congruence|reflexivity|reflexivity].
Qed.
Lemma errs_bound e : e <> [] -> forall x, In x e -> Rabs x <= Rabs (last e 0) + INR (length e) * mx (diffs e).
Proof.
  induction e as [|a [|b e] IH]; intros Hn x Hx; [congruence| |].
  - destruct Hx as [<-|[]]. cbn. lra.
  - specialize (IH ltac:(discriminate)). change (last (a :: b :: e) 0) with (last (b :: e) 0). change (diffs (a :: b :: e)) with (b - a :: diffs (b :: e)).
    cbn [length]. rewrite S_INR. cbn [mx]. set (D := mx (diffs (b :: e))) in *. set (l := last (b :: e) 0) in *.
    pose proof (Rmax_l (Rabs (b - a)) D) as M1. pose proof (Rmax_r (Rabs (b - a)) D) as M2. set (Mx := Rmax (Rabs (b - a)) D) in *.
    pose proof (pos_INR (length (b :: e))) as Pn. cbn [length] in *. set (N := INR (S (length e))) in *.
    assert (Q : N * D <= N * Mx) by (apply Rmult_le_compat_l; lra).
    assert (P0 : 0 <= Mx) by (pose proof (Rabs_pos (b - a)); lra).
    destruct Hx as [<-|Hx].
    + specialize (IH b ltac:(now left)). assert (Rabs a <= Rabs b + Rabs (b - a)). { replace a with (b + - (b - a)) at 1 by lra. eapply Rle_trans; [apply Rabs_triang|]. rewrite Rabs_Ropp. lra. }
      lra.
    + specialize (IH x Hx). lra.
Qed.

(** ** the norm *)
Section Norm.
Variables (A : list R) (m : nat) (th : R).
Let Sv := psums 0 A.
Hypothesis HA : A <> [].
Hypothesis Hsum : sumR A = -1.
Hypothesis Hc : contracts Sv m th.
Definition kap : R := 1 + sumA Sv / (1 - th).
Definition unit_last : list R := shift (repeat 0 (length A - 1)) 1.
Definition gain : R := 1 + kap * orb Sv m unit_last.
Definition nrm (e : list R) : R := Rabs (last e 0) + kap * orb Sv m (diffs e).
Lemma kap_ge1 : 1 <= kap.
Proof.
  destruct Hc as (_ & Ht & _). unfold kap. pose proof (sumA_pos Sv). assert (0 <= sumA Sv / (1 - th)); [|lra].
  apply Rmult_le_pos; [lra|]. left. apply Rinv_0_lt_compat. lra.
Qed.
Lemma kap_S : sumA Sv <= kap * (1 - th).
Proof.
  destruct Hc as (_ & Ht & _). unfold kap. replace ((1 + sumA Sv / (1 - th)) * (1 - th)) with ((1 - th) + sumA Sv) by (field; lra). lra.
Qed.
Lemma gain_ge1 : 1 <= gain.
Proof. unfold gain. pose proof kap_ge1. pose proof (orb_pos Sv m unit_last). assert (0 <= kap * orb Sv m unit_last) by (apply Rmult_le_pos; lra). lra. Qed.
Lemma mx_orb w : mx w <= orb Sv m w.
Proof. destruct Hc as (Hm & _). destruct m as [|m']; [lia|]. cbn [orb]. pose proof (orb_pos Sv m' (comp Sv w)). lra. Qed.
Lemma nrm_pos e : 0 <= nrm e.
Proof. unfold nrm. pose proof (Rabs_pos (last e 0)). pose proof kap_ge1. pose proof (orb_pos Sv m (diffs e)). assert (0 <= kap * orb Sv m (diffs e)) by (apply Rmult_le_pos; lra). lra. Qed.
Lemma nrm_mx e : mx (diffs e) <= nrm e.
Proof.
  unfold nrm. pose proof (Rabs_pos (last e 0)). pose proof kap_ge1. pose proof (orb_pos Sv m (diffs e)). pose proof (mx_orb (diffs e)).
  assert (1 * orb Sv m (diffs e) <= kap * orb Sv m (diffs e)) by (apply Rmult_le_compat_r; lra). lra.
Qed.
Lemma nrm_last e : Rabs (last e 0) <= nrm e.
Proof. unfold nrm. pose proof kap_ge1. pose proof (orb_pos Sv m (diffs e)). assert (0 <= kap * orb Sv m (diffs e)) by (apply Rmult_le_pos; lra). lra. Qed.
Lemma nrm_in e x : length e = length A -> In x e -> Rabs x <= (1 + INR (length A)) * nrm e.
Proof.
  intros Hl Hx. eapply Rle_trans; [apply (errs_bound e); [intros ->; contradiction|exact Hx]|]. rewrite Hl.
  pose proof (nrm_mx e). pose proof (nrm_last e). pose proof (pos_INR (length A)). assert (INR (length A) * mx (diffs e) <= INR (length A) * nrm e) by (apply Rmult_le_compat_l; lra). lra.
Qed.
Lemma new_err e r x : length e = length A -> x + dot A e = r -> x - last e 0 = dot Sv (diffs e) + r.
Proof. intros Hl Hx. pose proof (dot_psums A 0 e Hl HA) as D. rewrite Hsum in D. fold Sv in D. lra. Qed.
Lemma nrm_new e r x : length e = length A -> x + dot A e = r -> Rabs x <= (1 + sumA Sv) * nrm e + Rabs r.
Proof.
  intros Hl Hx. pose proof (new_err e r x Hl Hx) as D. replace x with (last e 0 + dot Sv (diffs e) + r) by lra.
  eapply Rle_trans; [apply Rabs_triang|]. apply Rplus_le_compat_r. eapply Rle_trans; [apply Rabs_triang|].
  pose proof (nrm_last e). pose proof (dot_mx Sv (diffs e)). pose proof (nrm_mx e). pose proof (sumA_pos Sv).
  assert (sumA Sv * mx (diffs e) <= sumA Sv * nrm e) by (apply Rmult_le_compat_l; lra). lra.
Qed.
Lemma nrm_step e r x : length e = length A -> x + dot A e = r -> nrm (skipn 1 e ++ [x]) <= nrm e + gain * Rabs r.
Proof.
  intros Hl Hx. pose proof (new_err e r x Hl Hx) as D.
  assert (He : e <> []) by (intros X; rewrite X in Hl; symmetry in Hl; apply length_zero_iff_nil in Hl; exact (HA Hl)).
  unfold nrm. rewrite last_last, diffs_push by exact He. rewrite D.
  set (w := diffs e) in *.
  assert (Lw : length w = (length A - 1)%nat) by (unfold w; rewrite diffs_len; lia).
  assert (Sh : shift w (dot Sv w + r) = axpy (comp Sv w) r unit_last).
  { unfold comp, unit_last. rewrite <- shift_axpy by (rewrite repeat_length; exact Lw). rewrite Rmult_1_r. f_equal.
    rewrite <- Lw. clear. induction w as [|a w IH]; [reflexivity|]. cbn [length repeat axpy]. f_equal; [lra|exact IH]. }
  rewrite Sh.
  assert (Lu : length (comp Sv w) = length unit_last) by (unfold comp, unit_last; rewrite !shift_len, repeat_length; exact Lw).
  pose proof (orb_axpy Sv m (comp Sv w) r unit_last Lu) as O1. pose proof (orb_next Sv m w) as O2.
  destruct Hc as (_ & Ht & Hcc). specialize (Hcc w). unfold Sv in Hcc at 1. rewrite psums_len in Hcc. specialize (Hcc Lw).
  pose proof (dot_mx Sv w) as O3. pose proof kap_ge1 as K1. pose proof kap_S as K2. pose proof (mx_pos w) as M0.
  assert (X1 : Rabs x <= Rabs (last e 0) + sumA Sv * mx w + Rabs r).
  { replace x with (last e 0 + dot Sv w + r) by lra. eapply Rle_trans; [apply Rabs_triang|]. apply Rplus_le_compat_r. eapply Rle_trans; [apply Rabs_triang|]. lra. }
  assert (X2 : kap * orb Sv m (axpy (comp Sv w) r unit_last) <= kap * (orb Sv m w - (1 - th) * mx w + Rabs r * orb Sv m unit_last)) by (apply Rmult_le_compat_l; lra).
  assert (X3 : sumA Sv * mx w <= kap * (1 - th) * mx w) by (apply Rmult_le_compat_r; lra).
  unfold gain. set (o1 := orb Sv m w) in *. set (o2 := orb Sv m unit_last) in *. set (q := mx w) in *. set (a := Rabs r) in *.
  replace (kap * (o1 - (1 - th) * q + a * o2)) with (kap * o1 - kap * (1 - th) * q + kap * a * o2) in X2 by ring.
  replace ((1 + kap * o2) * a) with (a + kap * a * o2) by ring. lra.
Qed.
(** errors bounded by d *)
Lemma nrm_small : exists c, 0 <= c /\ forall e d, length e = length A -> 0 <= d -> (forall x, In x e -> Rabs x <= d) -> nrm e <= c * d.
Proof.
  assert (O : exists c, 0 <= c /\ forall w, length w = length Sv -> orb Sv m w <= c * mx w).
  { assert (Cm : forall w, mx (comp Sv w) <= (1 + sumA Sv) * mx w).
    { intros w. pose proof (sumA_pos Sv). pose proof (mx_pos w) as P. assert (0 <= sumA Sv * mx w) by (apply Rmult_le_pos; lra).
      apply mx_le; [lra|]. intros x Hx. unfold comp, shift in Hx. assert (Hi : In x (w ++ [dot Sv w])) by (rewrite <- (firstn_skipn 1 (w ++ [dot Sv w])); apply in_or_app; now right).
      apply in_app_or in Hi as [Hi|[<-|[]]]; [pose proof (mx_in _ _ Hi); lra|pose proof (dot_mx Sv w); lra]. }
    assert (Cp : 0 <= 1 + sumA Sv) by (pose proof (sumA_pos Sv); lra).
    revert Cm Cp. generalize Sv as V. clear. intros V Cm Cp. induction m as [|k IH]; [exists 0; split; [lra|intros; cbn; lra]|].
    destruct IH as (c & Hc & H). exists (1 + c * (1 + sumA V)). split; [assert (0 <= c * (1 + sumA V)) by (apply Rmult_le_pos; lra); lra|].
    intros w Hw. cbn [orb]. specialize (H (comp V w)). unfold comp in H at 1. rewrite shift_len in H. specialize (H Hw).
    assert (c * mx (comp V w) <= c * ((1 + sumA V) * mx w)) by (apply Rmult_le_compat_l; auto). lra. }
  destruct O as (c & Hc0 & O). pose proof kap_ge1 as K1. exists (1 + kap * (c * 2)). split; [assert (0 <= kap * (c * 2)) by (apply Rmult_le_pos; lra); lra|].
  intros e d Hl Hd H. unfold nrm.
  assert (He : e <> []) by (intros X; rewrite X in Hl; symmetry in Hl; apply length_zero_iff_nil in Hl; exact (HA Hl)).
  assert (H1 : Rabs (last e 0) <= d). { apply H. destruct (exists_last He) as (l & z & ->). rewrite last_last. apply in_or_app. right. now left. }
  assert (H2 : mx (diffs e) <= 2 * d).
  { apply mx_le; [lra|]. clear - H Hd. induction e as [|a [|b e] IH]; intros x Hx; [contradiction|contradiction|].
    destruct Hx as [<-|Hx].
    - replace (b - a) with (b + - a) by lra. eapply Rle_trans; [apply Rabs_triang|]. rewrite Rabs_Ropp.
      assert (Rabs b <= d) by (apply H; right; now left). assert (Rabs a <= d) by (apply H; now left). lra.
    - apply IH; [|exact Hx]. intros z Hz. apply H. now right. }
  specialize (O (diffs e)). unfold Sv in O at 1. rewrite psums_len, diffs_len, Hl in O. specialize (O eq_refl).
  assert (H3 : c * mx (diffs e) <= c * (2 * d)) by (apply Rmult_le_compat_l; lra).
  assert (H4 : kap * orb Sv m (diffs e) <= kap * (c * (2 * d))) by (apply Rmult_le_compat_l; lra). lra.
Qed.
End Norm.
