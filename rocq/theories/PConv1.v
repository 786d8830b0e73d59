(** C33: analysis.  Error propagation of one Runge-Kutta step. *)
From Coq Require Import List ZArith Bool Arith Lia Reals Lra.
From Verif Require Import Base Scalar Vec MBuffer MZeros MSteps MApi MClasses Laws Spec SpecInst
  PStep PCore PHist PBound PVecR SpecRK PDim SpecMS SpecConv.
Import ListNotations.
Open Scope R_scope.

(** ** the error in the maximum norm *)
Lemma near_mono e e' u v : e <= e' -> near e u v -> near e' u v.
Proof. intros H (A & B). split; auto. intros i Hi. specialize (B i Hi). lra. Qed.
Lemma near_refl e u : 0 <= e -> near e u u.
Proof. intros H. split; auto. intros i _. rewrite Rminus_diag_eq, Rabs_R0; auto. Qed.
Lemma near_trans a b u v w : near a u v -> near b v w -> near (a + b) u w.
Proof.
  intros (A & B) (C & D). split; [congruence|]. intros i Hi. specialize (B i Hi). rewrite A in Hi. specialize (D i Hi).
  replace (cmp i u - cmp i w) with ((cmp i u - cmp i v) + (cmp i v - cmp i w)) by lra.
  eapply Rle_trans; [apply Rabs_triang|]. lra.
Qed.

(** ** sums *)
Definition sumR (w : list R) : R := fold_right Rplus 0 w.
Definition sumA (w : list R) : R := fold_right (fun x s => Rabs x + s) 0 w.
Lemma sumA_pos w : 0 <= sumA w.
Proof. induction w as [|x w IH]; cbn; [lra|]. fold (sumA w). pose proof (Rabs_pos x). lra. Qed.
Lemma dot_near w l d e : length w = length l -> Forall (fun x => Rabs (x - d) <= e) l ->
  Rabs (dot w l - sumR w * d) <= sumA w * e.
Proof.
  revert l. induction w as [|x w IH]; intros [|z l] H F; try discriminate.
  - cbn. rewrite Rmult_0_l, Rminus_0_r, Rmult_0_l, Rabs_R0. lra.
  - inversion F as [|? ? F1 F2]; subst. injection H as H. specialize (IH l H F2).
    cbn [dot sumR sumA fold_right]. fold (sumR w) (sumA w).
    replace (x * z + dot w l - (x + sumR w) * d) with (x * (z - d) + (dot w l - sumR w * d)) by lra.
    eapply Rle_trans; [apply Rabs_triang|]. rewrite Rabs_mult.
    pose proof (Rabs_pos x). assert (Rabs x * Rabs (z - d) <= Rabs x * e) by (apply Rmult_le_compat_l; auto). lra.
Qed.

(** ** what is used of the solution *)
Definition sol_ok (n : nat) (t0 te M : R) (y dy : R -> list R) : Prop :=
  0 <= M /\
  (forall t, t0 <= t <= te -> length (y t) = n /\ length (dy t) = n) /\
  (forall s t i, t0 <= s <= t -> t <= te -> (i < n)%nat -> Rabs (cmp i (dy t) - cmp i (dy s)) <= M * (t - s)) /\
  (forall s t i, t0 <= s <= t -> t <= te -> (i < n)%nat ->
     Rabs (cmp i (y t) - cmp i (y s) - (t - s) * cmp i (dy s)) <= M * ((t - s) * (t - s))).

Lemma max_bound (f : nat -> R -> R) a b n : a <= b -> (forall i c, (i < n)%nat -> a <= c <= b -> continuity_pt (f i) c) ->
  exists M, 0 <= M /\ forall i c, (i < n)%nat -> a <= c <= b -> Rabs (f i c) <= M.
Proof.
  intros Hab. induction n as [|n IH]; intros H.
  - exists 0. split; [lra|]. intros; lia.
  - destruct IH as (M & HM & HI). { intros i c Hi. apply H. lia. }
    destruct (continuity_ab_maj (fun x => Rabs (f n x)) a b Hab) as (x & Hx & _).
    { intros c Hc. apply (continuity_pt_comp (f n) Rabs c). apply H; auto. apply Rcontinuity_abs. }
    exists (Rmax M (Rabs (f n x))). split; [eapply Rle_trans; [exact HM|apply Rmax_l]|].
    intros i c Hi Hc. destruct (Nat.eq_dec i n) as [->|Hn].
    + eapply Rle_trans; [apply (Hx c Hc)|apply Rmax_r].
    + eapply Rle_trans; [apply HI; auto; lia|apply Rmax_l].
Qed.

Lemma C2_sol_ok rhs n t0 te y : t0 <= te -> keeps_dim (OT := Rops) n rhs -> C2_solution rhs n t0 te y ->
  exists dy M, sol_ok n t0 te M y dy /\ forall t, t0 <= t <= te -> rhs t (y t) = Ret (dy t).
Proof.
  intros Hte Kd (dy & ddy & H).
  destruct (max_bound (fun i x => cmp i (ddy x)) t0 te n Hte) as (M & HM & HB).
  { intros i c Hi Hc. apply (proj2 (proj2 (H c Hc))); auto. }
  exists dy, M. split; [|intros t Ht; apply (H t Ht)].
  assert (D1 : forall s t i, t0 <= s <= t -> t <= te -> (i < n)%nat -> Rabs (cmp i (dy t) - cmp i (dy s)) <= M * (t - s)).
  { intros s t i Hs Ht Hi. destruct (Rle_lt_or_eq_dec s t (proj2 Hs)) as [Hlt| ->].
    - destruct (MVT_cor2 (fun x => cmp i (dy x)) (fun x => cmp i (ddy x)) s t Hlt) as (c & Hc & Hc2).
      { intros c Hc. apply (proj2 (proj2 (H c ltac:(lra)))); auto. }
      rewrite Hc, Rabs_mult, (Rabs_right (t - s)) by lra. apply Rmult_le_compat_r; [lra|]. apply HB; auto. lra.
    - rewrite Rminus_diag_eq, Rabs_R0 by auto. lra. }
  split; [exact HM|]. split; [|split; [exact D1|]].
  - intros t Ht. destruct (H t Ht) as (A & B & _). split; auto. exact (Kd t (y t) (dy t) A B).
  - intros s t i Hs Ht Hi. destruct (Rle_lt_or_eq_dec s t (proj2 Hs)) as [Hlt| ->].
    + destruct (MVT_cor2 (fun x => cmp i (y x)) (fun x => cmp i (dy x)) s t Hlt) as (c & Hc & Hc2).
      { intros c Hc. apply (proj2 (proj2 (H c ltac:(lra)))); auto. }
      rewrite Hc. replace (cmp i (dy c) * (t - s) - (t - s) * cmp i (dy s)) with ((t - s) * (cmp i (dy c) - cmp i (dy s))) by lra.
      rewrite Rabs_mult, (Rabs_right (t - s)) by lra.
      assert (Rabs (cmp i (dy c) - cmp i (dy s)) <= M * (t - s)).
      { eapply Rle_trans; [apply D1; auto; lra|]. apply Rmult_le_compat_l; lra. }
      replace (M * ((t - s) * (t - s))) with ((t - s) * (M * (t - s))) by lra. apply Rmult_le_compat_l; lra.
    + replace (cmp i (y t) - cmp i (y t) - (t - t) * cmp i (dy t)) with 0 by lra. rewrite Rabs_R0. 
      replace (M * ((t - t) * (t - t))) with 0 by lra. lra.
Qed.

(** ** stages *)
Fixpoint rows_ok (al : R) (i : nat) (rows : list (list R)) (cs : list R) : Prop :=
  match rows, cs with
  | [], [] => True
  | a :: rows', c :: cs' => length (firstn i a) = i /\ sumR (firstn i a) = c /\ sumA (firstn i a) <= al /\ 0 <= c <= 1 /\
      rows_ok al (S i) rows' cs'
  | _, _ => False
  end.

Section Conv.
Variables (rhs : @rhs_t Rops) (n : nat) (L t0 te M : R) (y dy : R -> list R).
Hypothesis HL : lipschitz n L rhs.
Hypothesis HS : sol_ok n t0 te M y dy.
Hypothesis HD : forall t, t0 <= t <= te -> rhs t (y t) = Ret (dy t).

Lemma rhs_near t u f e : t0 <= t <= te -> near e u (y t) -> rhs t u = Ret f -> near (L * e) f (dy t).
Proof.
  intros Ht Hu Hf. destruct HS as (_ & Hl & _). destruct (Hl t Ht) as (H1 & H2).
  apply (proj2 (proj2 HL) t u (y t)); auto. destruct Hu. congruence.
Qed.

(** y + sum_j w_j k_j against the solution *)
Lemma comb_near t u e w K e' h x : t0 <= t -> 0 <= x -> t + x <= te -> 0 <= h -> near e u (y t) -> length w = length K ->
  Forall (fun k => near e' k (dy t)) K -> h * sumR w = x ->
  forall z, length z = n -> (forall i, (i < n)%nat -> cmp i z = cmp i u + h * dot w (map (fun k => cmp i k) K)) ->
  near (e + h * (sumA w * e') + M * (x * x)) z (y (t + x)).
Proof.
  intros Ht Hx Hte Hh Hu Hw HK Hsum z Hz Hc. destruct HS as (HM & Hl & _ & Hy).
  destruct (Hl t ltac:(lra)) as (H1 & H2). destruct (Hl (t + x) ltac:(lra)) as (H3 & _).
  split; [congruence|]. intros i Hi. rewrite Hz in Hi. rewrite (Hc i Hi).
  destruct Hu as (Hu1 & Hu2). specialize (Hu2 i). rewrite Hu1, H1 in Hu2. specialize (Hu2 Hi).
  assert (Hd : Rabs (dot w (map (fun k => cmp i k) K) - sumR w * cmp i (dy t)) <= sumA w * e').
  { apply dot_near; [now rewrite map_length|]. apply Forall_map. eapply Forall_impl; [|exact HK]. intros k (Hk1 & Hk2).
    apply Hk2. rewrite Hk1, H2. exact Hi. }
  specialize (Hy t (t + x) i ltac:(lra) Hte Hi). replace (t + x - t) with x in Hy by lra.
  replace (cmp i u + h * dot w (map (fun k => cmp i k) K) - cmp i (y (t + x))) with
    ((cmp i u - cmp i (y t)) + h * (dot w (map (fun k => cmp i k) K) - sumR w * cmp i (dy t)) -
     (cmp i (y (t + x)) - cmp i (y t) - x * cmp i (dy t))) by (rewrite <- Hsum; lra).
  eapply Rle_trans; [apply Rabs_triang|]. rewrite Rabs_Ropp. apply Rplus_le_compat; [|exact Hy].
  eapply Rle_trans; [apply Rabs_triang|]. apply Rplus_le_compat; [exact Hu2|].
  rewrite Rabs_mult, (Rabs_right h) by lra. apply Rmult_le_compat_l; auto.
Qed.

Lemma stages_near al (Hal : 0 <= al) rows : forall cs i La D, 0 <= La -> 0 <= D -> rows_ok al i rows cs ->
  exists La' D', 0 <= La' /\ 0 <= D' /\ forall h e t u K K', 0 < h <= 1 -> 0 <= e -> t0 <= t -> t + h <= te ->
    near e u (y t) -> length K = i -> Forall (fun k => near (La * e + D * h) k (dy t)) K ->
    stages_of (OT := Rops) rhs t u h rows cs K K' ->
    Forall (fun k => near (La' * e + D' * h) k (dy t)) K' /\ length K' = (i + length rows)%nat.
Proof.
  assert (HM : 0 <= M) by apply HS. assert (HL0 : 0 <= L) by apply HL.
  induction rows as [|a rows IH]; intros [|c cs] i La D HLa HD0 Hr; cbn [rows_ok] in Hr; try contradiction.
  - exists La, D. split; auto. split; auto. intros h e t u K K' _ _ _ _ _ HK F St. inversion St; subst. cbn. rewrite Nat.add_0_r. auto.
  - destruct Hr as (R1 & R2 & R3 & R4 & R5).
    set (La1 := La + L * (1 + al * La)). set (D1 := D + (L * (al * D) + L * M + M)).
    assert (P1 : 0 <= al * La) by (apply Rmult_le_pos; lra).
    assert (P2 : 0 <= L * (1 + al * La)) by (apply Rmult_le_pos; lra).
    assert (P3 : 0 <= al * D) by (apply Rmult_le_pos; lra).
    assert (P4 : 0 <= L * (al * D)) by (apply Rmult_le_pos; lra).
    assert (P5 : 0 <= L * M) by (apply Rmult_le_pos; lra).
    destruct (IH cs (S i) La1 D1) as (La' & D' & H1 & H2 & H3); try (unfold La1, D1; lra); auto.
    exists La', D'. split; auto. split; auto.
    intros h e t u K K' Hh He Ht Hte Hu HK F St.
    assert (Kd : Forall (fun k => length k = n) K).
    { eapply Forall_impl; [|exact F]. intros k (Hk & _). destruct HS as (_ & Hl & _). rewrite Hk. apply (Hl t). lra. }
    inversion St as [|? ? ? ? ? k ? Hk St']; subst. set (c := sumR (firstn (length K) a)) in *.
    assert (Ln : length u = n). { destruct Hu as (Hu & _). rewrite Hu. destruct HS as (_ & Hl & _). apply (Hl t). lra. }
    assert (Hc0 : 0 <= h * c) by (apply Rmult_le_pos; lra).
    assert (Hc1 : h * c <= h) by (rewrite <- (Rmult_1_r h) at 2; apply Rmult_le_compat_l; lra).
    assert (Hz : near (e + h * (sumA (firstn (length K) a) * (La * e + D * h)) + M * ((h * c) * (h * c)))
                  (@vadd Rops u (@vscale Rops h (@lincomb Rops (length u) (firstn (length K) a) K))) (y (t + h * c))).
    { apply (comb_near t u e (firstn (length K) a) K (La * e + D * h) h (h * c)); auto; try lra.
      - rewrite Ln. apply vadd_len; auto. apply vscale_len. apply lincomb_len; auto.
      - intros j Hj. rewrite Ln. rewrite (vadd_cmp n) by (auto; apply vscale_len; apply lincomb_len; auto).
        rewrite vscale_cmp. rewrite lincomb_cmp by auto. reflexivity. }
    apply (rhs_near (t + h * c) _ k) in Hz; [|lra|exact Hk].
    assert (Hd : near (M * (h * c)) (dy (t + h * c)) (dy t)).
    { destruct HS as (_ & Hl & Hdd & _). destruct (Hl (t + h * c) ltac:(lra)) as (_ & E1). destruct (Hl t ltac:(lra)) as (_ & E2).
      split; [congruence|]. intros j Hj. rewrite E1 in Hj. eapply Rle_trans; [apply (Hdd t (t + h * c) j); auto; lra|].
      apply Rmult_le_compat_l; lra. }
    assert (Hk2 : near (La1 * e + D1 * h) k (dy t)).
    { eapply near_mono; [|exact (near_trans _ _ _ _ _ Hz Hd)].
      assert (Q0 : 0 <= La * e + D * h) by (apply Rplus_le_le_0_compat; apply Rmult_le_pos; lra).
      assert (Q1 : sumA (firstn (length K) a) * (La * e + D * h) <= al * (La * e + D * h)) by (apply Rmult_le_compat_r; lra).
      assert (Q2 : 0 <= al * (La * e + D * h)) by (apply Rmult_le_pos; lra).
      assert (Q3 : h * (sumA (firstn (length K) a) * (La * e + D * h)) <= h * (al * (La * e + D * h))) by (apply Rmult_le_compat_l; lra).
      assert (Q4 : h * (al * La * e) <= al * La * e).
      { rewrite <- (Rmult_1_l (al * La * e)) at 2. apply Rmult_le_compat_r; [apply Rmult_le_pos; lra|lra]. }
      assert (Q5 : h * (al * D * h) <= al * D * h).
      { rewrite <- (Rmult_1_l (al * D * h)) at 2. apply Rmult_le_compat_r; [apply Rmult_le_pos; lra|lra]. }
      assert (Q6 : (h * c) * (h * c) <= h).
      { apply Rle_trans with (h * 1); [apply Rmult_le_compat; lra|lra]. }
      assert (Q7 : M * ((h * c) * (h * c)) <= M * h) by (apply Rmult_le_compat_l; lra).
      assert (Q8 : M * (h * c) <= M * h) by (apply Rmult_le_compat_l; lra).
      assert (Q9 : L * (e + h * (sumA (firstn (length K) a) * (La * e + D * h)) + M * ((h * c) * (h * c))) <=
                   L * (e + (al * La * e + al * D * h) + M * h)) by (apply Rmult_le_compat_l; lra).
      assert (Q10 : 0 <= La * e) by (apply Rmult_le_pos; lra). assert (Q11 : 0 <= D * h) by (apply Rmult_le_pos; lra).
      unfold La1, D1. lra. }
    specialize (H3 h e t u (K ++ [k]) K' Hh He Ht Hte Hu).
    destruct H3 as (H3 & H4).
    + rewrite app_length. cbn. lia.
    + apply Forall_app. split; [|auto]. eapply Forall_impl; [|exact F]. intros k0 Hk0. eapply near_mono; [|exact Hk0].
      unfold La1, D1. apply Rplus_le_compat; apply Rmult_le_compat_r; lra.
    + exact St'.
    + split; auto. rewrite H4. cbn. lia.
Qed.

(** one Runge-Kutta step *)
Definition tab_ok (al : R) (A : list (list R)) (B C : list R) : Prop :=
  rows_ok al 1 (skipn 1 A) (skipn 1 C) /\ length B = S (length (skipn 1 A)) /\ sumR B = 1.

Lemma rk_step_near al A B C : 0 <= al -> tab_ok al A B C ->
  exists La D, 0 <= La /\ 0 <= D /\ forall h e t u f K u', 0 < h <= 1 -> 0 <= e -> t0 <= t -> t + h <= te ->
    near e u (y t) -> rhs t u = Ret f -> rk_step (OT := Rops) rhs A B C t u f h K u' ->
    near ((1 + h * La) * e + D * (h * h)) u' (y (t + h)).
Proof.
  intros Hal (Hr & HB & HB1). assert (HM : 0 <= M) by apply HS. assert (HL0 : 0 <= L) by apply HL.
  destruct (stages_near al Hal (skipn 1 A) (skipn 1 C) 1 L 0 HL0 ltac:(lra) Hr) as (La & D & H1 & H2 & H3).
  pose proof (sumA_pos B) as HB2.
  exists (sumA B * La), (sumA B * D + M). split; [apply Rmult_le_pos; auto|]. split; [apply Rplus_le_le_0_compat; auto; apply Rmult_le_pos; auto|].
  intros h e t u f K u' Hh He Ht Hte Hu Hf (St & ->).
  destruct (H3 h e t u [f] K Hh He Ht Hte Hu eq_refl) as (F & Lk); auto.
  { constructor; auto. rewrite Rmult_0_l, Rplus_0_r. apply (rhs_near t u f e); auto. lra. }
  assert (Ln : length u = n). { destruct Hu as (Hu & _). rewrite Hu. destruct HS as (_ & Hl & _). apply (Hl t). lra. }
  assert (Kd : Forall (fun k => length k = n) K).
  { eapply Forall_impl; [|exact F]. intros k (Hk & _). destruct HS as (_ & Hl & _). refine (eq_trans Hk _). apply (Hl t). lra. }
  eapply near_mono; [|apply (comb_near t u e B K (La * e + D * h) h h); auto; try lra].
  - replace ((1 + h * (sumA B * La)) * e + (sumA B * D + M) * (h * h)) with
      (e + h * (sumA B * (La * e + D * h)) + M * (h * h)) by lra. lra.
  - exact (eq_trans HB (eq_sym Lk)).
  - refine (eq_trans (f_equal (Rmult h) HB1) _). apply Rmult_1_r.
  - unfold rk_combine. apply vadd_len; auto. refine (eq_trans (f_equal (fun k => length (@lincomb Rops k _ K)) Ln) _). apply lincomb_len; auto.
  - intros i Hi. unfold rk_combine. replace (@length (@T Rops) u) with n by exact (eq_sym Ln). rewrite (vadd_cmp n) by (auto; apply lincomb_len; auto).
    rewrite lincomb_cmp by auto. f_equal. clear. generalize (map (fun k => cmp i k) K). 
    change (@mul Rops h) with (Rmult h). induction B as [|b B IH]; intros [|x l]; cbn; try lra. rewrite IH. lra.
Qed.
End Conv.

(** ** accumulation *)
Lemma exp_ge x : 1 + x <= exp x.
Proof.
  destruct (Req_dec x 0) as [->|H]; [rewrite exp_0; lra|]. left. now apply exp_ineq1.
Qed.
Definition acc (La E0 D h x : R) : R := exp (La * x) * (E0 + x * D) * h.
Lemma acc_step La E0 D h x : 0 <= La -> 0 <= E0 -> 0 <= D -> 0 < h -> 0 <= x ->
  (1 + h * La) * acc La E0 D h x + D * (h * h) <= acc La E0 D h (x + h).
Proof.
  intros H1 H2 H3 H4 H5. unfold acc. rewrite (Rmult_plus_distr_l La x h), exp_plus.
  pose proof (exp_ge (La * h)) as G. pose proof (exp_pos (La * x)) as P.
  assert (P0 : 0 <= La * x) by (apply Rmult_le_pos; lra). assert (P1 : 0 <= La * h) by (apply Rmult_le_pos; lra).
  pose proof (exp_ge (La * x)) as G'.
  assert (Q0 : 0 <= x * D) by (apply Rmult_le_pos; lra).
  assert (Q : 0 <= exp (La * x) * (E0 + x * D) * h) by (repeat apply Rmult_le_pos; lra).
  assert (Q1 : (1 + h * La) * (exp (La * x) * (E0 + x * D) * h) <= exp (La * h) * (exp (La * x) * (E0 + x * D) * h))
    by (apply Rmult_le_compat_r; lra).
  assert (Q2 : 1 <= exp (La * x) * exp (La * h)). { rewrite <- (Rmult_1_l 1) at 1. apply Rmult_le_compat; lra. }
  assert (Q3 : 0 <= D * (h * h)) by (repeat apply Rmult_le_pos; lra).
  assert (Q4 : 1 * (D * (h * h)) <= exp (La * x) * exp (La * h) * (D * (h * h))) by (apply Rmult_le_compat_r; lra).
  lra.
Qed.
Lemma acc_mono La E0 E1 D h x x' : 0 <= La -> 0 <= E0 <= E1 -> 0 <= D -> 0 < h -> 0 <= x <= x' -> acc La E0 D h x <= acc La E1 D h x'.
Proof.
  intros H1 H2 H3 H4 H5. unfold acc. apply Rmult_le_compat_r; [lra|].
  assert (0 <= x * D) by (apply Rmult_le_pos; lra). assert (x * D <= x' * D) by (apply Rmult_le_compat_r; lra).
  apply Rmult_le_compat; [left; apply exp_pos|lra| |lra].
  destruct (Req_dec (La * x) (La * x')) as [->|Hn]; [lra|]. left. apply exp_increasing.
  assert (La * x <= La * x') by (apply Rmult_le_compat_l; lra). lra.
Qed.
Lemma acc_pos La E0 D h x : 0 <= E0 -> 0 <= D -> 0 < h -> 0 <= x -> 0 <= acc La E0 D h x.
Proof.
  intros. unfold acc. assert (0 <= x * D) by (apply Rmult_le_pos; lra).
  repeat apply Rmult_le_pos; try lra. left; apply exp_pos.
Qed.
Lemma acc_ge La E0 D h x : 0 <= La -> 0 <= E0 -> 0 <= D -> 0 < h -> 0 <= x -> E0 * h <= acc La E0 D h x.
Proof.
  intros. eapply Rle_trans; [|apply (acc_mono La E0 E0 D h 0 x); lra]. unfold acc. rewrite Rmult_0_r, exp_0. lra.
Qed.
