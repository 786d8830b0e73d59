(** Stages, step and dense output of a tableau whose weights nearly add up to one. *)
From Coq Require Import List ZArith Bool Arith Lia Reals Lra.
From Verif Require Import Base Scalar Vec MBuffer MZeros MSteps MApi MClasses Laws Spec SpecInst PVecR SpecRK SpecDense PDim PRK PMS PDense SpecConv PConv1 PConv6 PHi1 PHi2 PVar2 PC1 PSolve6 PVL2.
Import ListNotations.
Open Scope R_scope.

(** sizes of the rows and nodes; nothing about their sums *)
Fixpoint rows_w (al : R) (i : nat) (rows : list (list R)) (cs : list R) : Prop :=
  match rows, cs with
  | [], [] => True
  | a :: rows', c :: cs' => length (firstn i a) = i /\ sumA (firstn i a) <= al /\ 0 <= c <= 1 /\ rows_w al (S i) rows' cs'
  | _, _ => False
  end.

Lemma abs3 u y d z a b c : Rabs (u - y) <= a -> Rabs d <= b -> Rabs (z - y) <= c -> Rabs (u + d - z) <= a + b + c.
Proof. unfold Rabs. repeat destruct Rcase_abs; lra. Qed.
Lemma abs4 u y h d sb f z a b c m : 0 < h -> Rabs (u - y) <= a -> Rabs (d - sb * f) <= b -> Rabs ((sb - 1) * f) <= c -> Rabs (z - y - h * f) <= m ->
  Rabs (u + h * d - z) <= a + h * (b + c) + m.
Proof.
  intros Hh H1 H2 H3 H4. replace (u + h * d - z) with ((u - y) + h * ((d - sb * f) + (sb - 1) * f) - (z - y - h * f)) by ring.
  eapply Rle_trans; [apply Rabs_triang|]. rewrite Rabs_Ropp. apply Rplus_le_compat; [|exact H4].
  eapply Rle_trans; [apply Rabs_triang|]. apply Rplus_le_compat; [exact H1|]. rewrite Rabs_mult, (Rabs_pos_eq h) by lra. apply Rmult_le_compat_l; [lra|].
  eapply Rle_trans; [apply Rabs_triang|]. lra.
Qed.
Lemma alt_abs x l : 0 <= x <= 1 -> Rabs (alt x l) <= sumA l.
Proof.
  intros Hx. induction l as [|a l IH]; cbn [alt sumA fold_right]; [rewrite Rabs_R0; lra|]. fold (sumA l). rewrite Rabs_mult.
  assert (Q : Rabs (if Nat.even (length l) then x else 1 - x) <= 1) by (destruct Nat.even; rewrite Rabs_pos_eq; lra).
  pose proof (Rabs_pos (a + alt x l)). eapply Rle_trans; [apply Rmult_le_compat_l; [auto|exact Q]|]. rewrite Rmult_1_r. eapply Rle_trans; [apply Rabs_triang|]. lra.
Qed.
Lemma sumA_cons a l : sumA (a :: l) = Rabs a + sumA l. Proof. reflexivity. Qed.
Lemma sumR_cons a l : sumR (a :: l) = a + sumR l. Proof. reflexivity. Qed.
Section St.
Variables (rhs : @rhs_t Rops) (n : nat) (L t0 te M S : R) (y dy : R -> list R).
Hypothesis HL : lipschitz n L rhs.
Hypothesis HS : sol_ok n t0 te M y dy.
Hypothesis HD : forall t, t0 <= t <= te -> rhs t (y t) = Ret (dy t).
Hypothesis HSp : 0 <= S.
Hypothesis HSb : forall t i, t0 <= t <= te -> (i < n)%nat -> Rabs (cmp i (dy t)) <= S.
Variable al : R.
Hypothesis Hal : 0 <= al.
Let kap := L * (al * S) + L * (S + M) + M.
Definition dev (e h : R) : R := 2 * (L * e) + h * (2 * kap).

Lemma HM0 : 0 <= M. Proof. apply HS. Qed.
Lemma HL0 : 0 <= L. Proof. apply HL. Qed.
Lemma kap_pos : 0 <= kap.
Proof.
  pose proof HM0. pose proof HL0. unfold kap. assert (0 <= L * (al * S)) by (repeat apply Rmult_le_pos; auto).
  assert (0 <= L * (S + M)) by (apply Rmult_le_pos; lra). lra.
Qed.
Lemma dev_pos e h : 0 <= e -> 0 <= h -> 0 <= dev e h.
Proof.
  intros. pose proof kap_pos. pose proof HL0. unfold dev. assert (0 <= L * e) by (apply Rmult_le_pos; lra). assert (0 <= h * (2 * kap)) by (apply Rmult_le_pos; lra). lra.
Qed.
(** weighted sums of stages *)
Lemma dot_size w e' t i : t0 <= t <= te -> 0 <= e' -> (i < n)%nat -> forall K, Forall (fun k => near e' k (dy t)) K ->
  Rabs (dot w (map (fun k => cmp i k) K)) <= sumA w * (S + e').
Proof.
  intros Ht He Hi. induction w as [|x w IH]; intros [|k K] F; cbn [map dot sumA fold_right]; try fold (sumA w).
  - rewrite Rabs_R0. lra.
  - rewrite Rabs_R0. lra.
  - rewrite Rabs_R0. pose proof (sumA_pos w). pose proof (Rabs_pos x). apply Rmult_le_pos; lra.
  - inversion F as [|? ? (F1 & F2) F3]; subst. eapply Rle_trans; [apply Rabs_triang|]. rewrite Rabs_mult, Rmult_plus_distr_r.
    apply Rplus_le_compat; [apply Rmult_le_compat_l; [apply Rabs_pos|]|now apply IH].
    destruct HS as (_ & Hl & _). destruct (Hl t Ht) as (_ & Ld). specialize (F2 i ltac:(rewrite F1, Ld; exact Hi)). specialize (HSb t i Ht Hi).
    replace (cmp i k) with ((cmp i k - cmp i (dy t)) + cmp i (dy t)) by ring. eapply Rle_trans; [apply Rabs_triang|]. lra.
Qed.
Lemma sol_move t x i : t0 <= t -> 0 <= x -> t + x <= te -> x <= 1 -> (i < n)%nat -> Rabs (cmp i (y (t + x)) - cmp i (y t)) <= x * (S + M).
Proof.
  intros Ht Hx Hte H1 Hi. pose proof HM0. destruct HS as (_ & _ & _ & Hy). specialize (Hy t (t + x) i ltac:(lra) Hte Hi). replace (t + x - t) with x in Hy by ring.
  specialize (HSb t i ltac:(lra) Hi).
  replace (cmp i (y (t + x)) - cmp i (y t)) with ((cmp i (y (t + x)) - cmp i (y t) - x * cmp i (dy t)) + x * cmp i (dy t)) by ring.
  eapply Rle_trans; [apply Rabs_triang|]. rewrite Rabs_mult, (Rabs_pos_eq x) by auto.
  assert (x * Rabs (cmp i (dy t)) <= x * S) by (apply Rmult_le_compat_l; auto).
  assert (M * (x * x) <= M * (x * 1)) by (apply Rmult_le_compat_l; [auto|apply Rmult_le_compat_l; auto]). lra.
Qed.
(** one more stage *)
Lemma stage_fl h e t u K w c k : 0 < h <= 1 -> h * (L * al) <= 1 / 2 -> 0 <= e -> t0 <= t -> t + h <= te -> near e u (y t) -> 0 <= c <= 1 ->
  sumA w <= al -> Forall (fun k => near (dev e h) k (dy t)) K ->
  rhs (t + h * c) (@vadd Rops u (@vscale Rops h (@lincomb Rops (length u) w K))) = Ret k -> near (dev e h) k (dy t).
Proof.
  intros Hh Hq He Ht Hte Hu Hc Hw F Hk. pose proof HM0 as PM. pose proof HL0 as PL. pose proof (dev_pos e h He ltac:(lra)) as Pd.
  destruct HS as (_ & Hl & Hdd & _). destruct (Hl t ltac:(lra)) as (E1 & E2).
  assert (Ln : length u = n) by (destruct Hu as (Hu & _); now rewrite Hu).
  assert (Kd : Forall (fun k => length k = n) K) by (eapply Forall_impl; [|exact F]; intros k0 (Hk0 & _); now rewrite Hk0).
  assert (Hc0 : 0 <= h * c) by (apply Rmult_le_pos; lra).
  assert (Hc1 : h * c <= h) by (rewrite <- (Rmult_1_r h) at 2; apply Rmult_le_compat_l; lra).
  set (q := e + h * (al * (S + dev e h)) + h * (S + M)).
  assert (Hz : near q (@vadd Rops u (@vscale Rops h (@lincomb Rops (length u) w K))) (y (t + h * c))).
  { assert (Lz : length (@vadd Rops u (@vscale Rops h (@lincomb Rops (length u) w K))) = n).
    { apply vadd_len; auto. apply vscale_len. rewrite Ln. apply lincomb_len; auto. }
    destruct (Hl (t + h * c) ltac:(lra)) as (E3 & _). split; [exact (eq_trans Lz (eq_sym E3))|]. intros i Hi.
    assert (Hi' : (i < n)%nat) by (rewrite <- Lz; exact Hi). rewrite Ln. rewrite (vadd_cmp n) by (auto; apply vscale_len; apply lincomb_len; auto).
    rewrite vscale_cmp, lincomb_cmp by auto.
    destruct Hu as (Hu1 & Hu2). specialize (Hu2 i ltac:(rewrite Ln; exact Hi')).
    pose proof (dot_size w (dev e h) t i ltac:(lra) Pd Hi' K F) as Dk.
    pose proof (sol_move t (h * c) i Ht Hc0 ltac:(lra) ltac:(lra) Hi') as Sm.
    unfold q. apply (abs3 (cmp i u) (cmp i (y t))); [exact Hu2| |].
    - rewrite Rabs_mult, (Rabs_pos_eq h) by lra. apply Rmult_le_compat_l; [lra|].
      eapply Rle_trans; [exact Dk|]. apply Rmult_le_compat_r; lra.
    - eapply Rle_trans; [exact Sm|]. apply Rmult_le_compat_r; lra. }
  apply (rhs_near rhs n L t0 te M y dy HL HS HD (t + h * c) _ k) in Hz; [|lra|exact Hk].
  assert (Hd : near (M * h) (dy (t + h * c)) (dy t)).
  { destruct (Hl (t + h * c) ltac:(lra)) as (_ & E3). split; [congruence|]. intros j Hj. rewrite E3 in Hj. eapply Rle_trans; [apply (Hdd t (t + h * c) j); auto; lra|].
    apply Rmult_le_compat_l; lra. }
  eapply near_mono; [|exact (near_trans _ _ _ _ _ Hz Hd)].
  assert (Q : h * (L * al) * dev e h <= 1 / 2 * dev e h) by (apply Rmult_le_compat_r; auto).
  unfold q. replace (L * (e + h * (al * (S + dev e h)) + h * (S + M)) + M * h) with (L * e + h * kap + h * (L * al) * dev e h) by (unfold kap; ring).
  unfold dev in *. lra.
Qed.
Lemma stages_fl rows : forall cs i h e t u K K', rows_w al i rows cs -> 0 < h <= 1 -> h * (L * al) <= 1 / 2 -> 0 <= e -> t0 <= t -> t + h <= te -> near e u (y t) ->
  length K = i -> Forall (fun k => near (dev e h) k (dy t)) K -> stages_of (OT := Rops) rhs t u h rows cs K K' ->
  Forall (fun k => near (dev e h) k (dy t)) K' /\ length K' = (i + length rows)%nat.
Proof.
  induction rows as [|a rows IH]; intros [|c cs] i h e t u K K' Hr Hh Hq He Ht Hte Hu HK F St; cbn [rows_w] in Hr; try contradiction.
  - inversion St; subst. cbn. rewrite Nat.add_0_r. auto.
  - destruct Hr as (R1 & R2 & R3 & R4). inversion St as [|? ? ? ? ? k ? Hk St']; subst.
    destruct (IH cs (Datatypes.S (length K)) h e t u (K ++ [k]) K') as (G1 & G2); auto.
    + rewrite app_length. cbn. lia.
    + apply Forall_app. split; [exact F|]. constructor; [|constructor]. eapply (stage_fl h e t u K (firstn (length K) a) c k); eauto.
    + split; [exact G1|]. rewrite G2. cbn. lia.
Qed.
Lemma first_fl h e t u f : 0 <= h -> 0 <= e -> t0 <= t <= te -> near e u (y t) -> rhs t u = Ret f -> near (dev e h) f (dy t).
Proof.
  intros Hh He Ht Hu Hf. eapply near_mono; [|apply (rhs_near rhs n L t0 te M y dy HL HS HD t u f e); auto].
  pose proof kap_pos. pose proof HL0. unfold dev. assert (0 <= L * e) by (apply Rmult_le_pos; lra). assert (0 <= h * (2 * kap)) by (apply Rmult_le_pos; lra). lra.
Qed.

(** the step *)
Variables (A : list (list R)) (B C : list R) (eps : R).
Hypothesis Hrows : rows_w al 1 (skipn 1 A) (skipn 1 C).
Hypothesis HBl : length B = Datatypes.S (length (skipn 1 A)).
Hypothesis HBa : sumA B <= al.
Hypothesis HB1 : Rabs (sumR B - 1) <= eps.
Lemma step_stages h e t u f K u' : 0 < h <= 1 -> h * (L * al) <= 1 / 2 -> 0 <= e -> t0 <= t -> t + h <= te -> near e u (y t) -> rhs t u = Ret f ->
  rk_step (OT := Rops) rhs A B C t u f h K u' -> Forall (fun k => near (dev e h) k (dy t)) K /\ length K = length B /\ length u = n /\ Forall (fun k => length k = n) K /\
    length u' = n /\ forall i, (i < n)%nat -> cmp i u' = cmp i u + h * dot B (map (fun k => cmp i k) K).
Proof.
  intros Hh Hq He Ht Hte Hu Hf (St & ->). destruct (stages_fl (skipn 1 A) (skipn 1 C) 1 h e t u [f] K) as (F & Lk); auto.
  { constructor; [|constructor]. apply (first_fl h e t u f); auto; lra. }
  assert (Hl : forall t, t0 <= t <= te -> length (y t) = n /\ length (dy t) = n) by apply HS.
  assert (Ln : length u = n) by (destruct Hu as (Hu & _); rewrite Hu; apply (Hl t); lra).
  assert (Kd : Forall (fun k => length k = n) K) by (eapply Forall_impl; [|exact F]; intros k0 (Hk0 & _); refine (eq_trans Hk0 _); apply (Hl t); lra).
  split; [exact F|]. split; [exact (eq_trans Lk (eq_sym HBl))|]. split; [exact Ln|]. split; [exact Kd|].
  split.
  - unfold rk_combine. apply vadd_len; auto. refine (eq_trans (f_equal (fun k => length (@lincomb Rops k _ K)) Ln) _). apply lincomb_len; auto.
  - intros i Hi. unfold rk_combine. replace (@length (@T Rops) u) with n by exact (eq_sym Ln). rewrite (vadd_cmp n) by (auto; apply lincomb_len; auto).
    rewrite lincomb_cmp by auto. f_equal. clear. generalize (map (fun k => cmp i k) K).
    change (@mul Rops h) with (Rmult h). induction B as [|b B' IH]; intros [|x l]; cbn; try lra. rewrite IH. lra.
Qed.
Lemma step_fl h e t u f K u' : 0 < h <= 1 -> h * (L * al) <= 1 / 2 -> 0 <= e -> t0 <= t -> t + h <= te -> near e u (y t) -> rhs t u = Ret f ->
  rk_step (OT := Rops) rhs A B C t u f h K u' ->
  near ((1 + h * (2 * (sumA B * L))) * e + h * ((sumA B * (2 * kap) + M) * h + eps * S)) u' (y (t + h)).
Proof.
  intros Hh Hq He Ht Hte Hu Hf Hs. destruct (step_stages h e t u f K u' Hh Hq He Ht Hte Hu Hf Hs) as (F & Lk & Ln & Kd & Lu' & Hc).
  assert (Hl : forall t, t0 <= t <= te -> length (y t) = n /\ length (dy t) = n) by apply HS. destruct (Hl t ltac:(lra)) as (E1 & E2). destruct (Hl (t + h) ltac:(lra)) as (E3 & _).
  split; [exact (eq_trans Lu' (eq_sym E3))|]. intros i Hi0. assert (Hi : (i < n)%nat) by (rewrite <- Lu'; exact Hi0). specialize (Hc i Hi). refine (eq_ind_r (fun z => Rabs (z - cmp i (y (t + h))) <= _) _ Hc).
  destruct Hu as (Hu1 & Hu2). specialize (Hu2 i ltac:(rewrite Ln; exact Hi)).
  assert (Hd : Rabs (dot B (map (fun k => cmp i k) K) - sumR B * cmp i (dy t)) <= sumA B * dev e h).
  { apply dot_near; [now rewrite map_length|]. apply Forall_map. eapply Forall_impl; [|exact F]. intros k (Hk1 & Hk2). apply Hk2. rewrite Hk1, E2. exact Hi. }
  assert (Hy : Rabs (cmp i (y (t + h)) - cmp i (y t) - h * cmp i (dy t)) <= M * (h * h)).
  { destruct HS as (_ & _ & _ & Hy). specialize (Hy t (t + h) i ltac:(lra) Hte Hi). now replace (t + h - t) with h in Hy by ring. }
  assert (He1 : Rabs ((sumR B - 1) * cmp i (dy t)) <= eps * S).
  { rewrite Rabs_mult. apply Rmult_le_compat; auto using Rabs_pos. apply HSb; auto. lra. }
  eapply Rle_trans; [apply (abs4 (cmp i u) (cmp i (y t)) h (dot B (map (fun k => cmp i k) K)) (sumR B) (cmp i (dy t)) (cmp i (y (t + h))) _ _ _ _ ltac:(lra) Hu2 Hd He1 Hy)|].
  unfold dev. apply Req_le. ring.
Qed.

(** the dense output *)
Variables (DD Af : list (list R)) (Cf : list R).
Hypothesis HB12 : length B = 12%nat.
Hypothesis Hext : rows_w al 13 (skipn 13 Af) (skipn 13 Cf).
Let W := 4 * al + 3 + sumR (map (fun row => Rsum (fun k => Rabs (nth k row 0)) (13 + length (skipn 13 Af))) DD).
Lemma W_pos : 0 <= W.
Proof.
  unfold W. assert (0 <= sumR (map (fun row => Rsum (fun k => Rabs (nth k row 0)) (13 + length (skipn 13 Af))) DD)); [|lra].
  induction DD as [|r l IH]; cbn [map sumR fold_right]; [lra|]. fold (sumR (map (fun row => Rsum (fun k => Rabs (nth k row 0)) (13 + length (skipn 13 Af))) l)).
  assert (0 <= Rsum (fun k => Rabs (nth k r 0)) (13 + length (skipn 13 Af))); [|lra]. apply PVL2.Rsum_pos. intros. apply Rabs_pos.
Qed.
Lemma dense_fl h e t u f K u' g K' x : 0 < h <= 1 -> h * (L * al) <= 1 / 2 -> 0 <= e -> t0 <= t -> t + h <= te -> near e u (y t) -> rhs t u = Ret f ->
  rk_step (OT := Rops) rhs A B C t u f h K u' -> rhs (t + h) u' = Ret g -> stages_of (OT := Rops) rhs t u h (skipn 13 Af) (skipn 13 Cf) (K ++ [g]) K' -> t <= x <= t + h ->
  near (e + h * (W * (S + dev e h)) + h * (S + M)) (dop_dense DD t u u' g h K' x) (y x).
Proof.
  intros Hh Hq He Ht Hte Hu Hf Hs Hg Hk Hx. destruct (step_stages h e t u f K u' Hh Hq He Ht Hte Hu Hf Hs) as (F & Lk & Ln & Kd & Lu' & Hc).
  assert (Hl : forall t, t0 <= t <= te -> length (y t) = n /\ length (dy t) = n) by apply HS. destruct (Hl t ltac:(lra)) as (E1 & E2). destruct (Hl x ltac:(lra)) as (E3 & _).
  pose proof (dev_pos e h He ltac:(lra)) as Pd. pose proof HM0 as PM.
  assert (Ng : near (dev e h) g (dy t)).
  { apply (stage_fl h e t u K B 1 g); auto; [lra|]. rewrite Rmult_1_r. destruct Hs as (_ & Hv).
    pose proof (combine_scale n u h B K Ln Kd) as Ec. refine (eq_ind (u') (fun z => rhs (t + h) z = Ret g) Hg _ _). exact (eq_trans Hv Ec). }
  destruct (stages_fl (skipn 13 Af) (skipn 13 Cf) 13 h e t u (K ++ [g]) K') as (F' & Lk'); auto.
  { rewrite app_length, Lk, HB12. reflexivity. }
  { apply Forall_app. split; [exact F|]. constructor; [exact Ng|constructor]. }
  set (Sd := S + dev e h) in *. assert (PS : 0 <= Sd) by (unfold Sd; lra).
  assert (Big : forall k i, near (dev e h) k (dy t) -> (i < n)%nat -> Rabs (cmp i k) <= Sd).
  { intros k i (B1 & B2) Hi. specialize (B2 i ltac:(rewrite B1, E2; exact Hi)). specialize (HSb t i ltac:(lra) Hi).
    unfold Sd. replace (cmp i k) with ((cmp i k - cmp i (dy t)) + cmp i (dy t)) by ring. eapply Rle_trans; [apply Rabs_triang|]. lra. }
  split; [unfold dop_dense; rewrite map_length, seq_length; rewrite Ln; exact (eq_sym E3)|]. intros i Hi0.
  assert (Hi : (i < n)%nat) by (unfold dop_dense in Hi0; rewrite map_length, seq_length, Ln in Hi0; exact Hi0).
  rewrite dop_cmp by (rewrite Ln; exact Hi).
  destruct Hu as (Hu1 & Hu2). specialize (Hu2 i ltac:(rewrite Ln; exact Hi)).
  assert (Hth : 0 <= (x - t) / h <= 1).
  { split; [apply Rmult_le_pos; [lra|left; apply Rinv_0_lt_compat; lra]|]. apply (Rmult_le_reg_r h); [lra|]. unfold Rdiv. rewrite Rmult_assoc, Rinv_l by lra. lra. }
  apply (abs3 (cmp i u) (cmp i (y t))); [exact Hu2| |].
  - eapply Rle_trans; [apply alt_abs; exact Hth|]. unfold dop_coeffs.
    pose proof (dot_size B (dev e h) t i ltac:(lra) Pd Hi K F) as Dk. fold Sd in Dk.
    assert (D1 : Rabs (cmp i u' - cmp i u) <= h * (al * Sd)).
    { rewrite (Hc i Hi). replace (cmp i u + h * dot B (map (fun k => cmp i k) K) - cmp i u) with (h * dot B (map (fun k => cmp i k) K)) by ring.
      rewrite Rabs_mult, (Rabs_pos_eq h) by lra. apply Rmult_le_compat_l; [lra|]. eapply Rle_trans; [exact Dk|]. apply Rmult_le_compat_r; auto. }
    assert (D2 : Rabs (h * cmp i (nth 0 K' [])) <= h * Sd).
    { rewrite Rabs_mult, (Rabs_pos_eq h) by lra. apply Rmult_le_compat_l; [lra|]. apply Big; auto. apply (proj1 (Forall_forall _ _) F'). apply nth_In. lia. }
    assert (D3 : Rabs (h * cmp i g) <= h * Sd).
    { rewrite Rabs_mult, (Rabs_pos_eq h) by lra. apply Rmult_le_compat_l; [lra|]. apply Big; auto. }
    set (q1 := cmp i u' - cmp i u) in *. set (q2 := h * cmp i (nth 0 K' []) - q1). set (q3 := 2 * q1 - h * (cmp i g + cmp i (nth 0 K' []))).
    match goal with |- sumA (_ ++ ?z) <= _ => change (Rabs q1 + (Rabs q2 + (Rabs q3 + sumA z)) <= h * (W * Sd)) end.
    assert (D4 : sumA (map (fun row => h * Rsum (fun k => nth k row 0 * cmp i (nth k K' [])) (length K')) DD) <=
                 h * (sumR (map (fun row => Rsum (fun k => Rabs (nth k row 0)) (13 + length (skipn 13 Af))) DD) * Sd)).
    { clear - Hh Lk' Big F' PS Hi. rewrite <- Lk'. induction DD as [|r l IH]; [cbn; lra|]. cbn [map]. rewrite sumA_cons, sumR_cons.
      rewrite Rmult_plus_distr_r, Rmult_plus_distr_l. apply Rplus_le_compat; [|exact IH].
      rewrite Rabs_mult, (Rabs_pos_eq h) by lra. apply Rmult_le_compat_l; [lra|]. eapply Rle_trans; [apply Rsum_abs|].
      rewrite (Rmult_comm _ Sd), <- Rsum_scal. apply PSolve6.Rsum_le. intros k Hk. rewrite Rabs_mult, Rmult_comm. apply Rmult_le_compat_r; [apply Rabs_pos|].
      apply Big; auto. apply (proj1 (Forall_forall _ _) F'). now apply nth_In. }
    assert (D5 : Rabs q2 <= h * Sd + h * (al * Sd)).
    { unfold q2. eapply Rle_trans; [apply Rabs_triang|]. rewrite Rabs_Ropp. lra. }
    assert (D6 : Rabs q3 <= 2 * (h * (al * Sd)) + 2 * (h * Sd)).
    { unfold q3. eapply Rle_trans; [apply Rabs_triang|]. rewrite Rabs_Ropp, Rabs_mult, (Rabs_pos_eq 2), Rmult_plus_distr_l by lra.
      apply Rplus_le_compat; [lra|]. eapply Rle_trans; [apply Rabs_triang|]. lra. }
    unfold W. rewrite !Rmult_plus_distr_r, !Rmult_plus_distr_l.
    eapply Rle_trans; [apply Rplus_le_compat; [exact D1|apply Rplus_le_compat; [exact D5|apply Rplus_le_compat; [exact D6|exact D4]]]|]. apply Req_le. ring.
  - replace x with (t + (x - t)) by ring. eapply Rle_trans; [apply sol_move; auto; lra|]. apply Rmult_le_compat_r; lra.
Qed.
End St.
