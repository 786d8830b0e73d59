(** Local error of a step and of its dense output. *)
From Coq Require Import List ZArith Bool Arith Lia Reals Lra.
From Verif Require Import Base Scalar Vec MBuffer MZeros MSteps MApi MDop853 MClasses Laws Spec SpecInst PVecR SpecRK SpecDense PDense PBound PMS PRK
  PDim SpecConv PConv1 SpecConv3 PHi1 PHi2 PHi3 PVar1.
Import ListNotations.
Open Scope R_scope.

Record densedata := mkdd { d_s : stepdata; d_g : list R; d_th : R }.

Lemma stages_snoc rhs t y h a c k rows : forall cs K K', length rows = length cs -> stages_of (OT := Rops) rhs t y h rows cs K K' ->
  rhs (t + h * c) (@vadd Rops y (@vscale Rops h (@lincomb Rops (length y) (firstn (length K') a) K'))) = Ret k ->
  stages_of (OT := Rops) rhs t y h (rows ++ [a]) (cs ++ [c]) K (K' ++ [k]).
Proof.
  induction rows as [|r rows IH]; intros [|c' cs] K K' Hl H Hk; try discriminate.
  - inversion H; subst. exact (@stg_cons Rops rhs t y h a [] c [] _ k _ Hk (@stg_nil Rops rhs t y h _)).
  - inversion H as [|? ? ? ? ? k1 ? Hk1 Hst]; subst.
    exact (@stg_cons Rops rhs t y h r (rows ++ [a]) c' (cs ++ [c]) _ k1 _ Hk1 (IH _ _ _ (eq_add_S _ _ Hl) Hst Hk)).
Qed.
Lemma stages_len' rhs t y h rows : forall cs K K', stages_of (OT := Rops) rhs t y h rows cs K K' -> length K' = (length K + length rows)%nat.
Proof.
  induction rows as [|r rows IH]; intros cs K K' H; inversion H; subst; cbn [length]; [lia|].
  match goal with H : stages_of _ _ _ _ _ _ _ _ |- _ => apply IH in H; rewrite H end. rewrite app_length. cbn. lia.
Qed.
Lemma combine_scale n (u : list R) h (B : list R) (K : list (list R)) : length u = n -> Forall (fun k => length k = n) K ->
  rk_combine (OT := Rops) u h B K = @vadd Rops u (@vscale Rops h (@lincomb Rops (length u) B K)).
Proof.
  intros Lu LK. unfold rk_combine. assert (Ll : forall W, length (@lincomb Rops (@length R u) W K) = n) by (intros W; rewrite Lu; now apply lincomb_len).
  apply (vec_ext n).
  - apply vadd_len; [exact Lu|apply Ll].
  - apply vadd_len; [exact Lu|apply vscale_len, Ll].
  - intros i Hi. rewrite !(vadd_cmp n) by (auto; try apply vscale_len; apply Ll). rewrite vscale_cmp. apply (f_equal (Rplus (cmp i u))).
    change (@length (@T Rops) u) with (@length R u). rewrite Lu. rewrite !(lincomb_cmp n) by auto. apply dot_scale.
Qed.

Lemma rk_dense_hi rhs n L t0 te y p A B C P : lipschitz n L rhs -> t0 <= te -> Ck_solution 5 rhs n t0 te y -> smooth_along rhs n t0 te y ->
  tabd p A B C P ->
  exists Ca, 0 <= Ca /\ forall h e t u f K u' g x, 0 < h <= 1 -> 0 <= e -> t0 <= t -> t + h <= te ->
    near e u (y t) -> rhs t u = Ret f -> rk_step (OT := Rops) rhs A B C t u f h K u' -> rhs (t + h) u' = Ret g -> t <= x <= t + h ->
    near ((1 + h * Ca) * e + Ca * (h * h ^ p)) (rk_dense P t u h (K ++ [g]) x) (y x).
Proof.
  intros HL Hte HC HJ (Hp & LP & HA & LC & LB & HPr & Hr & C1 & C2 & C3 & C4).
  destruct (taylor_facts 5 rhs n t0 te y ltac:(lia) Hte HC) as (D & B1 & HB1 & D0 & DR & Dl & Db & Dt).
  assert (Hl : forall t, t0 <= t <= te -> length (y t) = n) by (intros t Ht; rewrite <- D0; apply Dl; auto; lia).
  destruct (jac_facts rhs n t0 te y Hte (proj1 (proj2 HL)) Hl HJ) as (J & J1 & M & B2 & HB2 & HM & Jb & Jt & Jl).
  set (Bd := B1 + B2). assert (HBd : 0 <= Bd) by (unfold Bd; lra).
  set (h := fun w => x_h (d_s w)). set (e := fun w => x_e (d_s w)). set (t := fun w => x_t (d_s w)). set (u := fun w => x_u (d_s w)).
  set (f := fun w => x_f (d_s w)). set (KK := fun w => x_K (d_s w) ++ [d_g w]).
  set (v := fun w => rk_dense P (t w) (u w) (h w) (KK w) (t w + d_th w * h w)).
  set (ok := fun w => (0 < h w <= 1 /\ 0 <= e w /\ t0 <= t w /\ t w + h w <= te /\ near (e w) (u w) (y (t w)) /\
     rhs (t w) (u w) = Ret (f w)) /\ rk_step (OT := Rops) rhs A B C (t w) (u w) (f w) (h w) (x_K (d_s w)) (x_v (d_s w)) /\
     rhs (t w + h w) (x_v (d_s w)) = Ret (d_g w) /\ 0 <= d_th w <= 1).
  assert (K1 : forall w, ok w -> 0 < h w <= 1) by (intros w Hw; apply Hw).
  assert (K2 : forall w, ok w -> 0 <= e w) by (intros w Hw; apply Hw).
  assert (K3 : forall w, ok w -> t0 <= t w /\ t w + h w <= te) by (intros w ((? & ? & ? & ? & _) & _); auto).
  assert (K4 : forall w, ok w -> near (e w) (u w) (D 0%nat (t w))) by (intros w Hw; rewrite D0; apply Hw).
  assert (K5 : forall w, ok w -> 0 <= d_th w <= 1) by (intros w Hw; apply Hw).
  assert (Lu : forall w, ok w -> length (u w) = n).
  { intros w Hw. destruct (K4 w Hw) as (E & _). rewrite E. apply Dl; [|lia]. pose proof (K1 w Hw). pose proof (K3 w Hw). lra. }
  assert (Lf : forall w, ok w -> length (f w) = n). { intros w Hw. eapply (proj1 (proj2 HL)); [apply Lu; exact Hw|apply Hw]. }
  assert (LK : forall w, ok w -> length (x_K (d_s w)) = length A /\ Forall (fun k => length k = n) (x_K (d_s w))).
  { intros w Hw. destruct Hw as (Hw1 & Hs & Hg & Hth) eqn:Ew. clear Ew. split.
    - destruct Hs as (Hs & _). apply stages_len' in Hs. refine (eq_trans Hs _). rewrite skipn_length. cbn [length]. destruct A; [congruence|]. cbn. lia.
    - eapply (rk_step_dim n rhs (proj1 (proj2 HL))); [| |exact Hs]; [apply Lu|apply Lf]; split; auto. }
  assert (Hst : forall w, ok w -> stages_of (OT := Rops) rhs (t w) (u w) (h w) (skipn 1 A ++ [B]) (skipn 1 C ++ [1]) [f w] (KK w)).
  { intros w Hw. destruct (LK w Hw) as (L1 & L2). pose proof (Lu w Hw) as L3. destruct Hw as (_ & (Hs & Hv) & Hg & _). unfold KK.
    apply stages_snoc; auto; [rewrite !skipn_length; lia|].
    rewrite firstn_all2 by (apply Nat.eq_le_incl; exact (eq_trans LB (eq_sym L1))).
    pose proof (combine_scale n (u w) (h w) B (x_K (d_s w)) L3 L2) as Ec. pose proof (eq_trans (eq_sym Ec) (eq_sym Hv)) as Ev.
    refine (eq_ind_r (fun z => rhs (t w + h w * 1) z = Ret (d_g w)) _ Ev). rewrite Rmult_1_r. exact Hg. }
  assert (Db' : forall t j i, t0 <= t <= te -> (j <= 5)%nat -> (i < n)%nat -> Rabs (cmp i (D j t)) <= Bd).
  { intros t' j i Ht Hj Hi. specialize (Db t' j i Ht Hj Hi). unfold Bd. lra. }
  assert (Dt' : forall j k t x i, (j + k <= 5)%nat -> (i < n)%nat -> t0 <= t -> 0 <= x -> t + x <= te ->
    Rabs (cmp i (D j (t + x)) - tpoly (fun m => cmp i (D (j + m)%nat t)) k x) <= Bd * x ^ k).
  { intros j k t' x i H1 H2 H3 H4 H5. eapply Rle_trans; [apply Dt; auto|]. apply Rmult_le_compat_r; [apply pow_le; auto|unfold Bd; lra]. }
  assert (Jb' : forall t i j, t0 <= t <= te -> (i < n)%nat -> (j < n)%nat -> Rabs (J i j t) <= Bd /\ Rabs (J1 i j t) <= Bd).
  { intros t' i j Ht Hi Hj. specialize (Jb t' i j Ht Hi Hj). unfold Bd. lra. }
  assert (Jt' : forall t x i j, (i < n)%nat -> (j < n)%nat -> t0 <= t -> 0 <= x -> t + x <= te ->
    Rabs (J i j (t + x) - J i j t - x * J1 i j t) <= Bd * (x * x)).
  { intros t' x i j Hi Hj H3 H4 H5. eapply Rle_trans; [apply Jt; auto|]. apply Rmult_le_compat_r; [apply Rmult_le_pos; auto|unfold Bd; lra]. }
  assert (Jl' : forall t z f e i, t0 <= t <= te -> near e z (D 0%nat t) -> rhs t z = Ret f -> (i < n)%nat ->
    Rabs (cmp i f - cmp i (D 1%nat t) - sumn n (fun j => J i j t * (cmp j z - cmp j (D 0%nat t)))) <= M * (e * e)).
  { intros t' z f' e' i Ht Hz Hf Hi. rewrite D0. apply (Jl t' z f' (D 1%nat t')); auto; [rewrite <- D0; exact Hz|rewrite <- D0; auto]. }
  pose proof (stage_first rhs n L t0 te Bd D J J1 M HL HBd HM DR Dl Db' Dt' Jb' Jt' Jl' ok h e t u K1 K2 K3 K4 f ltac:(intros w Hw; apply Hw)) as S1.
  pose proof (stages4 rhs n L t0 te Bd D J J1 M HL HBd HM DR Dl Db' Dt' Jb' Jt' Jl' ok h e t u K1 K2 K3 K4 _ _ 1 [sd0] (fun w => [f w]) KK Hr S1 Hst) as S2.
  assert (Hlen : forall j, length (col j P) = (1 + length (skipn 1 A ++ [B]))%nat).
  { intros j. unfold col. rewrite map_length, app_length, skipn_length, LP. cbn [length]. destruct A; [congruence|]. cbn. lia. }
  assert (LP' : length (hd [] P) = p). { destruct P as [|r P']; [discriminate|]. apply Forall_cons_iff in HPr as (Hr0 & _). exact Hr0. }
  assert (Comb : forall w b, ok w -> (b < n)%nat -> let d := fun B => dot B (map (fun k => cmp b k) (KK w)) in
     cmp b (v w) = cmp b (u w) + h w * (d_th w * d (col 0 P) + d_th w ^ 2 * d (col 1 P) + d_th w ^ 3 * d (col 2 P) + d_th w ^ 4 * d (col 3 P))).
  { intros w b Hw Hb d. unfold v, rk_dense. rewrite (PDense.nth_map_seq _ (length (u w))) by (rewrite (Lu w Hw); exact Hb).
    f_equal. f_equal. rewrite LP'. pose proof (K1 w Hw) as Hh.
    replace ((t w + d_th w * h w - t w) / h w) with (d_th w) by (field; lra).
    assert (Ed : forall j, d (col j P) = Rsum (fun k => nth j (nth k P []) 0 * cmp b (nth k (KK w) [])) (length (KK w))).
    { intros j. unfold d. rewrite dot_map_Rsum with (d := []). apply Rsum_ext. intros k Hk. f_equal. unfold col.
      apply (nth_map_d (fun row => nth j row 0)). now destruct j. }
    assert (Hcase : p = 4%nat \/ p = 3%nat) by lia. destruct Hcase as [-> | ->].
    - rewrite !Rsum_S. cbn [pow]. rewrite <- !Ed. unfold Rsum. cbn [seq map fold_right]. ring.
    - assert (Z : d (col 3 P) = 0).
      { unfold d. assert (Ez : col 3 P = map (fun _ => 0) P).
        { unfold col. apply map_ext_in. intros row Hrow. rewrite Forall_forall in HPr. apply nth_overflow. now rewrite (HPr row Hrow). }
        rewrite Ez. clear. revert P. generalize (map (fun k => cmp b k) (KK w)). intros l P. revert l. induction P as [|r P IH]; intros [|x l]; cbn; auto. rewrite IH. ring. }
      rewrite Z, !Rsum_S. cbn [pow]. rewrite <- !Ed. unfold Rsum. cbn [seq map fold_right]. ring. }
  pose proof (dense4 n t0 te Bd D J J1 HBd Db' Dt' Jb' ok h e t u K1 K2 K3 p _ _ _ _ _ _ KK d_th v Hp K5 C1 C2 C3 C4 S2 (Hlen 0%nat) (Hlen 1%nat) (Hlen 2%nat) (Hlen 3%nat) Comb) as S3.
  destruct (big_all ok h e K1 K2 p n _ S3) as (Ca & HCa & HH).
  exists Ca. split; auto. intros hh ee tt uu ff K uu' g x Hh He Ht Hte' Hu Hf Hs Hg Hx.
  set (th := (x - tt) / hh). assert (Ex : tt + th * hh = x) by (unfold th; field; lra).
  assert (Hth : 0 <= th <= 1).
  { unfold th, Rdiv. pose proof (Rinv_0_lt_compat hh ltac:(lra)). split; [apply Rmult_le_pos; lra|].
    apply Rmult_le_reg_r with hh; [lra|]. rewrite Rmult_assoc, Rinv_l, Rmult_1_r by lra. lra. }
  set (w := mkdd (mkstep hh ee tt uu ff K uu') g th).
  assert (Hw : ok w). { split; [|split; [exact Hs|split; [exact Hg|exact Hth]]]. unfold h, e, t, u, f. cbn [w d_s x_h x_e x_t x_u x_f].
    split; [exact Hh|]. split; [exact He|]. split; [exact Ht|]. split; [exact Hte'|]. split; [exact Hu|exact Hf]. }
  pose proof (Lu w Hw) as Ln. unfold u in Ln. cbn [w d_s x_u] in Ln. destruct Hu as (Hu1 & Hu2).
  assert (Lv : length (rk_dense P tt uu hh (K ++ [g]) x) = n) by (unfold rk_dense; rewrite map_length, seq_length; exact Ln).
  split; [exact (eq_trans Lv (eq_sym (Hl x ltac:(lra))))|]. intros i Hi. rewrite Lv in Hi. specialize (HH i w Hi Hw).
  unfold v, h, e, t, u, KK in HH. cbn [w d_s d_th d_g x_h x_e x_t x_u x_v x_K] in HH. rewrite Ex in HH.
  rewrite !D0 in HH. specialize (Hu2 i). rewrite Ln in Hu2. specialize (Hu2 Hi).
  set (X := cmp i (rk_dense P tt uu hh (K ++ [g]) x) - cmp i (y x)) in *. set (Y := cmp i uu - cmp i (y tt)) in *.
  change (Rabs ((X - Y) / hh) <= Ca * (ee + hh ^ p)) in HH. clearbody X Y.
  replace X with (Y + hh * ((X - Y) / hh)) by (field; lra).
  eapply Rle_trans; [apply Rabs_triang|]. rewrite Rabs_mult, (Rabs_right hh) by lra.
  assert (hh * Rabs ((X - Y) / hh) <= hh * (Ca * (ee + hh ^ p))) by (apply Rmult_le_compat_l; lra). lra.
Qed.
