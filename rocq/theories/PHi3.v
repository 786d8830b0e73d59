(** Local error of a Runge-Kutta step of order two, three or four. *)
From Coq Require Import List ZArith Bool Arith Lia Reals Lra.
From Verif Require Import Base Scalar Vec MBuffer MZeros MSteps MApi MClasses Laws Spec SpecInst PVecR SpecRK SpecConv PConv1 SpecConv3 PHi1 PHi2.
Import ListNotations.
Open Scope R_scope.

Definition tab4 (p : nat) (A : list (list R)) (B C : list R) : Prop :=
  (2 <= p <= 4)%nat /\ rows4 1 (skipn 1 A) (skipn 1 C) /\ length B = S (length (skipn 1 A)) /\
  conds p B (sds (skipn 1 A) (skipn 1 C) [sd0]).

Record stepdata := mkstep { x_h : R; x_e : R; x_t : R; x_u : list R; x_f : list R; x_K : list (list R); x_v : list R }.

Lemma dot_seq (f : nat -> R) (n : nat) (l : list R) : length l = n -> dot (map f (seq 0 n)) l = sumn n (fun j => f j * nth j l 0).
Proof.
  intros H. rewrite (dot_sumn _ l n) by (rewrite ?map_length, ?seq_length; auto). apply sumn_ext. intros j Hj. now rewrite nth_map_seq.
Qed.

Lemma dot_scale (h : R) (B l : list R) : dot (map (Rmult h) B) l = h * dot B l.
Proof. revert l. induction B as [|b B IH]; intros [|x l]; cbn; try lra. rewrite IH. lra. Qed.

(** bound on finitely many families of continuous functions *)
Lemma max_bound2 (f : nat -> nat -> R -> R) a b n : a <= b -> (forall i j c, (i < n)%nat -> (j < n)%nat -> a <= c <= b -> continuity_pt (f i j) c) ->
  exists M, 0 <= M /\ forall i j c, (i < n)%nat -> (j < n)%nat -> a <= c <= b -> Rabs (f i j c) <= M.
Proof.
  intros Hab H.
  assert (G : forall k, (k <= n)%nat -> exists M, 0 <= M /\ forall i j c, (i < k)%nat -> (j < n)%nat -> a <= c <= b -> Rabs (f i j c) <= M).
  { induction k as [|k IH]; intros Hk; [exists 0; split; [lra|intros; lia]|].
    destruct (IH ltac:(lia)) as (M & HM & H1).
    destruct (max_bound (f k) a b n Hab) as (M' & HM' & H2). { intros j c Hj Hc. apply H; auto. }
    exists (Rmax M M'). split; [eapply Rle_trans; [exact HM|apply Rmax_l]|]. intros i j c Hi Hj Hc.
    destruct (Nat.eq_dec i k) as [->|Hn]; [eapply Rle_trans; [apply H2; auto|apply Rmax_r]|].
    eapply Rle_trans; [apply (H1 i j c); auto; lia|apply Rmax_l]. }
  apply (G n). lia.
Qed.
Lemma der_cont f x l : derivable_pt_lim f x l -> continuity_pt f x.
Proof. intros H. apply derivable_continuous_pt. exists l. exact H. Qed.

(** what is used of the solution and of the Jacobian *)
Lemma taylor_facts k rhs n t0 te y : (1 <= k)%nat -> t0 <= te -> Ck_solution k rhs n t0 te y ->
  exists D Bd, 0 <= Bd /\ (forall t, D 0%nat t = y t) /\ (forall t, t0 <= t <= te -> rhs t (D 0%nat t) = Ret (D 1%nat t)) /\
  (forall t j, t0 <= t <= te -> (j <= k)%nat -> length (D j t) = n) /\
  (forall t j i, t0 <= t <= te -> (j <= k)%nat -> (i < n)%nat -> Rabs (cmp i (D j t)) <= Bd) /\
  (forall j m t x i, (j + m <= k)%nat -> (i < n)%nat -> t0 <= t -> 0 <= x -> t + x <= te ->
    Rabs (cmp i (D j (t + x)) - tpoly (fun q => cmp i (D (j + q)%nat t)) m x) <= Bd * x ^ m).
Proof.
  intros Hk Hte (D & H0 & H).
  assert (Hb : exists Bd, 0 <= Bd /\ forall j i c, (j <= k)%nat -> (i < n)%nat -> t0 <= c <= te -> Rabs (cmp i (D j c)) <= Bd).
  { assert (G : forall q, (q <= S k)%nat -> exists Bd, 0 <= Bd /\ forall j i c, (j < q)%nat -> (i < n)%nat -> t0 <= c <= te -> Rabs (cmp i (D j c)) <= Bd).
    { induction q as [|q IH]; intros Hq; [exists 0; split; [lra|intros; lia]|].
      destruct (IH ltac:(lia)) as (M & HM & H1).
      destruct (max_bound (fun i x => cmp i (D q x)) t0 te n Hte) as (M' & HM' & H2).
      { intros i c Hi Hc. destruct (H c Hc) as (_ & _ & H3). destruct (H3 i Hi) as (H4 & H5).
        destruct (Nat.eq_dec q k) as [->|Hne]; [exact H5|]. eapply der_cont. apply H4. lia. }
      exists (Rmax M M'). split; [eapply Rle_trans; [exact HM|apply Rmax_l]|]. intros j i c Hj Hi Hc.
      destruct (Nat.eq_dec j q) as [->|Hn]; [eapply Rle_trans; [apply H2; auto|apply Rmax_r]|].
      eapply Rle_trans; [apply (H1 j i c); auto; lia|apply Rmax_l]. }
    destruct (G (S k) (le_n _)) as (Bd & HB & H1). exists Bd. split; auto. intros j i c Hj. apply H1. lia. }
  destruct Hb as (Bd & HB & Hb). exists D, Bd. split; auto. split; auto.
  split; [intros t Ht; rewrite H0; apply (H t Ht)|]. split; [intros t j Ht Hj; apply (proj1 (proj2 (H t Ht))); auto|].
  split; [intros t j i Ht Hj Hi; apply Hb; auto|].
  intros j m t x i Hj Hi Ht Hx Htx.
  assert (G : Rabs (cmp i (D (j + 0)%nat (t + x)) - tpoly (fun q => cmp i (D (j + q)%nat t)) m x) <= Bd * x ^ m).
  { apply (taylor_rem m (fun q c => cmp i (D (j + q)%nat c)) t0 te Bd); auto.
    - intros q c Hq Hc. destruct (H c Hc) as (_ & _ & H3). destruct (H3 i Hi) as (H4 & _).
      replace (j + S q)%nat with (S (j + q)) by lia. apply H4. lia.
    }
  rewrite Nat.add_0_r in G. exact G.
Qed.

Lemma jac_facts rhs n t0 te y : t0 <= te -> keeps_dim (OT := Rops) n rhs -> (forall t, t0 <= t <= te -> length (y t) = n) -> smooth_along rhs n t0 te y ->
  exists J J1 M Bd, 0 <= Bd /\ 0 <= M /\
  (forall t i j, t0 <= t <= te -> (i < n)%nat -> (j < n)%nat -> Rabs (J i j t) <= Bd /\ Rabs (J1 i j t) <= Bd) /\
  (forall t x i j, (i < n)%nat -> (j < n)%nat -> t0 <= t -> 0 <= x -> t + x <= te -> Rabs (J i j (t + x) - J i j t - x * J1 i j t) <= Bd * (x * x)) /\
  (forall t z f g e i, t0 <= t <= te -> near e z (y t) -> rhs t z = Ret f -> rhs t (y t) = Ret g -> (i < n)%nat ->
     Rabs (cmp i f - cmp i g - sumn n (fun j => J i j t * (cmp j z - cmp j (y t)))) <= M * (e * e)).
Proof.
  intros Hte Kd Hl (J & J1 & J2 & M & H).
  destruct (max_bound2 J t0 te n Hte) as (M0 & HM0 & B0). { intros i j c Hi Hj Hc. eapply der_cont. apply (proj1 (H c Hc) i j Hi Hj). }
  destruct (max_bound2 J1 t0 te n Hte) as (M1 & HM1 & B1). { intros i j c Hi Hj Hc. eapply der_cont. apply (proj1 (H c Hc) i j Hi Hj). }
  destruct (max_bound2 J2 t0 te n Hte) as (M2 & HM2 & B2). { intros i j c Hi Hj Hc. apply (proj1 (H c Hc) i j Hi Hj). }
  exists J, J1, (Rmax M 0), (M0 + M1 + M2). split; [lra|]. split; [apply Rmax_r|]. split; [|split].
  - intros t i j Ht Hi Hj. specialize (B0 i j t Hi Hj Ht). specialize (B1 i j t Hi Hj Ht). lra.
  - intros t x i j Hi Hj Ht Hx Htx.
    assert (G : Rabs (J i j (t + x) - tpoly (fun q => match q with O => J i j t | S O => J1 i j t | _ => J2 i j t end) 2 x) <= M2 * x ^ 2).
    { apply (taylor_rem 2 (fun q => match q with O => J i j | S O => J1 i j | _ => J2 i j end) t0 te M2 HM2) with (t := t) (x := x); auto.
      intros [|[|q]] c Hq Hc; [apply (proj1 (H c Hc) i j Hi Hj)|apply (proj1 (H c Hc) i j Hi Hj)|lia]. }
    cbn [tpoly pow fact Nat.add Nat.mul] in G. replace (INR 1) with 1 in G by reflexivity.
    replace (J i j (t + x) - J i j t - x * J1 i j t) with (J i j (t + x) - (0 + J i j t * (1 / 1) + J1 i j t * (x * 1 / 1))) by field.
    eapply Rle_trans; [exact G|]. replace (x * (x * 1)) with (x * x) by ring. apply Rmult_le_compat_r; [apply Rmult_le_pos; auto|lra].
  - intros t z f g e i Ht Hz Hf Hg Hi. destruct (H t Ht) as (_ & H2).
    assert (Lz : length z = n) by (destruct Hz as (-> & _); auto).
    eapply Rle_trans; [|apply Rle_trans with (M * (e * e)); [apply (H2 z f g e i Hz Hf Hg Hi)|]].
    + right. f_equal. f_equal. rewrite (dot_seq _ n) by (apply vsub_len; auto). apply sumn_ext. intros j Hj. rewrite (vsub_cmp n) by auto. reflexivity.
    + apply Rmult_le_compat_r; [|apply Rmax_l]. replace (e * e) with (e ^ 2) by ring. apply pow2_ge_0.
Qed.

Lemma rk_step_hi rhs n L t0 te y p A B C : lipschitz n L rhs -> t0 <= te -> Ck_solution 5 rhs n t0 te y -> smooth_along rhs n t0 te y ->
  tab4 p A B C ->
  exists Ca, 0 <= Ca /\ forall h e t u f K u', 0 < h <= 1 -> 0 <= e -> t0 <= t -> t + h <= te ->
    near e u (y t) -> rhs t u = Ret f -> rk_step (OT := Rops) rhs A B C t u f h K u' ->
    near ((1 + h * Ca) * e + Ca * (h * h ^ p)) u' (y (t + h)).
Proof.
  intros HL Hte HC HJ (Hp & Hr & LB & Hco).
  destruct (taylor_facts 5 rhs n t0 te y ltac:(lia) Hte HC) as (D & B1 & HB1 & D0 & DR & Dl & Db & Dt).
  assert (Hl : forall t, t0 <= t <= te -> length (y t) = n) by (intros t Ht; rewrite <- D0; apply Dl; auto; lia).
  destruct (jac_facts rhs n t0 te y Hte (proj1 (proj2 HL)) Hl HJ) as (J & J1 & M & B2 & HB2 & HM & Jb & Jt & Jl).
  set (Bd := B1 + B2). assert (HBd : 0 <= Bd) by (unfold Bd; lra).
  set (ok := fun w : stepdata => (0 < x_h w <= 1 /\ 0 <= x_e w /\ t0 <= x_t w /\ x_t w + x_h w <= te /\ near (x_e w) (x_u w) (y (x_t w)) /\
     rhs (x_t w) (x_u w) = Ret (x_f w)) /\ rk_step (OT := Rops) rhs A B C (x_t w) (x_u w) (x_f w) (x_h w) (x_K w) (x_v w)).
  assert (K1 : forall w, ok w -> 0 < x_h w <= 1) by (intros w Hw; apply Hw).
  assert (K2 : forall w, ok w -> 0 <= x_e w) by (intros w Hw; apply Hw).
  assert (K3 : forall w, ok w -> t0 <= x_t w /\ x_t w + x_h w <= te) by (intros w ((? & ? & ? & ? & _) & _); auto).
  assert (K4 : forall w, ok w -> near (x_e w) (x_u w) (D 0%nat (x_t w))) by (intros w Hw; rewrite D0; apply Hw).
  assert (Db' : forall t j i, t0 <= t <= te -> (j <= 5)%nat -> (i < n)%nat -> Rabs (cmp i (D j t)) <= Bd).
  { intros t j i Ht Hj Hi. specialize (Db t j i Ht Hj Hi). unfold Bd. lra. }
  assert (Dt' : forall j k t x i, (j + k <= 5)%nat -> (i < n)%nat -> t0 <= t -> 0 <= x -> t + x <= te ->
    Rabs (cmp i (D j (t + x)) - tpoly (fun m => cmp i (D (j + m)%nat t)) k x) <= Bd * x ^ k).
  { intros j k t x i H1 H2 H3 H4 H5. eapply Rle_trans; [apply Dt; auto|]. apply Rmult_le_compat_r; [apply pow_le; auto|unfold Bd; lra]. }
  assert (Jb' : forall t i j, t0 <= t <= te -> (i < n)%nat -> (j < n)%nat -> Rabs (J i j t) <= Bd /\ Rabs (J1 i j t) <= Bd).
  { intros t i j Ht Hi Hj. specialize (Jb t i j Ht Hi Hj). unfold Bd. lra. }
  assert (Jt' : forall t x i j, (i < n)%nat -> (j < n)%nat -> t0 <= t -> 0 <= x -> t + x <= te ->
    Rabs (J i j (t + x) - J i j t - x * J1 i j t) <= Bd * (x * x)).
  { intros t x i j Hi Hj H3 H4 H5. eapply Rle_trans; [apply Jt; auto|]. apply Rmult_le_compat_r; [apply Rmult_le_pos; auto|unfold Bd; lra]. }
  assert (Jl' : forall t z f e i, t0 <= t <= te -> near e z (D 0%nat t) -> rhs t z = Ret f -> (i < n)%nat ->
    Rabs (cmp i f - cmp i (D 1%nat t) - sumn n (fun j => J i j t * (cmp j z - cmp j (D 0%nat t)))) <= M * (e * e)).
  { intros t z f e i Ht Hz Hf Hi. rewrite D0. apply (Jl t z f (D 1%nat t)); auto; [rewrite <- D0; exact Hz|rewrite <- D0; auto]. }
  pose proof (stage_first rhs n L t0 te Bd D J J1 M HL HBd HM DR Dl Db' Dt' Jb' Jt' Jl' ok x_h x_e x_t x_u K1 K2 K3 K4 x_f ltac:(intros w Hw; apply Hw)) as S1.
  pose proof (stages4 rhs n L t0 te Bd D J J1 M HL HBd HM DR Dl Db' Dt' Jb' Jt' Jl' ok x_h x_e x_t x_u K1 K2 K3 K4 (skipn 1 A) (skipn 1 C) 1 [sd0] (fun w => [x_f w]) x_K Hr S1
    ltac:(intros w Hw; apply Hw)) as S2.
  assert (Comb : forall w b, ok w -> (b < n)%nat -> cmp b (x_v w) = cmp b (x_u w) + x_h w * dot B (map (fun k => cmp b k) (x_K w))).
  { intros w b Hw Hb. pose proof Hw as (Hw1 & _ & Hv).
    assert (Lu : length (x_u w) = n).
    { destruct Hw1 as (_ & _ & H1 & H2 & (H3 & _) & _). rewrite H3. apply Hl. pose proof (K1 w Hw). lra. }
    assert (Kd : Forall (fun k => length k = n) (x_K w)) by (apply S2; exact Hw).
    rewrite Hv. unfold rk_combine. replace (@length (@T Rops) (x_u w)) with n by exact (eq_sym Lu). rewrite (vadd_cmp n) by (auto; apply lincomb_len; auto).
    rewrite lincomb_cmp by auto. apply (f_equal (Rplus (cmp b (x_u w)))). apply dot_scale. }
  pose proof (step4 n t0 te Bd D J J1 HBd Db' Dt' Jb' ok x_h x_e x_t x_u K1 K2 K3 p _ B _ x_K x_v Hp Hco S2 LB Comb) as S3.
  destruct (big_all ok x_h x_e K1 K2 p n _ S3) as (Ca & HCa & HH).
  exists Ca. split; auto. intros h e t u f K u' Hh He Ht Hte' Hu Hf Hs.
  set (w := mkstep h e t u f K u'). assert (Hw : ok w) by (split; [repeat split; try tauto; try apply Hu; auto|exact Hs]).
  destruct (Hu) as (Hu1 & Hu2). assert (Ln : length u = n) by (rewrite Hu1; apply Hl; lra).
  assert (Lv : length u' = n).
  { destruct Hs as (_ & ->). unfold rk_combine. apply vadd_len; auto. replace (@length (@T Rops) u) with n by exact (eq_sym Ln). apply lincomb_len. apply (proj1 (proj2 S2) w Hw). }
  split; [exact (eq_trans Lv (eq_sym (Hl (t + h) ltac:(lra))))|]. intros i Hi. change (@length R u') with (@length (@T Rops) u') in Hi. pose proof (eq_ind _ (fun q => (i < q)%nat) Hi _ Lv) as Hi'. clear Hi. rename Hi' into Hi. specialize (HH i w Hi Hw). cbn [x_h x_e x_t x_u x_v w] in HH.
  rewrite !D0 in HH. specialize (Hu2 i). rewrite Ln in Hu2. specialize (Hu2 Hi).
  set (X := cmp i u' - cmp i (y (t + h))) in *. set (Y := cmp i u - cmp i (y t)) in *.
  change (Rabs X <= (1 + h * Ca) * e + Ca * (h * h ^ p)). change (Rabs ((X - Y) / h) <= Ca * (e + h ^ p)) in HH. clearbody X Y.
  replace X with (Y + h * ((X - Y) / h)) by (field; lra).
  eapply Rle_trans; [apply Rabs_triang|]. rewrite Rabs_mult, (Rabs_right h) by lra.
  assert (h * Rabs ((X - Y) / h) <= h * (Ca * (e + h ^ p))) by (apply Rmult_le_compat_l; lra). lra.
Qed.
