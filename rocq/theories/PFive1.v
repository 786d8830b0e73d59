(** One Runge-Kutta step to fifth order: expansion of the stages around the solution. *)
From Coq Require Import List ZArith Bool Arith Lia Reals Lra.
From Verif Require Import Base Scalar Vec MBuffer MZeros MSteps MApi MClasses Laws Spec SpecInst PVecR SpecRK SpecConv PConv1 SpecConv3 PHi1 PHi2.
Import ListNotations.
Open Scope R_scope.

(** the data of a stage: c_i, and the coefficients of its error
    Y_i - y(t + c_i h) = h^2 al y2 + h^3 (be y3 + ga J y2) + h^4 (de y4 + ep J y3 + ze J1 y2 + et J J y2) + O(h^5) *)
Record se := mkse { e_c : R; e_al : R; e_be : R; e_ga : R; e_de : R; e_ep : R; e_ze : R; e_et : R }.
Definition pw2 (s : se) : R := e_c s * e_c s / 2.
Definition pw3 (s : se) : R := e_c s * e_c s * e_c s / 6.
Definition pw4 (s : se) : R := e_c s * e_c s * e_c s * e_c s / 24.
Definition cal (s : se) : R := e_c s * e_al s.
Definition ccal (s : se) : R := e_c s * e_c s / 2 * e_al s.
Definition cbe (s : se) : R := e_c s * e_be s.
Definition cga (s : se) : R := e_c s * e_ga s.
Definition next_se (a : list R) (c : R) (S : list se) : se :=
  mkse c (dot a (map e_c S) - c * c / 2) (dot a (map pw2 S) - c * c * c / 6) (dot a (map e_al S))
    (dot a (map pw3 S) - c * c * c * c / 24) (dot a (map e_be S)) (dot a (map cal S)) (dot a (map e_ga S)).
Fixpoint ses (rows : list (list R)) (cs : list R) (S : list se) : list se :=
  match rows, cs with
  | a :: rows', c :: cs' => ses rows' cs' (S ++ [next_se (firstn (length S) a) c S])
  | _, _ => S
  end.
Definition se0 : se := mkse 0 0 0 0 0 0 0 0.

(** a quantity bounded linearly and quadratically in e + h^3 *)
Lemma big_square3 {W : Type} (ok : W -> Prop) (h e : W -> R) (Hh : forall w, ok w -> 0 < h w <= 1) (He : forall w, ok w -> 0 <= e w) x C Q g :
  0 <= C -> 0 <= Q -> (forall w, ok w -> 0 <= g w <= e w + h w ^ 3) ->
  (forall w, ok w -> Rabs (x w) <= C * g w) -> (forall w, ok w -> Rabs (x w) <= Q * (g w * g w)) -> big ok h e 5 x.
Proof.
  intros HC HQ Hg H1 H2. exists (2 * C + 4 * Q). split; [lra|]. intros w Hw. specialize (H1 w Hw). specialize (H2 w Hw).
  specialize (Hg w Hw). pose proof (He w Hw). pose proof (Hh w Hw) as Hw1. pose proof (hk_pos ok h Hh 3 w Hw) as P. pose proof (hk_pos ok h Hh 5 w Hw) as P5.
  assert (P6 : h w ^ 3 * h w ^ 3 <= h w ^ 5).
  { replace (h w ^ 3 * h w ^ 3) with (h w ^ 5 * h w) by ring. rewrite <- (Rmult_1_r (h w ^ 5)) at 2. apply Rmult_le_compat_l; lra. }
  set (b := h w ^ 5) in *. set (a := h w ^ 3) in *. set (E := e w) in *. clearbody a b E.
  destruct (Rle_dec E 1) as [HE|HE].
  - assert (g w * g w <= (E + a) * (E + a)) by (apply Rmult_le_compat; lra).
    assert (E * E <= 1 * E) by (apply Rmult_le_compat_r; lra).
    assert (E * a <= E * 1) by (apply Rmult_le_compat_l; lra).
    assert (g w * g w <= 4 * (E + b)) by lra.
    assert (Q * (g w * g w) <= Q * (4 * (E + b))) by (apply Rmult_le_compat_l; lra).
    assert (0 <= C * (E + b)) by (apply Rmult_le_pos; lra). lra.
  - assert (g w <= 2 * (E + b)) by lra. assert (C * g w <= C * (2 * (E + b))) by (apply Rmult_le_compat_l; lra).
    assert (0 <= Q * (E + b)) by (apply Rmult_le_pos; lra). lra.
Qed.

Section Step.
Variables (rhs : @rhs_t Rops) (n : nat) (L t0 te Bd : R) (D : nat -> R -> list R) (J J1 J2 : nat -> nat -> R -> R) (M : R).
Hypothesis HL : lipschitz n L rhs.
Hypothesis HB : 0 <= Bd.
Hypothesis HM : 0 <= M.
Hypothesis HDl : forall t j, t0 <= t <= te -> (j <= 6)%nat -> length (D j t) = n.
Hypothesis HR : forall t, t0 <= t <= te -> rhs t (D 0%nat t) = Ret (D 1%nat t).
Hypothesis HDb : forall t j i, t0 <= t <= te -> (j <= 6)%nat -> (i < n)%nat -> Rabs (cmp i (D j t)) <= Bd.
Hypothesis HDt : forall j k t x i, (j + k <= 6)%nat -> (i < n)%nat -> t0 <= t -> 0 <= x -> t + x <= te ->
  Rabs (cmp i (D j (t + x)) - tpoly (fun m => cmp i (D (j + m)%nat t)) k x) <= Bd * x ^ k.
Hypothesis HJb : forall t i j, t0 <= t <= te -> (i < n)%nat -> (j < n)%nat -> Rabs (J i j t) <= Bd /\ Rabs (J1 i j t) <= Bd /\ Rabs (J2 i j t) <= Bd.
Hypothesis HJt : forall t x i j, (i < n)%nat -> (j < n)%nat -> t0 <= t -> 0 <= x -> t + x <= te ->
  Rabs (J i j (t + x) - J i j t - x * J1 i j t - x * x / 2 * J2 i j t) <= Bd * (x * x * x).
Hypothesis HJ : forall t z f e i, t0 <= t <= te -> near e z (D 0%nat t) -> rhs t z = Ret f -> (i < n)%nat ->
  Rabs (cmp i f - cmp i (D 1%nat t) - sumn n (fun j => J i j t * (cmp j z - cmp j (D 0%nat t)))) <= M * (e * e).

Context {W : Type} (ok : W -> Prop) (h e t : W -> R) (u : W -> list R).
Hypothesis Hh : forall w, ok w -> 0 < h w <= 1.
Hypothesis He : forall w, ok w -> 0 <= e w.
Hypothesis Ht : forall w, ok w -> t0 <= t w /\ t w + h w <= te.
Hypothesis Hu : forall w, ok w -> near (e w) (u w) (D 0%nat (t w)).
Notation bdd := (bdd ok).
Notation big := (big ok h e).

(** a matrix function applied to a vector function *)
Definition Mv (A : nat -> nat -> R -> R) (x : nat -> W -> R) (i : nat) (w : W) : R := sumn n (fun j => A i j (t w) * x j w).
Definition eD (j i : nat) (w : W) : R := cmp i (D j (t w)).
Definition cq (s : se) (i : nat) (w : W) : R := e_al s * eD 2 i w.
Definition cr (s : se) (i : nat) (w : W) : R := e_be s * eD 3 i w + e_ga s * Mv J (eD 2) i w.
Definition cs_ (s : se) (i : nat) (w : W) : R :=
  e_de s * eD 4 i w + e_ep s * Mv J (eD 3) i w + e_ze s * Mv J1 (eD 2) i w + e_et s * Mv J (Mv J (eD 2)) i w.
Definition ap (s : se) (i : nat) (w : W) : R :=
  eD 1 i w + h w * (e_c s * eD 2 i w) + h w ^ 2 * (pw2 s * eD 3 i w + e_al s * Mv J (eD 2) i w) +
  h w ^ 3 * (pw3 s * eD 4 i w + cal s * Mv J1 (eD 2) i w + e_be s * Mv J (eD 3) i w + e_ga s * Mv J (Mv J (eD 2)) i w) +
  h w ^ 4 * (pw4 s * eD 5 i w + ccal s * Mv J2 (eD 2) i w + cbe s * Mv J1 (eD 3) i w + cga s * Mv J1 (Mv J (eD 2)) i w +
    (e_de s * Mv J (eD 4) i w + e_ep s * Mv J (Mv J (eD 3)) i w + e_ze s * Mv J (Mv J1 (eD 2)) i w + e_et s * Mv J (Mv J (Mv J (eD 2))) i w)).

Lemma Mv_lin A (x z : nat -> W -> R) a b i w : Mv A (fun j w => a * x j w + b * z j w) i w = a * Mv A x i w + b * Mv A z i w.
Proof.
  unfold Mv. rewrite (sumn_ext n _ (fun j => a * (A i j (t w) * x j w) + b * (A i j (t w) * z j w))) by (intros; ring). apply sumn_lin.
Qed.
Lemma Mv_ext A (x z : nat -> W -> R) i w : (forall j, (j < n)%nat -> x j w = z j w) -> Mv A x i w = Mv A z i w.
Proof. intros H. apply sumn_ext. intros j Hj. now rewrite H. Qed.
Lemma Mv_q A s i w : Mv A (cq s) i w = e_al s * Mv A (eD 2) i w.
Proof. rewrite (Mv_ext A _ (fun j w => e_al s * eD 2 j w + 0 * eD 2 j w)) by (intros; unfold cq; ring). rewrite Mv_lin. ring. Qed.
Lemma Mv_r A s i w : Mv A (cr s) i w = e_be s * Mv A (eD 3) i w + e_ga s * Mv A (Mv J (eD 2)) i w.
Proof. apply (Mv_lin A (eD 3) (Mv J (eD 2))). Qed.
Lemma Mv_s A s i w : Mv A (cs_ s) i w = e_de s * Mv A (eD 4) i w + e_ep s * Mv A (Mv J (eD 3)) i w + e_ze s * Mv A (Mv J1 (eD 2)) i w + e_et s * Mv A (Mv J (Mv J (eD 2))) i w.
Proof.
  rewrite (Mv_ext A _ (fun j w => 1 * (fun j w => e_de s * eD 4 j w + e_ep s * Mv J (eD 3) j w) j w + 1 * (fun j w => e_ze s * Mv J1 (eD 2) j w + e_et s * Mv J (Mv J (eD 2)) j w) j w))
    by (intros; unfold cs_; ring).
  rewrite Mv_lin, !Mv_lin. ring.
Qed.

Lemma Ht5' w c : ok w -> 0 <= c <= 1 -> t0 <= t w + h w * c <= te /\ 0 <= h w * c <= h w.
Proof.
  intros Hw Hc. pose proof (Hh w Hw). pose proof (Ht w Hw).
  assert (0 <= h w * c) by (apply Rmult_le_pos; lra).
  assert (h w * c <= h w * 1) by (apply Rmult_le_compat_l; lra). lra.
Qed.
Lemma Ht50 w : ok w -> t0 <= t w <= te.
Proof. intros Hw. pose proof (Hh w Hw). pose proof (Ht w Hw). lra. Qed.
Lemma bdd_eD j i : (j <= 6)%nat -> (i < n)%nat -> bdd (eD j i).
Proof. intros Hj Hi. exists Bd. split; auto. intros w Hw. apply HDb; auto using Ht50. Qed.
Lemma bdd_Mv A x i : (i < n)%nat -> (forall j, (j < n)%nat -> bdd (fun w => A i j (t w))) -> (forall j, (j < n)%nat -> bdd (x j)) -> bdd (Mv A x i).
Proof. intros Hi HA Hx. unfold Mv, sumn. apply (bdd_sum ok n (fun j w => A i j (t w) * x j w)). intros j Hj. apply bdd_mul; auto. Qed.
Lemma bdd_J i j : (i < n)%nat -> (j < n)%nat -> bdd (fun w => J i j (t w)).
Proof. intros Hi Hj. exists Bd. split; auto. intros w Hw. apply HJb; auto using Ht50. Qed.
Lemma bdd_J1 i j : (i < n)%nat -> (j < n)%nat -> bdd (fun w => J1 i j (t w)).
Proof. intros Hi Hj. exists Bd. split; auto. intros w Hw. apply HJb; auto using Ht50. Qed.
Lemma bdd_J2 i j : (i < n)%nat -> (j < n)%nat -> bdd (fun w => J2 i j (t w)).
Proof. intros Hi Hj. exists Bd. split; auto. intros w Hw. apply HJb; auto using Ht50. Qed.
Lemma bdd_h5 k : bdd (fun w => h w ^ k).
Proof. exists 1. split; [lra|]. intros w Hw. pose proof (hk_pos ok h Hh k w Hw). rewrite Rabs_right; lra. Qed.
Lemma D_at5 j k i c : (j + k <= 6)%nat -> (i < n)%nat -> 0 <= c <= 1 ->
  big k (fun w => cmp i (D j (t w + h w * c)) - tpoly (fun m => eD (j + m) i w) k (h w * c)).
Proof.
  intros Hj Hi Hc. apply (big_rem ok h e He k _ Bd); auto. intros w Hw. destruct (Ht5' w c Hw Hc) as (H1 & H2). pose proof (Ht w Hw).
  eapply Rle_trans; [apply HDt; auto; lra|]. apply Rmult_le_compat_l; auto. apply pow_incr. lra.
Qed.

Ltac bd := repeat first
  [ apply bdd_const | apply (bdd_h ok h Hh) | apply bdd_h5 | assumption
  | apply bdd_add | apply bdd_sub | apply bdd_mul | apply bdd_opp
  | apply bdd_eD; [lia|assumption] | apply bdd_J; assumption | apply bdd_J1; assumption | apply bdd_J2; assumption
  | apply bdd_Mv; [assumption|intros ? ?|intros ? ?] ].
Lemma bdd_cq s i : (i < n)%nat -> bdd (cq s i). Proof. intros Hi. unfold cq. bd. Qed.
Lemma bdd_cr s i : (i < n)%nat -> bdd (cr s i). Proof. intros Hi. unfold cr. bd. Qed.
Lemma bdd_cs s i : (i < n)%nat -> bdd (cs_ s i). Proof. intros Hi. unfold cs_. bd. Qed.

(** the derivative computed at a stage *)
Lemma stage_five (s : se) (Y k : W -> list R) : 0 <= e_c s <= 1 ->
  (forall w, ok w -> length (Y w) = n) ->
  (forall w, ok w -> rhs (t w + h w * e_c s) (Y w) = Ret (k w)) ->
  (forall i, (i < n)%nat -> big 5 (fun w => cmp i (Y w) - cmp i (D 0%nat (t w + h w * e_c s)) -
     (h w ^ 2 * cq s i w + h w ^ 3 * cr s i w + h w ^ 4 * cs_ s i w))) ->
  forall i, (i < n)%nat -> big 4 (fun w => cmp i (k w) - ap s i w) /\ (e_al s = 0 -> big 5 (fun w => cmp i (k w) - ap s i w)).
Proof.
  intros Hc HY Hk Hd. set (c := e_c s) in *.
  set (lead := fun i w => h w ^ 2 * cq s i w + h w ^ 3 * cr s i w + h w ^ 4 * cs_ s i w).
  set (dl := fun i w => cmp i (Y w) - cmp i (D 0%nat (t w + h w * c))).
  assert (D2 : forall i, (i < n)%nat -> big 2 (dl i)).
  { intros i Hi. apply (big_ext ok h e 2 (fun w => (dl i w - lead i w) + lead i w)); [intros; unfold dl, lead; lra|].
    apply big_add; [apply (big_low ok h e Hh 5); [lia|exact (Hd i Hi)]|]. unfold lead.
    apply (big_ext ok h e 2 (fun w => h w ^ 2 * (cq s i w + h w * cr s i w + h w ^ 2 * cs_ s i w))); [intros; ring|].
    apply (big_bdd ok h e Hh He). pose proof (bdd_cq s i Hi). pose proof (bdd_cr s i Hi). pose proof (bdd_cs s i Hi). bd. }
  assert (D3 : e_al s = 0 -> forall i, (i < n)%nat -> big 3 (dl i)).
  { intros Ha i Hi. apply (big_ext ok h e 3 (fun w => (dl i w - lead i w) + lead i w)); [intros; unfold dl, lead; lra|].
    apply big_add; [apply (big_low ok h e Hh 5); [lia|exact (Hd i Hi)]|]. unfold lead.
    apply (big_ext ok h e 3 (fun w => h w ^ 3 * (cr s i w + h w * cs_ s i w))); [intros; unfold cq; rewrite Ha; ring|].
    apply (big_bdd ok h e Hh He). pose proof (bdd_cr s i Hi). pose proof (bdd_cs s i Hi). bd. }
  (* the part of rhs that is not linear *)
  set (nl := fun i w => cmp i (k w) - cmp i (D 1%nat (t w + h w * c)) - sumn n (fun j => J i j (t w + h w * c) * dl j w)).
  assert (NLq : forall q, (forall i, (i < n)%nat -> big q (dl i)) -> exists C CJ, 0 <= C /\ 0 <= CJ /\ forall i w, (i < n)%nat -> ok w ->
     Rabs (nl i w) <= (L * C + CJ) * (e w + h w ^ q) /\ Rabs (nl i w) <= M * (C * C) * ((e w + h w ^ q) * (e w + h w ^ q))).
  { intros q Dq. destruct (big_all ok h e Hh He q n dl Dq) as (C & HC & HC2).
    assert (BJ : exists CJ, 0 <= CJ /\ forall i w, (i < n)%nat -> ok w -> Rabs (sumn n (fun j => J i j (t w + h w * c) * dl j w)) <= CJ * (e w + h w ^ q)).
    { apply (big_all ok h e Hh He q n (fun i w => sumn n (fun j => J i j (t w + h w * c) * dl j w))). intros i Hi.
      apply (big_sum ok h e q n (fun j w => J i j (t w + h w * c) * dl j w)). intros j Hj. apply big_mul; auto.
      exists Bd. split; auto. intros w Hw. apply HJb; auto. apply (Ht5' w c Hw Hc). }
    destruct BJ as (CJ & HCJ & HCJ2). exists C, CJ. split; auto. split; auto. intros i w Hi Hw.
    destruct (Ht5' w c Hw Hc) as (H1 & _).
    assert (Near : near (C * (e w + h w ^ q)) (Y w) (D 0%nat (t w + h w * c))).
    { split; [rewrite HY, HDl by (auto; lia); reflexivity|]. intros j Hj. rewrite HY in Hj by auto. apply HC2; auto. }
    split.
    - assert (HLn : near (L * (C * (e w + h w ^ q))) (k w) (D 1%nat (t w + h w * c))).
      { apply (proj2 (proj2 HL) (t w + h w * c) (Y w) (D 0%nat (t w + h w * c))); auto. apply HDl; auto; lia. }
      destruct HLn as (L1 & L2). rewrite HDl in L1 by (auto; lia). rewrite L1 in L2. specialize (L2 i Hi). specialize (HCJ2 i w Hi Hw).
      unfold nl. eapply Rle_trans; [apply Rabs_triang|]. rewrite Rabs_Ropp. lra.
    - replace (M * (C * C) * ((e w + h w ^ q) * (e w + h w ^ q))) with (M * ((C * (e w + h w ^ q)) * (C * (e w + h w ^ q)))) by ring.
      apply (HJ (t w + h w * c) (Y w)); auto. }
  assert (LC : forall C CJ, 0 <= C -> 0 <= CJ -> 0 <= L * C + CJ /\ 0 <= M * (C * C)).
  { intros C CJ H1 H2. split; [|repeat apply Rmult_le_pos; auto]. assert (0 <= L * C) by (apply Rmult_le_pos; auto; apply HL). lra. }
  assert (NL4 : forall i, (i < n)%nat -> big 4 (nl i)).
  { intros i Hi. destruct (NLq 2%nat D2) as (C & CJ & H1 & H2 & H3). destruct (LC C CJ H1 H2) as (L1 & L2).
    apply (big_square ok h e Hh He _ (L * C + CJ) (M * (C * C)) (fun w => e w + h w ^ 2)); auto.
    - intros w Hw. pose proof (gk_pos ok h e Hh He 2 w Hw). lra.
    - intros w Hw. apply H3; auto.
    - intros w Hw. apply H3; auto. }
  assert (NL5 : e_al s = 0 -> forall i, (i < n)%nat -> big 5 (nl i)).
  { intros Ha i Hi. destruct (NLq 3%nat (D3 Ha)) as (C & CJ & H1 & H2 & H3). destruct (LC C CJ H1 H2) as (L1 & L2).
    apply (big_square3 ok h e Hh He _ (L * C + CJ) (M * (C * C)) (fun w => e w + h w ^ 3)); auto.
    - intros w Hw. pose proof (gk_pos ok h e Hh He 3 w Hw). lra.
    - intros w Hw. apply H3; auto.
    - intros w Hw. apply H3; auto. }
  (* the linear part *)
  assert (LP : forall i, (i < n)%nat -> big 5 (fun w => sumn n (fun j => J i j (t w + h w * c) * dl j w) -
     (h w ^ 2 * Mv J (cq s) i w + h w ^ 3 * (Mv J (cr s) i w + c * Mv J1 (cq s) i w) +
      h w ^ 4 * (Mv J (cs_ s) i w + c * Mv J1 (cr s) i w + c * c / 2 * Mv J2 (cq s) i w)))).
  { intros i Hi. set (Jx := fun j w => J i j (t w + h w * c)).
    set (X := fun j w => Jx j w * (dl j w - lead j w) + (Jx j w - J i j (t w) - h w * c * J1 i j (t w) - h w * c * (h w * c) / 2 * J2 i j (t w)) * lead j w +
       h w ^ 5 * (c * J1 i j (t w) * cs_ s j w + c * c / 2 * J2 i j (t w) * (cr s j w + h w * cs_ s j w))).
    apply (big_ext ok h e 5 (fun w => sumn n (fun j => X j w))).
    { intros w Hw.
      set (Z := fun j => h w ^ 2 * (J i j (t w) * cq s j w) + h w ^ 3 * (J i j (t w) * cr s j w + c * (J1 i j (t w) * cq s j w)) +
        h w ^ 4 * (J i j (t w) * cs_ s j w + c * (J1 i j (t w) * cr s j w) + c * c / 2 * (J2 i j (t w) * cq s j w))).
      assert (EZ : sumn n Z = h w ^ 2 * Mv J (cq s) i w + h w ^ 3 * (Mv J (cr s) i w + c * Mv J1 (cq s) i w) +
        h w ^ 4 * (Mv J (cs_ s) i w + c * Mv J1 (cr s) i w + c * c / 2 * Mv J2 (cq s) i w)).
      { unfold Z, Mv. rewrite (sumn_ext n _ (fun j => h w ^ 2 * (J i j (t w) * cq s j w) + 1 * (h w ^ 3 * (J i j (t w) * cr s j w) + 1 * ((h w ^ 3 * c) * (J1 i j (t w) * cq s j w) +
          1 * (h w ^ 4 * (J i j (t w) * cs_ s j w) + 1 * ((h w ^ 4 * c) * (J1 i j (t w) * cr s j w) + (h w ^ 4 * (c * c / 2)) * (J2 i j (t w) * cq s j w))))))) by (intros; ring).
        rewrite !sumn_lin. ring. }
      rewrite <- EZ. replace (sumn n (fun j => J i j (t w + h w * c) * dl j w)) with (sumn n (fun j => 1 * X j w + 1 * Z j)).
      - rewrite sumn_lin. lra.
      - apply sumn_ext. intros j Hj. unfold X, Z, Jx, lead. field. }
    apply (big_sum ok h e 5 n X). intros j Hj. unfold X.
    pose proof (bdd_cq s j Hj). pose proof (bdd_cr s j Hj). pose proof (bdd_cs s j Hj).
    apply big_add; [apply big_add|].
    - apply big_mul; [|exact (Hd j Hj)]. exists Bd. split; auto. intros w Hw. apply HJb; auto. apply (Ht5' w c Hw Hc).
    - assert (Bl : bdd (fun w => cq s j w + h w * cr s j w + h w ^ 2 * cs_ s j w)) by bd.
      destruct Bl as (Cl & HCl & HCl2).
      apply (big_rem ok h e He 5 _ (Bd * Cl)); [apply Rmult_le_pos; auto|]. intros w Hw. destruct (Ht5' w c Hw Hc) as (H1' & H2').
      assert (Q1 : Rabs (Jx j w - J i j (t w) - h w * c * J1 i j (t w) - h w * c * (h w * c) / 2 * J2 i j (t w)) <= Bd * h w ^ 3).
      { eapply Rle_trans; [apply HJt; auto; [pose proof (Ht w Hw)|..]; lra|]. apply Rmult_le_compat_l; auto.
        replace (h w ^ 3) with (h w * h w * h w) by ring. repeat apply Rmult_le_compat; try lra. apply Rmult_le_pos; lra. }
      assert (Q2 : Rabs (lead j w) <= Cl * h w ^ 2).
      { unfold lead. replace (h w ^ 2 * cq s j w + h w ^ 3 * cr s j w + h w ^ 4 * cs_ s j w) with
          (h w ^ 2 * (cq s j w + h w * cr s j w + h w ^ 2 * cs_ s j w)) by ring.
        pose proof (hk_pos ok h Hh 2 w Hw). rewrite Rabs_mult, (Rabs_right (h w ^ 2)) by lra. rewrite Rmult_comm. apply Rmult_le_compat_r; [lra|]. apply HCl2; auto. }
      rewrite Rabs_mult. replace (Bd * Cl * h w ^ 5) with ((Bd * h w ^ 3) * (Cl * h w ^ 2)) by ring.
      apply Rmult_le_compat; auto using Rabs_pos.
    - apply (big_bdd ok h e Hh He). bd. }
  assert (Fin : forall q, (q <= 5)%nat -> (forall i, (i < n)%nat -> big q (nl i)) -> forall i, (i < n)%nat -> big q (fun w => cmp i (k w) - ap s i w)).
  { intros q Hq NL i Hi.
    apply (big_ext ok h e q (fun w => nl i w + (cmp i (D 1%nat (t w + h w * c)) - tpoly (fun m => eD (1 + m) i w) 5 (h w * c)) +
      (sumn n (fun j => J i j (t w + h w * c) * dl j w) -
       (h w ^ 2 * Mv J (cq s) i w + h w ^ 3 * (Mv J (cr s) i w + c * Mv J1 (cq s) i w) +
        h w ^ 4 * (Mv J (cs_ s) i w + c * Mv J1 (cr s) i w + c * c / 2 * Mv J2 (cq s) i w))))).
    { intros w Hw. unfold nl, ap, pw2, pw3, pw4, cal, ccal, cbe, cga. rewrite !Mv_q, !Mv_r, !Mv_s. fold c. cbn [tpoly plus fact Nat.mul Nat.add].
      replace (INR 24) with 24 by (cbn; lra). replace (INR 6) with 6 by (cbn; lra). replace (INR 2) with 2 by (cbn; lra). replace (INR 1) with 1 by reflexivity. field. }
    apply big_add; [apply big_add|].
    - exact (NL i Hi).
    - apply (big_low ok h e Hh 5); [lia|]. apply (D_at5 1 5 i c); auto.
    - apply (big_low ok h e Hh 5); [lia|]. exact (LP i Hi). }
  intros i Hi. split; [apply (Fin 4%nat); auto|]. intros Ha. apply (Fin 5%nat); auto.
Qed.

(** ** all the stages *)
Lemma dot_ap i w (a : list R) : forall S : list se, length a = length S ->
  dot a (map (fun s => ap s i w) S) = sumR a * eD 1 i w + h w * (dot a (map e_c S) * eD 2 i w) +
  h w ^ 2 * (dot a (map pw2 S) * eD 3 i w + dot a (map e_al S) * Mv J (eD 2) i w) +
  h w ^ 3 * (dot a (map pw3 S) * eD 4 i w + dot a (map cal S) * Mv J1 (eD 2) i w + dot a (map e_be S) * Mv J (eD 3) i w + dot a (map e_ga S) * Mv J (Mv J (eD 2)) i w) +
  h w ^ 4 * (dot a (map pw4 S) * eD 5 i w + dot a (map ccal S) * Mv J2 (eD 2) i w + dot a (map cbe S) * Mv J1 (eD 3) i w + dot a (map cga S) * Mv J1 (Mv J (eD 2)) i w +
    (dot a (map e_de S) * Mv J (eD 4) i w + dot a (map e_ep S) * Mv J (Mv J (eD 3)) i w + dot a (map e_ze S) * Mv J (Mv J1 (eD 2)) i w +
     dot a (map e_et S) * Mv J (Mv J (Mv J (eD 2))) i w)).
Proof.
  induction a as [|x a IH]; intros [|s S] H; try discriminate.
  - cbn. ring.
  - cbn [map dot sumR fold_right]. rewrite IH by (cbn in H; lia). unfold ap at 1. unfold sumR. ring.
Qed.
Definition st_ok5 (i : nat) (K : W -> list (list R)) (S : list se) : Prop :=
  length S = i /\ (forall w, ok w -> length (K w) = i /\ Forall (fun k => length k = n) (K w)) /\
  forall j a, (j < i)%nat -> (a < n)%nat -> big 4 (fun w => cmp a (nth j (K w) []) - ap (nth j S se0) a w) /\
    (e_al (nth j S se0) = 0 -> big 5 (fun w => cmp a (nth j (K w) []) - ap (nth j S se0) a w)).
Lemma st_comb5 q i K S (a : list R) b : st_ok5 i K S -> length a = i -> (b < n)%nat ->
  q = 4%nat \/ (q = 5%nat /\ forall j, (j < i)%nat -> nth j a 0 = 0 \/ e_al (nth j S se0) = 0) ->
  big q (fun w => dot a (map (fun k => cmp b k) (K w)) - dot a (map (fun s => ap s b w) S)).
Proof.
  intros (LS & LK & HK) La Hb Hq.
  apply (big_ext ok h e q (fun w => sumn i (fun j => nth j a 0 * (cmp b (nth j (K w) []) - ap (nth j S se0) b w)))).
  - intros w Hw. destruct (LK w Hw) as (L1 & _). rewrite (dot_sumn a _ i) by (rewrite ?map_length; auto).
    rewrite (dot_sumn a _ i) by (rewrite ?map_length; auto).
    rewrite (sumn_ext i _ (fun j => 1 * (nth j a 0 * cmp b (nth j (K w) [])) + -1 * (nth j a 0 * ap (nth j S se0) b w))) by (intros; ring).
    rewrite sumn_lin. rewrite Rmult_1_l. unfold Rminus. f_equal.
    + apply sumn_ext. intros j Hj. f_equal. symmetry. apply (nth_map_cmp b j (K w)).
    + replace (-1 * sumn i (fun i0 => nth i0 a 0 * ap (nth i0 S se0) b w)) with (- sumn i (fun i0 => nth i0 a 0 * ap (nth i0 S se0) b w)) by lra.
      f_equal. apply sumn_ext. intros j Hj. f_equal.
      rewrite (nth_indep _ 0 (ap se0 b w)) by (rewrite map_length; lia). symmetry. apply (map_nth (fun s => ap s b w)).
  - apply (big_sum ok h e q i (fun j w => nth j a 0 * (cmp b (nth j (K w) []) - ap (nth j S se0) b w))).
    intros j Hj. destruct Hq as [-> |(-> & Hq)].
    + apply big_mul; [apply bdd_const|]. apply HK; auto.
    + destruct (Hq j Hj) as [E0|E0].
      * apply (big_ext ok h e 5 (fun _ => 0)); [intros; rewrite E0; ring|apply big_0].
      * apply big_mul; [apply bdd_const|]. apply HK; auto.
Qed.
Lemma u_len5 w : ok w -> length (u w) = n.
Proof. intros Hw. destruct (Hu w Hw) as (H & _). rewrite H. apply HDl; [now apply Ht50|lia]. Qed.
Lemma u_cmp5 w i : ok w -> (i < n)%nat -> Rabs (cmp i (u w) - cmp i (D 0%nat (t w))) <= e w.
Proof. intros Hw Hi. destruct (Hu w Hw) as (H & H1). apply H1. rewrite u_len5; auto. Qed.

Lemma stages5 rows : forall cs i S K K', rows4 i rows cs -> st_ok5 i K S ->
  (forall w, ok w -> stages_of (OT := Rops) rhs (t w) (u w) (h w) rows cs (K w) (K' w)) ->
  st_ok5 (i + length rows) K' (ses rows cs S).
Proof.
  induction rows as [|a rows IH]; intros [|c cs] i S K K' Hr Hst Hs; cbn [rows4] in Hr; try contradiction.
  - cbn [length ses]. rewrite Nat.add_0_r. destruct Hst as (H1 & H2 & H3).
    assert (EK : forall w, ok w -> K' w = K w). { intros w Hw. specialize (Hs w Hw). now inversion Hs. }
    split; auto. split; [intros w Hw; rewrite EK; auto|]. intros j b Hj Hb. destruct (H3 j b Hj Hb) as (H4 & H5).
    split; [|intros Ha; specialize (H5 Ha)]; (eapply big_ext; [|eassumption]); intros w Hw; cbn beta; rewrite EK; auto.
  - destruct Hr as (R1 & R2 & R3 & R4). pose proof Hst as (LS & LK & HK).
    set (a' := firstn i a) in *. set (k := fun w => nth i (K' w) []).
    assert (Hk : forall w, ok w -> rhs (t w + h w * c) (@vadd Rops (u w) (@vscale Rops (h w) (@lincomb Rops n a' (K w)))) = Ret (k w) /\
              stages_of (OT := Rops) rhs (t w) (u w) (h w) rows cs (K w ++ [k w]) (K' w)).
    { intros w Hw. specialize (Hs w Hw). destruct (LK w Hw) as (L1 & L2).
      apply (stages_cons_inv rhs) in Hs as (k0 & Hk0 & St').
      destruct (stage_prefix rhs _ _ _ _ _ _ _ St') as (r & Er).
      assert (Ek : k w = k0).
      { unfold k. rewrite Er. exact (nth_mid (K w) r k0 i L1). }
      rewrite Ek. split; [|exact St']. rewrite <- Hk0. f_equal. f_equal. f_equal. unfold a'.
      exact (f_equal2 (fun x z => @lincomb Rops x (firstn z a) (K w)) (eq_sym (u_len5 w Hw)) (eq_sym L1)). }
    assert (LY : forall w, ok w -> length (@vscale Rops (h w) (@lincomb Rops n a' (K w))) = n).
    { intros w Hw. apply vscale_len. apply lincomb_len. apply LK; auto. }
    cbn [ses length]. replace (i + Datatypes.S (length rows))%nat with (Datatypes.S i + length rows)%nat by lia.
    apply (IH cs (Datatypes.S i) (S ++ [next_se (firstn (length S) a) c S]) (fun w => K w ++ [k w]) K'); auto; [|intros w Hw; apply Hk; auto].
    rewrite LS. fold a'. split; [rewrite app_length; cbn; lia|]. split.
    + intros w Hw. destruct (LK w Hw) as (L1 & L2). split; [rewrite app_length; cbn; lia|]. apply Forall_app. split; auto. constructor; auto.
      destruct (Hk w Hw) as (Hk1 & _). destruct HL as (_ & Kd & _). eapply Kd; [|exact Hk1]. apply vadd_len; auto. apply u_len5; auto.
    + intros j b Hj Hb. destruct (Nat.eq_dec j i) as [->|Hne].
      * assert (EN : nth i (S ++ [next_se a' c S]) se0 = next_se a' c S) by (rewrite app_nth2 by lia; rewrite LS, Nat.sub_diag; reflexivity).
        rewrite EN.
        assert (Main : big 4 (fun w => cmp b (k w) - ap (next_se a' c S) b w) /\ (e_al (next_se a' c S) = 0 -> big 5 (fun w => cmp b (k w) - ap (next_se a' c S) b w))).
        { apply (stage_five (next_se a' c S) (fun w => @vadd Rops (u w) (@vscale Rops (h w) (@lincomb Rops n a' (K w)))) k); auto.
          { intros w Hw. apply vadd_len; auto. apply u_len5; auto. }
          { intros w Hw. apply Hk; auto. }
          clear b Hb Hj. intros b Hb. change (e_c (next_se a' c S)) with c.
          apply (big_ext ok h e 5 (fun w => (cmp b (u w) - cmp b (D 0%nat (t w))) +
            h w * (dot a' (map (fun k => cmp b k) (K w)) - dot a' (map (fun s => ap s b w) S)) -
            (cmp b (D 0%nat (t w + h w * c)) - tpoly (fun m => eD (0 + m) b w) 5 (h w * c)) +
            h w ^ 5 * (dot a' (map pw4 S) * eD 5 b w + dot a' (map ccal S) * Mv J2 (eD 2) b w + dot a' (map cbe S) * Mv J1 (eD 3) b w + dot a' (map cga S) * Mv J1 (Mv J (eD 2)) b w +
              (dot a' (map e_de S) * Mv J (eD 4) b w + dot a' (map e_ep S) * Mv J (Mv J (eD 3)) b w + dot a' (map e_ze S) * Mv J (Mv J1 (eD 2)) b w +
               dot a' (map e_et S) * Mv J (Mv J (Mv J (eD 2))) b w)))).
          { intros w Hw. rewrite dot_ap by lia. rewrite R2.
            rewrite (vadd_cmp n) by (auto; apply u_len5; auto). rewrite vscale_cmp. rewrite lincomb_cmp by (auto; apply LK; auto).
            unfold cq, cr, cs_. cbn [next_se e_c e_al e_be e_ga e_de e_ep e_ze e_et].
            cbn [tpoly plus fact Nat.mul Nat.add]. replace (INR 24) with 24 by (cbn; lra). replace (INR 6) with 6 by (cbn; lra). replace (INR 2) with 2 by (cbn; lra). replace (INR 1) with 1 by reflexivity.
            change (eD 0 b w) with (cmp b (D 0%nat (t w))). change (@nth (@T Rops) b (u w) 0) with (@nth R b (u w) 0). field. }
          apply big_add; [apply big_sub; [apply big_add|]|].
          - apply (big_e ok h e Hh). intros w Hw. apply u_cmp5; auto.
          - apply (big_h ok h e Hh He 4). apply (st_comb5 4 i); auto.
          - apply (D_at5 0 5 b c); auto; lia.
          - apply (big_bdd ok h e Hh He). bd. }
        destruct Main as (M4 & M5). split; [|intros Ha; specialize (M5 Ha)]; (eapply big_ext; [|eassumption]); intros w Hw; cbn beta; destruct (LK w Hw) as (L1 & _); rewrite app_nth2 by lia; rewrite L1, Nat.sub_diag; reflexivity.
      * rewrite (app_nth1 S) by lia. destruct (HK j b ltac:(lia) Hb) as (M4 & M5).
        split; [|intros Ha; specialize (M5 Ha)]; (eapply big_ext; [|eassumption]); intros w Hw; cbn beta; destruct (LK w Hw) as (L1 & _); rewrite app_nth1 by lia; reflexivity.
Qed.

(** the first stage *)
Lemma stage_first5 f : (forall w, ok w -> rhs (t w) (u w) = Ret (f w)) -> st_ok5 1 (fun w => [f w]) [se0].
Proof.
  intros Hf. split; [reflexivity|]. split.
  - intros w Hw. split; [reflexivity|]. constructor; auto. destruct HL as (_ & Kd & _). eapply Kd; [|apply Hf; exact Hw]. now apply u_len5.
  - intros j a Hj Ha. assert (j = 0)%nat as -> by lia. cbn [nth].
    apply (stage_five se0 u f); auto.
    + cbn. lra.
    + exact u_len5.
    + intros w Hw. cbn [se0 e_c]. rewrite Rmult_0_r, Rplus_0_r. auto.
    + clear a Ha. intros a Ha. apply (big_ext ok h e 5 (fun w => cmp a (u w) - cmp a (D 0%nat (t w)))).
      * intros w Hw. cbn [se0 e_c]. rewrite Rmult_0_r, Rplus_0_r. unfold cq, cr, cs_. cbn [se0 e_al e_be e_ga e_de e_ep e_ze e_et]. ring.
      * apply (big_e ok h e Hh). intros w Hw. apply u_cmp5; auto.
Qed.

(** ** the result of the step *)
Definition conds5 (B : list R) (S : list se) : Prop :=
  (forall j, (j < length B)%nat -> nth j B 0 = 0 \/ e_al (nth j S se0) = 0) /\
  (sumR B = 1 /\ dot B (map e_c S) = 1 / 2) /\ (dot B (map pw2 S) = 1 / 6 /\ dot B (map e_al S) = 0) /\
  (dot B (map pw3 S) = 1 / 24 /\ dot B (map cal S) = 0 /\ dot B (map e_be S) = 0 /\ dot B (map e_ga S) = 0) /\
  (dot B (map pw4 S) = 1 / 120 /\ dot B (map ccal S) = 0 /\ dot B (map cbe S) = 0 /\ dot B (map cga S) = 0) /\
  (dot B (map e_de S) = 0 /\ dot B (map e_ep S) = 0 /\ dot B (map e_ze S) = 0 /\ dot B (map e_et S) = 0).
Lemma step5 i B S K (u' : W -> list R) : conds5 B S -> st_ok5 i K S -> length B = i ->
  (forall w b, ok w -> (b < n)%nat -> cmp b (u' w) = cmp b (u w) + h w * dot B (map (fun k => cmp b k) (K w))) ->
  forall b, (b < n)%nat ->
    big 5 (fun w => (cmp b (u' w) - cmp b (D 0%nat (t w + h w)) - (cmp b (u w) - cmp b (D 0%nat (t w)))) / h w).
Proof.
  intros (C0 & (C1 & C2) & (C3 & C4) & (C5 & C6 & C7 & C8) & (C9 & C10 & C11 & C12) & (C13 & C14 & C15 & C16)) Hst LB Hu' b Hb. pose proof Hst as (LS & _ & _).
  apply (big_ext ok h e 5 (fun w => (dot B (map (fun k => cmp b k) (K w)) - dot B (map (fun s => ap s b w) S)) -
    (cmp b (D 0%nat (t w + h w)) - tpoly (fun m => eD (0 + m) b w) 6 (h w)) / h w)).
  { intros w Hw. rewrite Hu' by auto. rewrite dot_ap by lia. rewrite C1, C2, C3, C4, C5, C6, C7, C8, C9, C10, C11, C12, C13, C14, C15, C16.
    pose proof (Hh w Hw). cbn [tpoly plus fact Nat.mul Nat.add].
    replace (INR 120) with 120 by (rewrite INR_IZR_INZ; reflexivity). replace (INR 24) with 24 by (cbn; lra). replace (INR 6) with 6 by (cbn; lra). replace (INR 2) with 2 by (cbn; lra). replace (INR 1) with 1 by reflexivity.
    change (eD 0 b w) with (cmp b (D 0%nat (t w))). field. lra. }
  apply big_sub.
  - apply (st_comb5 5 i); auto. right. split; auto. intros j Hj. apply C0. lia.
  - apply (big_rem ok h e He 5 _ Bd); auto. intros w Hw. pose proof (Hh w Hw) as Hw1. pose proof (Ht w Hw) as Hw2.
    unfold Rdiv. rewrite Rabs_mult, (Rabs_right (/ h w)) by (left; apply Rinv_0_lt_compat; lra).
    apply Rmult_le_reg_r with (h w); [lra|]. rewrite Rmult_assoc, Rinv_l, Rmult_1_r by lra.
    replace (Bd * h w ^ 5 * h w) with (Bd * h w ^ 6) by ring. apply (HDt 0 6 (t w) (h w) b); auto; lra || lia.
Qed.
End Step.
