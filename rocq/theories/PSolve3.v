(** C86: from the constructor to the rows of run. *)
From Coq Require Import List ZArith QArith Bool Arith Lia Reals Lra.
From Verif Require Import Base Scalar Vec MBuffer MZeros MSteps MApi MClasses Laws Spec SpecInst
  PStep PKeeps PCore PHist PBound PVecR SpecRK PRK PDim PRun PRun2 PRun3 PFwd PTerm SpecMS PMS PMS2 SpecDense PDense PC2 PTop2 SpecOrder SpecConv SpecConv3 SpecLmm SpecLive
  PConv1 PConv2 PConv6 PConv7 PHi6 PHi1 PHi3 PLmm2 PLmm7 PLmm4 PLmm5 PLmm7 PLmm9 PLive3 PExLive SpecCtl SpecVar SpecVL PConv9 PVar3 PVL3 PVL4 PVL5 SpecSolve PSolve1 PSolve2.
Import ListNotations.
Open Scope R_scope.

Lemma rk_table_explicit m p : In (m, p) rk_table -> is_erk m /\ explicit m /\ shaped m /\ is_fixed m = true.
Proof.
  intros H. destruct (rk_table_tab m p H) as (A & B & C & -> & HC & HA & _). cbn. auto.
Qed.
Lemma Ck_dim k rhs n t0 te y : Ck_solution k rhs n t0 te y -> t0 <= te -> length (y t0) = n.
Proof. intros (D & D0 & HD) Ht. destruct (HD t0 ltac:(lra)) as (_ & HD2 & _). pose proof (HD2 0%nat ltac:(lia)) as Ly0. now rewrite D0 in Ly0. Qed.
Lemma C2_dim rhs n t0 te y : C2_solution rhs n t0 te y -> t0 <= te -> length (y t0) = n.
Proof. intros (dy & ddy & H) Ht. apply (H t0). lra. Qed.

Section S.
Context {E : @Env Rops}.
Variables (rhs : @rhs_t Rops) (n : nat) (L t0 te : R) (y : R -> list R).
Hypothesis HL : lipschitz n L rhs.
Hypothesis Hd : defined_on n rhs.
Hypothesis Hte : t0 <= te.
Let Hk : keeps_dim (OT := Rops) n rhs := proj1 (proj2 HL).

Lemma explicit_solves m fuelc o tb h s t : explicit m -> shaped m -> is_fixed m = true -> 0 < h -> steady rhs n m h s -> now s <= te -> @gt_ext Rops te tb = false ->
  askable s (te - h) t ->
  exists N rows s', (forall fuel, (N <= fuel)%nat -> run (E := E) (solver_of (E := E) m fuelc o rhs tb) fuel t s = (Ret rows, s')) /\ map fst rows = t /\ now s' <= te.
Proof.
  intros He Sh Fx Hh Ss Hn Hg (T1 & T2 & T3).
  apply (fixed_solves (E := E) m fuelc o rhs tb h te (steady rhs n m h)); auto.
  - destruct m; try contradiction; reflexivity.
  - intros x (G & _ & O & Hx). auto.
  - intros x Sx _ Hw. destruct (explicit_core (E := E) rhs n Hk Hd m fuelc o x He Sh) as (x' & C); [apply Sx|apply Sx|].
    exists x'. split; [exact C|]. eapply (steady_core (E := E) rhs n Hk m fuelc o tb); eauto. destruct m; try contradiction; exact I.
Qed.

Lemma C86_lemma m p : Ck_solution 5 rhs n t0 te y -> smooth_along rhs n t0 te y -> In (m, p) rk_table ->
  exists K, forall h g, 0 < h <= 1 -> garbage_ok m g -> exists s0, init_rk m g rhs t0 (y t0) (Some h) = Ret s0 /\
    forall fuelc o tb fuel cs s t, s = session (E := E) (solver_of (E := E) m fuelc o rhs tb) fuel cs s0 -> now s <= te -> @gt_ext Rops te tb = false ->
    askable s (te - h) t -> solved (E := E) (solver_of (E := E) m fuelc o rhs tb) s t (K * h ^ p) y.
Proof.
  intros HC HJ Hm. destruct (C67_run_lemma (E := E) rhs n L t0 te y HL Hte HC HJ m p Hm) as (K & H). exists K. intros h g Hh Hg.
  destruct (rk_table_explicit m p Hm) as (Er & He & Sh & Fx).
  destruct (init_rk_steady rhs n Hk Hd m g t0 (y t0) h Hg (Ck_dim _ _ _ _ _ _ HC Hte)) as (s0 & Hi & S0 & _).
  exists s0. split; [exact Hi|]. intros fuelc o tb fuel cs s t Es Hn Hg' Ht.
  assert (Ss : steady rhs n m h s). { rewrite Es. apply (steady_session (E := E) rhs n Hk); auto; [destruct m; try contradiction; exact I|lra]. }
  destruct (explicit_solves m fuelc o tb h s t He Sh Fx (proj1 Hh) Ss Hn Hg' Ht) as (N & rows & s' & R1 & R2 & R3).
  exists N, rows, s'. split; [exact R1|]. split; [exact R2|].
  apply (H h g s0 fuelc o tb fuel cs s N t rows s'); auto. apply Ht.
Qed.
Lemma C86_ab_lemma k m bs start : In (k, m, bs) ab_table -> (forall m1, start = Some m1 -> exists p, In (m1, p) rk_table) -> C2_solution rhs n t0 te y ->
  exists K, forall h g fs fuel0, 0 < h <= 1 -> garbage_ok m g -> starts (E := E) rhs t0 (y t0) h start fs -> exists s0, init_ms (E := E) m g rhs t0 (y t0) (Some h) fs fuel0 = Ret s0 /\
    now s0 <= t0 + INR k * h /\
    forall fuelc o tb fuel cs s t, s = session (E := E) (solver_of (E := E) m fuelc o rhs tb) fuel cs s0 -> now s <= te -> @gt_ext Rops te tb = false ->
    askable s (te - h) t -> solved (E := E) (solver_of (E := E) m fuelc o rhs tb) s t (K * h) y.
Proof.
  intros Hm Hst HC. destruct (C33_ab_run_lemma (E := E) k m bs start rhs n L t0 te y Hm Hst HL Hte HC) as (K & H). exists K. intros h g fs fuel0 Hh Hg Hs.
  assert (Em : exists A B, m = @ExplMS Rops A B /\ ms_order m = k).
  { cbn [ab_table In] in Hm. destruct Hm as [Hm|[Hm|[Hm|[Hm|[Hm|[]]]]]]; injection Hm as <- <- <-; eexists; eexists; (split; [reflexivity|reflexivity]). }
  destruct Em as (A & B & Em & Ek).
  assert (Im : is_multistep m /\ explicit m /\ shaped m /\ is_fixed m = true) by (rewrite Em; cbn; auto). destruct Im as (Im & He & Sh & Fx).
  destruct (init_ms_steady (E := E) rhs n Hk Hd m g start t0 (y t0) h fs fuel0 Im Hg (C2_dim _ _ _ _ _ HC Hte) (proj1 Hh)) as (s0 & Hi & S0 & T0 & _); auto.
  { intros m1 Hm1. destruct (Hst m1 Hm1) as (p & Hp). exact (rk_table_explicit m1 p Hp). }
  exists s0. split; [exact Hi|]. split; [rewrite <- Ek; exact T0|]. intros fuelc o tb fuel cs s t Es Hn Hg' Ht.
  assert (Ss : steady rhs n m h s). { rewrite Es. apply (steady_session (E := E) rhs n Hk); auto; [rewrite Em; exact I|lra]. }
  destruct (explicit_solves m fuelc o tb h s t He Sh Fx (proj1 Hh) Ss Hn Hg' Ht) as (N & rows & s' & R1 & R2 & R3).
  exists N, rows, s'. split; [exact R1|]. split; [exact R2|].
  apply (H h g fs s0 fuel0 fuelc o tb fuel cs s N t rows s'); auto. apply Ht.
Qed.

Lemma C86_implicit_lemma k m m1 p : Ck_solution (Nat.max 5 (k + 1)) rhs n t0 te y -> smooth_along rhs n t0 te y -> In (k, m) (am_table ++ bdf_table) -> In (m1, p) rk_table ->
  solve_dim (E := E) -> (1 <= n)%nat -> n = 1%nat \/ solves_regular (E := E) n ->
  exists K h0, 0 < h0 /\ forall h g fs fuel0, 0 < h <= h0 -> garbage_ok m g -> starts (E := E) rhs t0 (y t0) h (Some m1) fs ->
    exists s0, init_ms (E := E) m g rhs t0 (y t0) (Some h) fs fuel0 = Ret s0 /\ now s0 <= t0 + INR (ms_order m) * h /\
    (now s0 <= te -> forall rho fuelc o tb fuel cs s t, 0 <= rho -> leaves_at_most rho te m (solver_of (E := E) m fuelc o rhs PInf) s0 ->
    s = session (E := E) (solver_of (E := E) m fuelc o rhs tb) fuel cs s0 -> now s <= te -> @gt_ext Rops te tb = false ->
    askable s (te - h) t -> solved (E := E) (solver_of (E := E) m fuelc o rhs tb) s t (K * (h ^ Nat.min k p + rho / h)) y).
Proof.
  intros HC HJ Hm Hp Sd Hn Sol.
  destruct (C79_run_lemma (E := E) rhs n L t0 te y HL Hte k m m1 p HC HJ Hm Hp Sd) as (K & h1 & Ph1 & H1).
  assert (HC5 : Ck_solution 5 rhs n t0 te y) by (apply (Ck_mono _ (Nat.max 5 (k + 1))); auto; lia).
  assert (HCk : Ck_solution (k + 1) rhs n t0 te y) by (apply (Ck_mono _ (Nat.max 5 (k + 1))); auto; lia).
  destruct (C83_inv_lemma (E := E) rhs n L t0 te y HL Hd Hte k m HCk Hm Sd Hn Sol) as (h2 & Ph2 & H2).
  destruct (implicit_stable k m Hm) as (A & B & Bn & -> & ZS). pose proof ZS as (Hk1 & HA & LAB & _).
  assert (LA : (0 < length A)%nat) by (destruct A; [contradiction|cbn; lia]).
  destruct (start_rec (E := E) rhs n L t0 te y HL Hte A B Bn m1 p HC5 HJ Hp LA) as (C & PC & HS).
  set (M := @ImplMS Rops A B Bn) in *.
  assert (PiC : 0 < / (C + 1)) by (apply Rinv_0_lt_compat; lra).
  exists K, (Rmin (Rmin h1 h2) (Rmin 1 (/ (C + 1)))). split; [repeat apply Rmin_glb_lt; lra|].
  intros h g fs fuel0 Hh Hg Hst.
  pose proof (Rmin_l (Rmin h1 h2) (Rmin 1 (/ (C + 1)))). pose proof (Rmin_r (Rmin h1 h2) (Rmin 1 (/ (C + 1)))).
  pose proof (Rmin_l h1 h2). pose proof (Rmin_r h1 h2). pose proof (Rmin_l 1 (/ (C + 1))). pose proof (Rmin_r 1 (/ (C + 1))).
  destruct (init_ms_steady (E := E) rhs n Hk Hd M g (Some m1) t0 (y t0) h fs fuel0 I Hg (Ck_dim _ _ _ _ _ _ HC5 Hte) (proj1 Hh)) as (s0 & Hi & S0 & T0 & Bs); auto.
  { intros m1' [= <-]. exact (rk_table_explicit m1 p Hp). }
  exists s0. split; [exact Hi|]. split; [exact T0|]. intros Hn0 rho fuelc o tb fuel cs s t Hrho Lv Es Hnow Hg' Ht.
  destruct (HS h g fs fuel0 s0 ltac:(lra) Hg Hst Hi) as (G0 & Hs0 & Rec). destruct (Rec Hn0) as (D0 & Rec0).
  assert (Hp1 : (1 <= p)%nat). { clear -Hp. cbn in Hp. repeat (destruct Hp as [[= _ <-]|Hp]; [lia|]). destruct Hp. }
  assert (Hd1 : 0 <= C * h ^ p <= 1).
  { assert (Q1 : h ^ p <= h). { destruct p as [|p]; [lia|]. cbn [pow]. assert (h ^ p <= 1) by (rewrite <- (pow1 p); apply pow_incr; lra). apply Rle_trans with (h * 1); [apply Rmult_le_compat_l; lra|lra]. }
    assert (0 <= h ^ p) by (apply pow_le; lra). split; [now apply Rmult_le_pos|].
    apply Rle_trans with ((C + 1) * / (C + 1)); [apply Rmult_le_compat; lra|]. rewrite Rinv_r by lra. lra. }
  destruct (H2 h (C * h ^ p) fuelc o s0 ltac:(lra) Hd1 G0 D0 Hs0 Rec0) as (I1 & J1 & J2 & J0 & J3).
  assert (Is : I1 s). { rewrite Es. apply session_inv; [|exact J2|exact J0]. intros b x _ _ Hx. exact (J1 x Hx). }
  assert (Ss : steady rhs n M h s). { rewrite Es. apply (steady_session (E := E) rhs n Hk); auto; try exact I; lra. }
  destruct Ht as (T1 & T2 & T3).
  destruct (fixed_solves (E := E) M fuelc o rhs tb h te (fun x => steady rhs n M h x /\ I1 x)) with (s := s) (t := t) as (N & rows & s' & R1 & R2 & R3); auto.
  - lra.
  - intros x ((G & _ & O & Hx) & _). auto.
  - intros x (Sx & Ix) Hx Hw. destruct (J3 tb x Ix Hx Hw) as (x' & (f & tt0 & a & St) & _).
    assert (C1 : core_of (E := E) M fuelc o rhs x = (Ret tt, x')).
    { assert (St' : took_step (solver_of (E := E) M fuelc o rhs tb) x x') by (exists f, tt0, a; exact St). apply took_core in St'. exact St'. }
    exists x'. split; [exact C1|]. split.
    + eapply (steady_core (E := E) rhs n Hk M fuelc o tb); eauto; try exact I; lra.
    + pose proof (J1 x Ix) as Ix'. rewrite C1 in Ix'. exact Ix'.
  - exists N, rows, s'. split; [exact R1|]. split; [exact R2|]. apply (H1 h rho g fs fuel0 fuelc o tb fuel cs s0 s N t rows s'); auto; try lra.
Qed.
End S.
