(** C83: whole sessions, and instances. *)
From Coq Require Import List ZArith QArith Bool Arith Lia Reals Lra.
From Verif Require Import Base Scalar Vec MBuffer MZeros MSteps MApi MClasses MDop853 Laws Spec SpecInst PStep PKeeps PCore PHist PBound PVecR SpecRK PDim PFwd Ex PTerm PTop1 SpecZeros PZeros PZeros2 SpecMS PMS PMS2 PRK2 PMS5 PMS3 PMS6 PMS7
  SpecOrder SpecConv PConv1 PConv8 SpecConv3 PExHi PImpl5 PGlob SpecLmm PLmm1 PLmm4 PLmm5 PLmm6 PLmm7 PLmm8 SpecLive PLive1 PLive2 PLive3.
Import ListNotations.
Open Scope R_scope.

Lemma repeat_snoc {X} (x : X) k : repeat x (S k) = repeat x k ++ [x].
Proof. induction k; [reflexivity|]. cbn [repeat app] in *. now rewrite <- IHk. Qed.
Lemma returns_app {OT : Ops} {E : Env} sv fuel c : forall l s1 s2 s3, returns (E := E) sv fuel l s1 s2 -> exec_call sv fuel c s2 = (Ret tt, s3) -> returns (E := E) sv fuel (l ++ [c]) s1 s3.
Proof.
  induction l as [|x l IH]; intros s1 s2 s3 H1 H2; inversion H1; subst; cbn [app].
  - eapply rts_cons; [exact H2|constructor]. - eapply rts_cons; eauto.
Qed.

Lemma now_0 (a h : R) : a = a + INR 0 * h. Proof. cbn [INR]. ring. Qed.
Lemma now_S (a h : R) j : a + INR j * h + h = a + INR (S j) * h. Proof. rewrite S_INR. ring. Qed.

Lemma C83_total_lemma {E : @Env Rops} rhs n L t0 te y : lipschitz n L rhs -> defined_on n rhs -> t0 <= te ->
  forall k m, Ck_solution (k + 1) rhs n t0 te y -> In (k, m) (am_table ++ bdf_table) -> solve_dim (E := E) -> (1 <= n)%nat ->
  n = 1%nat \/ solves_regular (E := E) n ->
  exists K h0, 0 < h0 /\ forall h d rho fuelc o tb fuel s0 N, 0 < h <= h0 -> 0 <= d <= 1 -> 0 <= rho ->
    built (E := E) rhs m s0 -> dims n s0 -> hstep s0 = h -> recorded (ms_order m) rhs y t0 d s0 -> leaves_at_most rho te m (solver_of (E := E) m fuelc o rhs PInf) s0 ->
    now s0 + INR N * h <= te -> @gt_ext Rops te tb = false ->
    exists sn, returns (E := E) (solver_of (E := E) m fuelc o rhs tb) fuel (repeat (CStep None None) N) s0 sn /\
      now sn = now s0 + INR N * h /\ near (K * (h ^ k + d + rho / h)) (state sn) (y (now sn)).
Proof.
  intros HL Hd Hte k m HC Hm Sd Hn Sol.
  destruct (C79_lemma (E := E) rhs n L t0 te y HL Hte k m HC Hm Sd) as (K & h1 & Ph1 & H1).
  destruct (C83_run_lemma (E := E) rhs n L t0 te y HL Hd Hte k m HC Hm Sd Hn Sol) as (h2 & Ph2 & H2).
  exists K, (Rmin h1 h2). split; [now apply Rmin_glb_lt|]. intros h d rho fuelc o tb fuel s0 N Hh Hd1 Hrho Hb D0 Hs0 Rec Lv HN Htb.
  pose proof (Rmin_l h1 h2) as Ra. pose proof (Rmin_r h1 h2) as Rb.
  assert (Main : forall j, (j <= N)%nat -> exists sn, returns (E := E) (solver_of (E := E) m fuelc o rhs tb) fuel (repeat (CStep None None) j) s0 sn /\ now sn = now s0 + INR j * h).
  { induction j as [|j IH]; intros Hj.
    - exists s0. split; [constructor|]. exact (now_0 (now s0) h).
    - destruct (IH ltac:(lia)) as (sj & Rj & Tj).
      assert (Hj1 : now sj + h <= te).
      { rewrite Tj. assert (INR (S j) * h <= INR N * h) by (apply Rmult_le_compat_r; [lra|]; now apply le_INR). rewrite S_INR in H.
        match goal with |- ?a <= _ => change (a <= te) end. change (@add Rops) with Rplus. lra. }
      assert (Hst : hstep sj = h). { rewrite <- (returns_session _ _ _ _ _ Rj), <- Hs0. apply (C10_session (E := E)); [exact Hb|]. apply in_app_or in Hm as [Hm|Hm]; cbn in Hm; repeat destruct Hm as [[= _ <-]|Hm]; try contradiction; reflexivity. }
      assert (Hw : ~ would_pass tb sj).
      { unfold would_pass. rewrite Hst. destruct tb as [b|]; [|discriminate]. intros F. apply Rltb_true in F. apply Rltb_false in Htb. exact (Rlt_not_le _ _ F (Rle_trans _ _ _ Hj1 Htb)). }
      destruct (H2 h d fuelc o tb fuel (repeat (CStep None None) j) s0 sj ltac:(lra) Hd1 Hb D0 Hs0 Rec (eq_sym (returns_session _ _ _ _ _ Rj)) Hj1 Hw) as (s' & (f & t & a & St) & Nt).
      exists s'. split.
      + rewrite repeat_snoc. apply (returns_app _ _ _ _ _ sj); [exact Rj|]. unfold exec_call, bind. change (step (solver_of (E := E) m fuelc o rhs tb) fuel None None sj) with (step (solver_of (E := E) m fuelc o rhs tb) f None None sj). rewrite St. reflexivity.
      + rewrite Nt, Tj. exact (now_S (now s0) h j). }
  destruct (Main N (le_n N)) as (sn & Rn & Tn). exists sn. split; [exact Rn|]. split; [exact Tn|].
  apply (H1 h d rho fuelc o tb fuel (repeat (CStep None None) N) s0 sn); auto; try lra. symmetry. exact (returns_session _ _ _ _ _ Rn).
Qed.

Lemma C83_class_lemma {E : @Env Rops} rhs n L m : lipschitz n L rhs -> defined_on n rhs -> In m (am_all ++ map snd bdf_table) -> (1 <= n)%nat ->
  n = 1%nat \/ solves_regular (E := E) n ->
  forall fuelc o tb (s : @st Rops) f0, reachable (E := E) rhs m fuelc o tb s -> dims n s ->
  Rabs (hstep s) * (L * Rabs (new_weight m)) * (3 * INR n + 2) <= 1 -> rhs (now s + hstep s) (state s) = Ret f0 ->
  (forall i, (i < n)%nat -> INR n * Rabs (cmp i (lm_residual (A_of m) (B_of m) (new_weight m) s (state s) f0)) <= 1000000 /\ INR n * Rabs (cmp i (state s)) <= 1000000) ->
  INR n <= 1000000 -> ~ would_pass tb s ->
  exists s', took_step (solver_of (E := E) m fuelc o rhs tb) s s' /\ length (state s') = n /\
    forall u fu, length u = n -> rhs (now s + hstep s) u = Ret fu -> lm_relation (A_of m) (B_of m) (new_weight m) s u fu -> near (1 / 10000000) (state s') u.
Proof.
  intros HL Hd Hm. assert (Hx : exists A B Bn, m = @ImplMS Rops A B Bn /\ length A = length B).
  { apply in_app_or in Hm as [Hm|Hm]; cbn in Hm; repeat destruct Hm as [<-|Hm]; try contradiction; do 3 eexists; split; reflexivity. }
  destruct Hx as (A & B & Bn & -> & LAB). exact (C83_lemma (E := E) rhs n L A B Bn HL Hd LAB).
Qed.

(** a regular 2 by 2 system *)
Lemma cramer_regular : solves_regular (E := cramer_env) 2.
Proof.
  intros cols b Hc Hcs Hb Reg. destruct cols as [|c1 [|c2 [|]]]; try discriminate. destruct b as [|p [|q [|]]]; try discriminate.
  pose proof (Hcs c1 (or_introl eq_refl)) as L1. pose proof (Hcs c2 (or_intror (or_introl eq_refl))) as L2.
  destruct c1 as [|a [|b' [|]]]; try discriminate. destruct c2 as [|c [|d [|]]]; try discriminate.
  assert (Det : a * d - b' * c <> 0).
  { intros F. 
    assert (S1 : c = 0 /\ a = 0).
    { pose proof (Reg [c; - a] eq_refl) as R1. assert (Z : forall i, (i < 2)%nat -> col_sum [[a; b']; [c; d]] [c; - a] i = 0) by (intros [|[|i]] Hi; [| |lia]; unfold col_sum; cbn; lra).
      pose proof (R1 Z 0%nat ltac:(lia)) as r1. pose proof (R1 Z 1%nat ltac:(lia)) as r2. cbn in r1, r2. lra. }
    assert (S2 : d = 0 /\ b' = 0).
    { pose proof (Reg [d; - b'] eq_refl) as R1. assert (Z : forall i, (i < 2)%nat -> col_sum [[a; b']; [c; d]] [d; - b'] i = 0) by (intros [|[|i]] Hi; [| |lia]; unfold col_sum; cbn; lra).
      pose proof (R1 Z 0%nat ltac:(lia)) as r1. pose proof (R1 Z 1%nat ltac:(lia)) as r2. cbn in r1, r2. lra. }
    destruct S1 as (-> & ->). destruct S2 as (-> & ->).
    pose proof (Reg [1; 0] eq_refl) as R1. assert (Z : forall i, (i < 2)%nat -> col_sum [[0; 0]; [0; 0]] [1; 0] i = 0) by (intros [|[|i]] Hi; [| |lia]; unfold col_sum; cbn; lra).
    pose proof (R1 Z 0%nat ltac:(lia)) as r1. cbn in r1. lra. }
  cbn [np_solve cramer_env cramer]. destruct (Reqb (a * d - b' * c) 0) eqn:Er; [apply Reqb_true in Er; contradiction|].
  eexists. split; [reflexivity|]. split; [reflexivity|]. intros [|[|i]] Hi; [| |lia]; unfold col_sum; cbn; field; exact Det.
Qed.
Lemma cramer_dim : solve_dim (E := cramer_env).
Proof.
  intros cols b x H. cbn [np_solve cramer_env] in H. unfold cramer in H.
  destruct cols as [|[|a [|a' [|]]] [|[|c [|d [|]]] [|]]]; try discriminate; destruct b as [|p [|q [|]]]; try discriminate;
    destruct (Reqb _ 0); try discriminate; injection H as <-; reflexivity.
Qed.
Lemma cat_lipschitz_n n : lipschitz n 1 rhs_cat.
Proof.
  split; [lra|]. split.
  - intros t y f H E. injection E as <-. now rewrite map_length.
  - intros t y z u v e Hy Hz (Hl & H) E1 E2. injection E1 as <-. injection E2 as <-. rewrite Rmult_1_l.
    split; [now rewrite !map_length|]. intros i Hi. rewrite map_length in Hi. specialize (H i Hi).
    rewrite !(nth_indep (map _ _) 0 (sqrt (1 + 0 * 0))) by (rewrite map_length; congruence).
    rewrite !(map_nth (fun x : R => sqrt (1 + x * x))). eapply Rle_trans; [apply root_lip|exact H].
Qed.
Lemma cat_defined n : defined_on n rhs_cat.
Proof. intros t y _. eexists. reflexivity. Qed.
Definition sol_cat2 (t : R) : list R := [sinh t; sinh t].
Lemma cat2_solution t0 te k : Ck_solution k rhs_cat 2 t0 te sol_cat2.
Proof.
  destruct (cat_solution t0 te k) as (D & D0 & H). exists (fun j t => [cmp 0 (D j t); cmp 0 (D j t)]). split.
  - intros t. rewrite D0. reflexivity.
  - intros t Ht. destruct (H t Ht) as (H1 & H2 & H3). split; [|split; [reflexivity|]].
    + unfold rhs_cat, sol_cat2 in *. unfold sol_cat in H1. cbn [map] in *. injection H1 as E1. rewrite <- E1. reflexivity.
    + intros i Hi. destruct (H3 0%nat ltac:(lia)) as (Q1 & Q2). destruct i as [|[|i]]; [| |lia]; split; auto.
Qed.
(** the class AdamsMoulton1 at (0, 0) *)
Lemma cat2_start h : 0 < h -> exists s0, built (E := cramer_env) rhs_cat AM1 s0 /\ dims 2 s0 /\ hstep s0 = h /\ now s0 = 0 /\ state s0 = [0; 0] /\
  lm_residual (A_of AM1) (B_of AM1) (new_weight AM1) s0 (state s0) [1; 1] = [- h; - h] /\ recorded 1 rhs_cat sol_cat2 0 0 s0.
Proof.
  intros Hh. assert (Ex : exists s0, init_ms (E := cramer_env) AM1 (garb AM1) rhs_cat 0 [0; 0] (Some h) FSNone 0 = Ret s0).
  { unfold init_ms, init_base. cbn [rhs_cat obind]. destruct (Nat.eqb _ 1); eauto. }
  destruct Ex as (s0 & Hs). exists s0. split; [exact (built_ms (E := cramer_env) rhs_cat AM1 (garb AM1) 0 [0; 0] (Some h) 0 s0 I (garb_ok _) Hs)|].
  unfold init_ms in Hs. cbn in Hs. injection Hs as <-. cbn. split; [split; repeat constructor|]. split; [reflexivity|]. split; [reflexivity|].
  split; [reflexivity|]. split.
  - unfold lm_residual. cbn. unfold Q2R. cbn. repeat apply (f_equal2 (@cons R)); try reflexivity; field.
  - unfold recorded. cbn. split; [right; rring|]. intros j Hj. assert (j = 0)%nat as -> by lia. cbn. split; [rring|]. split; [reflexivity|]. unfold sol_cat2. rewrite sinh_0. apply near_refl. lra.
Qed.
