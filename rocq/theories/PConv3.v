(** C33: Adams-Bashforth classes. *)
From Coq Require Import List ZArith QArith Bool Arith Lia Reals Lra.
From Verif Require Import Base Scalar Vec MBuffer MZeros MSteps MApi MDop853 MClasses Laws Spec SpecInst
  PStep PKeeps PCore PHist PBound PVecR SpecRK PDim PRK PFwd PTerm SpecMS PMS PMS2 PRK2 PRK3 PMS3 SpecOrder SpecConv PConv1 PConv2.
Import ListNotations.
Open Scope R_scope.

Lemma rev_push {A} (a : list A) x j N : length a = S N -> (j < N)%nat ->
  nth_error (rev (skipn 1 a ++ [x])) (S j) = nth_error (rev a) j.
Proof.
  intros H Hj. destruct a as [|a0 a]; [discriminate|]. injection H as H. cbn [skipn]. rewrite rev_app_distr. cbn [rev app nth_error].
  rewrite nth_error_app1 by (rewrite rev_length; lia). reflexivity.
Qed.
Lemma rev_push0 {A} (a : list A) x : nth_error (rev (skipn 1 a ++ [x])) 0 = Some x.
Proof. rewrite rev_app_distr. reflexivity. Qed.
Lemma rev_last {A} (l : list A) x d : nth_error (rev l) 0 = Some x -> last l d = x.
Proof.
  intros H. destruct (rev_case l) as [->|(z & l' & ->)]; [discriminate|]. rewrite rev_app_distr in H. injection H as ->. apply last_last.
Qed.
Lemma nth_error_rep {A} (x : A) k j : (j < k)%nat -> nth_error (repeat x k) j = Some x.
Proof. revert j. induction k as [|k IH]; intros [|j] H; cbn; try lia; auto. apply IH. lia. Qed.
Lemma rev_rep {A} (x : A) k : rev (repeat x k) = repeat x k.
Proof.
  induction k as [|k IH]; cbn; auto. rewrite IH. clear. induction k as [|k IH]; cbn; auto. now rewrite IH.
Qed.
Lemma in_rev_nth {A} (x : A) l : In x l -> exists j, (j < length l)%nat /\ nth_error (rev l) j = Some x.
Proof.
  intros H. apply in_rev in H. apply In_nth_error in H as (j & H). exists j. split; auto.
  rewrite <- rev_length. apply nth_error_Some. congruence.
Qed.
Lemma in_lastn {A} (x : A) k l : In x (lastn k l) -> In x l.
Proof. intros H. unfold lastn in H. rewrite <- (firstn_skipn (length l - k) l). apply in_or_app. auto. Qed.
Lemma lastn_length {A} k (l : list A) : (k <= length l)%nat -> length (lastn k l) = k.
Proof. intros H. unfold lastn. rewrite skipn_length. lia. Qed.

Section AB.
Context {E : @Env Rops}.
Variables (rhs : @rhs_t Rops) (n : nat) (L t0 te M : R) (y dy : R -> list R).
Hypothesis HL : lipschitz n L rhs.
Hypothesis HS : sol_ok n t0 te M y dy.
Hypothesis HD : forall t, t0 <= t <= te -> rhs t (y t) = Ret (dy t).

(** row [j], counted from the newest, of a history reaching to [tn]: close to the
    solution and at most j steps old *)
Definition rnear (e : R) (c : @buffer Rops) (tn h : R) (j : nat) : Prop :=
  exists ti yi fi, nth_error (rev (ts c)) j = Some ti /\ nth_error (rev (ys c)) j = Some yi /\ nth_error (rev (fs c)) j = Some fi /\
    rhs ti yi = Ret fi /\ t0 <= ti <= tn /\ tn - ti <= INR j * h /\ near e yi (y ti).
Definition wnear (N : nat) (e : R) (c : @buffer Rops) (tn h : R) : Prop := forall j, (j < N)%nat -> rnear e c tn h j.

Lemma wnear_push N e e' c tn h x y' f' : buf_len (S N) c -> wnear (S N) e c tn h -> 0 <= x <= h -> t0 <= tn -> e <= e' ->
  rhs (tn + x) y' = Ret f' -> near e' y' (y (tn + x)) -> wnear (S N) e' (push c (tn + x) y' f') (tn + x) h.
Proof.
  intros Bl W Hx Ht He Hf Hn j Hj. pose proof Bl as (B1 & B2 & B3).
  unfold rnear. rewrite push_ts, push_ys, push_fs by (eapply nonnil_len; eauto).
  destruct j as [|j].
  - exists (tn + x), y', f'. rewrite !rev_push0. cbn [INR]. repeat split; auto; try lra; apply Hn.
  - destruct (W j ltac:(lia)) as (ti & yi & fi & A1 & A2 & A3 & A4 & A5 & A6 & A7).
    exists ti, yi, fi. rewrite (rev_push _ _ _ N), (rev_push _ _ _ N), (rev_push _ _ _ N) by (auto; lia).
    rewrite S_INR. repeat split; auto; try lra; try apply A7. eapply near_mono; [exact He|exact A7].
Qed.
Lemma wnear_mono N e e' c tn h : e <= e' -> wnear N e c tn h -> wnear N e' c tn h.
Proof.
  intros He W j Hj. destruct (W j Hj) as (ti & yi & fi & A1 & A2 & A3 & A4 & A5 & A6 & A7). exists ti, yi, fi.
  repeat split; auto; try lra; try apply A7. eapply near_mono; [exact He|exact A7].
Qed.
Lemma wnear_last N e (x : @st Rops) tn h : wnear (S N) e (cache x) tn h -> now x = tn -> near e (state x) (y tn).
Proof.
  intros W Hn. destruct (W 0%nat ltac:(lia)) as (ti & yi & fi & A1 & A2 & _ & _ & A5 & A6 & A7).
  apply (rev_last _ _ (@zero Rops)) in A1. apply (rev_last _ _ []) in A2. unfold state, now, buf_t, buf_y in *.
  refine (eq_ind_r (fun z => near e z (y tn)) _ A2). rewrite <- Hn. refine (eq_ind_r (fun z => near e yi (y z)) _ A1). exact A7.
Qed.
Lemma wnear_dims N e (x : @st Rops) tn h : buf_len N (cache x) -> tn <= te -> wnear N e (cache x) tn h -> dims n x.
Proof.
  intros (B1 & B2 & B3) Ht W.
  assert (K : forall j, (j < N)%nat -> exists yi fi, nth_error (rev (ys (cache x))) j = Some yi /\ nth_error (rev (fs (cache x))) j = Some fi /\
    length yi = n /\ length fi = n).
  { intros j Hj. destruct (W j Hj) as (ti & yi & fi & A1 & A2 & A3 & A4 & A5 & A6 & A7).
    assert (length yi = n). { destruct A7 as (A7 & _). refine (eq_trans A7 _). destruct HS as (_ & Hl & _). apply (Hl ti). lra. }
    exists yi, fi. repeat split; auto. exact (proj1 (proj2 HL) ti yi fi H A4). }
  split; apply Forall_forall; intros z Hz; apply in_rev_nth in Hz as (j & Hj & Hz).
  - apply (fun q => Nat.lt_le_trans _ _ _ q (Nat.eq_le_incl _ _ B2)) in Hj. destruct (K j Hj) as (yi & fi & K1 & K2 & K3 & K4). pose proof (eq_trans (eq_sym K1) Hz) as Eq. injection Eq as <-. exact K3.
  - apply (fun q => Nat.lt_le_trans _ _ _ q (Nat.eq_le_incl _ _ B3)) in Hj. destruct (K j Hj) as (yi & fi & K1 & K2 & K3 & K4). pose proof (eq_trans (eq_sym K2) Hz) as Eq. injection Eq as <-. exact K4.
Qed.

(** the derivatives of the window against y'(tn) *)
Lemma wnear_fs N e c tn h : 0 <= h -> tn <= te -> buf_len N c -> wnear N e c tn h ->
  Forall (fun f => near (L * e + M * (INR N * h)) f (dy tn)) (fs c).
Proof.
  intros Hh Ht (B1 & B2 & B3) W. apply Forall_forall. intros f Hf. apply in_rev_nth in Hf as (j & Hj & Hf). apply (fun q => Nat.lt_le_trans _ _ _ q (Nat.eq_le_incl _ _ B3)) in Hj.
  destruct (W j Hj) as (ti & yi & fi & A1 & A2 & A3 & A4 & A5 & A6 & A7). pose proof (eq_trans (eq_sym A3) Hf) as Eq. injection Eq as ->.
  assert (near (L * e) f (dy ti)) by (apply (rhs_near rhs n L t0 te M y dy HL HS HD ti yi); auto; lra).
  eapply near_trans; [exact H|]. destruct HS as (HM & Hl & Hd & _). destruct (Hl ti ltac:(lra)) as (_ & E1). destruct (Hl tn ltac:(lra)) as (_ & E2).
  split; [congruence|]. intros i Hi. rewrite E1 in Hi. rewrite Rabs_minus_sym. eapply Rle_trans; [apply (Hd ti tn i); auto; lra|].
  apply Rmult_le_compat_l; auto. eapply Rle_trans; [exact A6|]. apply Rmult_le_compat_r; auto. apply le_INR. lia.
Qed.

Lemma ab_formula k m bs fuelc o (s s' : @st Rops) : In (k, m, bs) ab_table ->
  good rhs m s -> dims n s -> core_of (E := E) m fuelc o rhs s = (Ret tt, s') ->
  now s' = now s + hstep s /\ length (state s') = n /\
  (forall i, (i < n)%nat -> cmp i (state s') =
    cmp i (state s) + hstep s * dot bs (map (fun f => cmp i f) (lastn k (fs (cache s))))) /\
  cache s' = push (cache s) (now s') (state s') (deriv s').
Proof.
  intros H (W & _) D Hc.
  destruct (ab_table_spec _ _ _ H) as (A & -> & LA & LB & Hk & EA).
  pose proof (wf_state_dim _ _ _ W D) as Hn. destruct (wf_pos _ _ W) as (j & Bl & Lh). cbn in Lh. unfold ms_len in Lh.
  assert (St : took_step (solver_of (E := E) (@ExplMS Rops A bs) fuelc o rhs PInf) s s').
  { exists 0%nat. eexists. eexists. rewrite step_none by reflexivity. cbn [s_core solver_of]. rewrite Hc. reflexivity. }
  destruct (expl_step A bs fuelc o rhs PInf s s' n (proj1 W) (eq_trans LA (eq_sym LB)) D Hn St) as (Ht & Hl & Rel & Er & Pu).
  rewrite Ht. split; [reflexivity|]. split; [exact Hl|]. split; [|rewrite <- Ht; exact (f_equal cache Pu)]. intros i Hi. specialize (Rel i). rewrite Hn in Rel. specialize (Rel Hi).
  rewrite LA, LB in Rel. rewrite (adams_y A k s j i EA Hk) in Rel; [|change (@length (@T Rops) A) with (@length R A) in Lh; lia|exact Bl].
  rewrite Rmult_0_l, Rplus_0_r in Rel. 
  apply (Rplus_eq_reg_r (- cmp i (state s))). refine (eq_trans Rel _). rring.
Qed.

Lemma ab_sum1 k m bs : In (k, m, bs) ab_table -> sumR bs = 1.
Proof.
  intros H. cbn [ab_table In] in H. destruct H as [H|[H|[H|[H|[H|[]]]]]]; injection H as <- <- <-; cbn; lra.
Qed.

Definition ab_inv (m : @meth Rops) (La E0 D h : R) (x : @st Rops) : Prop :=
  good rhs m x /\ hstep x = h /\ t0 <= now x /\
  (now x <= te -> wnear (len_history m) (acc La E0 D h (now x - t0)) (cache x) (now x) h).

Definition ab_La (bs : list R) : R := sumA bs * L.
Definition ab_D (m : @meth Rops) (bs : list R) : R := sumA bs * (M * INR (len_history m)) + M.
Lemma ab_La_pos bs : 0 <= ab_La bs.
Proof. unfold ab_La. apply Rmult_le_pos; [apply sumA_pos|apply HL]. Qed.
Lemma ab_D_pos m bs : 0 <= ab_D m bs.
Proof.
  unfold ab_D. assert (0 <= M) by apply HS. apply Rplus_le_le_0_compat; auto. repeat apply Rmult_le_pos; auto; [apply sumA_pos|apply pos_INR].
Qed.

Lemma ab_inv_core k m bs E0 h fuelc o x x' : In (k, m, bs) ab_table -> 0 <= E0 -> 0 < h <= 1 ->
  ab_inv m (ab_La bs) E0 (ab_D m bs) h x -> core_of (E := E) m fuelc o rhs x = (Ret tt, x') ->
  ab_inv m (ab_La bs) E0 (ab_D m bs) h x'.
Proof.
  intros Hm HE Hh (G & Hx & Ht & Hn) Hc. pose proof (ab_La_pos bs) as PL. pose proof (ab_D_pos m bs) as PD.
  pose proof (good_core (OT := Rops) (E := E) rhs m fuelc o x G) as G'. rewrite Hc in G'. cbn [snd] in G'.
  pose proof (good_last _ _ _ G') as Hf'. pose proof Hc as Hk. apply core_of_ok in Hk; [|apply wf_stages; apply G].
  destruct (ab_table_spec _ _ _ Hm) as (A & Em & LA & LB & Hk0 & _).
  assert (Fx : is_fixed m = true) by now rewrite Em.
  destruct Hk as (_ & _ & E1 & t' & y' & f' & (P1 & P2) & P3). specialize (E1 Fx). specialize (P3 Fx).
  pose proof G as ((Wb & _) & _). destruct (len_history_pos m) as (N & HN). rewrite HN in *.
  assert (En : now x' = now x + h). { unfold now at 1. rewrite P1, (push_t (S N)) by exact Wb. rewrite P3, Hx. reflexivity. }
  split; [exact G'|]. split; [now rewrite E1|]. split; [rewrite En; lra|]. intros Hte. rewrite HN.
  assert (Hte0 : now x <= te) by (rewrite En in Hte; lra). specialize (Hn Hte0).
  set (e := acc (ab_La bs) E0 (ab_D m bs) h (now x - t0)) in *.
  assert (He : 0 <= e) by (apply acc_pos; lra).
  assert (Dm : dims n x) by (eapply wnear_dims; eauto).
  destruct (ab_formula k m bs fuelc o x x' Hm G Dm Hc) as (_ & F2 & F3 & F4). rewrite Hx in F3.
  pose proof (wnear_last _ _ _ _ _ Hn eq_refl) as Hu.
  pose proof (wnear_fs _ _ _ _ _ (Rlt_le _ _ (proj1 Hh)) Hte0 Wb Hn) as Hfs.
  assert (Es : e + h * (sumA bs * (L * e + M * (INR (S (S N)) * h))) + M * (h * h) <= acc (ab_La bs) E0 (ab_D m bs) h (now x' - t0)).
  { replace (now x' - t0) with (now x - t0 + h) by (rewrite En; lra). eapply Rle_trans; [|apply acc_step; lra]. fold e.
    replace (ab_D m bs) with (sumA bs * (M * INR (S (S N))) + M) by (unfold ab_D; now rewrite HN). unfold ab_La. lra. }
  assert (Ny : near (acc (ab_La bs) E0 (ab_D m bs) h (now x' - t0)) (state x') (y (now x'))).
  { eapply near_mono; [exact Es|]. rewrite En.
    assert (Lk : (k <= length (fs (cache x)))%nat).
    { destruct Wb as (_ & _ & W3). rewrite W3, <- HN, Em. cbn. unfold ms_len. rewrite <- LA. change (@length (@T Rops) A) with (@length R A). lia. }
    apply (comb_near n t0 te M y dy HS (now x) (state x) e bs (lastn k (fs (cache x))) _ h h); auto; try lra.
    - rewrite lastn_length; auto.
    - apply Forall_forall. intros f Hf. rewrite Forall_forall in Hfs. apply Hfs. now apply in_lastn in Hf.
    - rewrite (ab_sum1 _ _ _ Hm). lra. }
  rewrite F4. rewrite En in *. apply (wnear_push (S N) e); auto; try lra.
  eapply Rle_trans; [|exact Es]. assert (0 <= M) by apply HS. assert (0 <= L) by apply HL. pose proof (sumA_pos bs). pose proof (pos_INR (S (S N))).
  assert (0 <= L * e) by (apply Rmult_le_pos; auto). assert (0 <= M * (INR (S (S N)) * h)) by (repeat apply Rmult_le_pos; auto; lra).
  assert (0 <= h * (sumA bs * (L * e + M * (INR (S (S N)) * h)))) by (repeat apply Rmult_le_pos; try lra).
  assert (0 <= M * (h * h)) by (repeat apply Rmult_le_pos; lra). lra.
Qed.

Lemma ab_inv_session m La E0 D h fuelc o tb fuel cs s : 0 < h ->
  (forall x x', ab_inv m La E0 D h x -> core_of (E := E) m fuelc o rhs x = (Ret tt, x') -> ab_inv m La E0 D h x') -> is_fixed m = true ->
  ab_inv m La E0 D h s -> ab_inv m La E0 D h (session (E := E) (solver_of (E := E) m fuelc o rhs tb) fuel cs s).
Proof.
  intros Hh Hc Hf. apply session_inv.
  - intros b x _ _ Hx. cbn [s_core solver_of]. destruct (core_of m fuelc o rhs x) as [r x'] eqn:e. cbn [snd].
    destruct r as [[]| |]; [eapply Hc; eauto| |].
    all: pose proof e as e'; apply core_of_ok in e'; [|apply wf_stages; apply Hx].
    all: destruct e' as (_ & _ & E1 & E2); specialize (E1 Hf).
    all: destruct Hx as (G & G1 & G2 & G3); pose proof (good_core rhs m fuelc o x G) as G'; rewrite e in G'.
    all: split; [exact G'|]; unfold now, state in *; rewrite E1, E2; auto.
  - intros t x Hx. pose proof (good_interp rhs m t x (proj1 Hx)) as G'. cbn [s_interp solver_of] in *.
    destruct (interp_of m rhs t x) as [r x'] eqn:e. apply interp_of_ok in e as (E2 & E1 & _).
    destruct Hx as (G & G1 & G2 & G3). cbn [snd] in *. split; [exact G'|]; unfold now, state in *; rewrite E1, E2; auto.
Qed.

(** ** start-up *)
Lemma wnear_init (m : @meth Rops) t y0 f h e : 0 <= e -> 0 <= h -> t0 <= t -> rhs t y0 = Ret f -> near e y0 (y t) ->
  wnear (len_history m) e (@mkbuf Rops (repeat t (len_history m)) (repeat y0 (len_history m)) (repeat f (len_history m))) t h.
Proof.
  intros He Hh Ht Hf Hn j Hj. exists t, y0, f. cbn [ts ys fs]. rewrite !rev_rep, !nth_error_rep by auto.
  repeat split; auto; try lra; try apply Hn. rewrite Rminus_diag_eq by auto. apply Rmult_le_pos; auto. apply pos_INR.
Qed.

Lemma wnear_top N e c tn h : wnear (S N) e c tn h -> near e (buf_y c) (y (buf_t c)) /\ rhs (buf_t c) (buf_y c) = Ret (buf_f c).
Proof.
  intros W. destruct (W 0%nat ltac:(lia)) as (ti & yi & fi & A1 & A2 & A3 & A4 & A5 & A6 & A7).
  apply (rev_last _ _ (@zero Rops)) in A1. apply (rev_last _ _ []) in A2. apply (rev_last _ _ []) in A3.
  assert (B1 : buf_t c = ti) by exact A1. assert (B2 : buf_y c = yi) by exact A2. assert (B3 : buf_f c = fi) by exact A3.
  rewrite B1, B2, B3. auto.
Qed.
Lemma iterate_near N e tn h k : 0 <= h -> t0 <= tn -> forall c, buf_len (S N) c -> wnear (S N) e c tn h -> buf_t c = tn ->
  wnear (S N) e (iterate k (fun c => push c (buf_t c) (buf_y c) (buf_f c)) c) tn h /\
  buf_t (iterate k (fun c => push c (buf_t c) (buf_y c) (buf_f c)) c) = tn.
Proof.
  intros Hh Ht. induction k as [|k IH]; intros c Bl W Hc; cbn [iterate]; auto.
  destruct (wnear_top N e c tn h W) as (A7 & A4). rewrite Hc in A4, A7.
  apply IH.
  - now apply push_len.
  - rewrite Hc. assert (K := wnear_push N e e c tn h 0 (buf_y c) (buf_f c) Bl W ltac:(lra) Ht (Rle_refl e)). rewrite Rplus_0_r in K. auto.
  - rewrite (push_t N) by exact Bl. exact Hc.
Qed.
End AB.
