(** C33: Adams-Bashforth classes with the default variable step first stepper. *)
From Coq Require Import List ZArith QArith Bool Arith Lia Reals Lra Classical.
From Verif Require Import Base Scalar Vec MBuffer MZeros MSteps MApi MDop853 MClasses Laws Spec SpecInst
  PStep PKeeps PCore PHist PRun PInterp PBound PVecR SpecRK SpecDense SpecCtl PDim PRK PDense PCtl PC1 PFwd PTerm SpecMS PMS PMS2 PRK2 PRK3 PMS3
  PMS6 SpecOrder SpecConv SpecConv2 PConv1 PConv2 PConv3 PConv4 PConv5 PConv6 PConv7.
Import ListNotations.
Open Scope R_scope.

(** a function differentiable at [a] is bounded by a line nearby *)
Lemma lip_at (f : R -> R) a d : derivable_pt_lim f a d -> exists r, 0 < r /\ forall t, Rabs (t - a) < r -> Rabs (f t - f a) <= (Rabs d + 1) * Rabs (t - a).
Proof.
  intros H. destruct (H 1 Rlt_0_1) as (r & Hr). exists r. split; [apply r|]. intros t Ht.
  destruct (Req_dec t a) as [->|Hne]; [rewrite !Rminus_diag_eq by auto; rewrite Rabs_R0; lra|].
  specialize (Hr (t - a) ltac:(lra) Ht). replace (a + (t - a)) with t in Hr by ring.
  replace (f t - f a) with ((f t - f a) / (t - a) * (t - a)) by (field; lra). rewrite Rabs_mult.
  apply Rmult_le_compat_r; [apply Rabs_pos|].
  replace ((f t - f a) / (t - a)) with (((f t - f a) / (t - a) - d) + d) by ring.
  eapply Rle_trans; [apply Rabs_triang|]. lra.
Qed.
(** the same for finitely many components *)
Lemma lip_all (f : nat -> R -> R) a n : (forall i, (i < n)%nat -> exists d, derivable_pt_lim (f i) a d) ->
  exists r F, 0 < r /\ 0 <= F /\ forall i t, (i < n)%nat -> Rabs (t - a) < r -> Rabs (f i t - f i a) <= F * Rabs (t - a).
Proof.
  induction n as [|n IH]; intros H.
  - exists 1, 0. split; [lra|]. split; [lra|]. intros; lia.
  - destruct IH as (r & F & Hr & HF & HB); [intros i Hi; apply H; lia|].
    destruct (H n ltac:(lia)) as (d & Hd). destruct (lip_at _ _ _ Hd) as (r' & Hr' & HB').
    exists (Rmin r r'), (Rmax F (Rabs d + 1)). split; [now apply Rmin_glb_lt|]. split; [eapply Rle_trans; [exact HF|apply Rmax_l]|].
    intros i t Hi Ht. destruct (Nat.eq_dec i n) as [->|Hne].
    + eapply Rle_trans; [apply HB'; eapply Rlt_le_trans; [exact Ht|apply Rmin_r]|].
      apply Rmult_le_compat_r; [apply Rabs_pos|apply Rmax_r].
    + eapply Rle_trans; [apply HB; [lia|eapply Rlt_le_trans; [exact Ht|apply Rmin_l]]|].
      apply Rmult_le_compat_r; [apply Rabs_pos|apply Rmax_l].
Qed.

Section Att.
Variables (rhs : @rhs_t Rops) (A : list (list R)) (B C : list R) (Ew : list R) (o : @options Rops) (order : Z) (t : R) (y f : list R).
Notation att := (attempts rhs A B C (fsal_error o Ew) o order t y f).
Lemma rk_step_det h K y1 K' y1' : @rk_step Rops rhs A B C t y f h K y1 -> @rk_step Rops rhs A B C t y f h K' y1' -> K = K' /\ y1 = y1'.
Proof.
  intros (S1 & ->) (S2 & ->). assert (K = K') by (eapply PRK.stages_det; eauto). subst. auto.
Qed.
Lemma attempts_det h l y1 f1 h1 : att h l y1 f1 h1 -> forall l' y1' f1' h1', att h l' y1' f1' h1' -> l = l' /\ y1 = y1' /\ f1 = f1'.
Proof.
  induction 1 as [h K y1 f1 e S Hf He Ha|h K ya fa e l y1 f1 h1 S Hf He Ha _ IH]; intros l' y1' f1' h1' H;
    inversion H as [hh K' yy ff e' S' Hf' He' Ha'|hh K' yb fb e' l2 yy ff hh1 S' Hf' He' Ha' R']; subst;
    destruct (rk_step_det _ _ _ _ _ S S') as (<- & <-); pose proof (eq_trans (eq_sym Hf) Hf') as Eq; injection Eq as <-;
    assert (e = e') by (exact (eq_trans He (eq_sym He'))); subst e'; try contradiction; auto.
  destruct (IH _ _ _ _ R') as (-> & -> & ->). auto.
Qed.
Lemma attempts_pos h l y1 f1 h1 : 0 < min_factor o -> 0 < max_factor o -> att h l y1 f1 h1 -> 0 < h -> 0 < last_h l.
Proof.
  intros Hmin Hmax. induction 1 as [h K y1 f1 e S Hf He Ha|h K ya fa e l y1 f1 h1 S Hf He Ha H IH]; intros Hh; [exact Hh|].
  assert (Hfa : 0 < factor o order e).
  { unfold factor. destruct (Req_EM_T e 0); auto. apply Rmin_glb_lt; auto. eapply Rlt_le_trans; [exact Hmin|apply Rmax_l]. }
  specialize (IH ltac:(now apply Rmult_lt_0_compat)). unfold last_h in *. destruct l as [|q l]; [inversion H|]. exact IH.
Qed.
Lemma attempts_last h l y1 f1 h1 : att h l y1 f1 h1 -> exists K, @rk_step Rops rhs A B C t y f (last_h l) K y1 /\ rhs (t + last_h l) y1 = Ret f1.
Proof.
  induction 1 as [h K y1 f1 e S Hf He Ha|h K ya fa e l y1 f1 h1 S Hf He Ha H IH].
  - exists K. auto.
  - destruct IH as (K' & K1 & K2). exists K'. unfold last_h in *. destruct l as [|q l]; [inversion H|]. auto.
Qed.
End Att.

Section Fresh.
Context {E : @Env Rops}.
Variables (A : list (list R)) (B C Ew : list R) (order : Z) (P : list (list R)).
Variables (fuelc : nat) (o : @options Rops) (rhs : @rhs_t Rops) (n : nat).
Let m : @meth Rops := @Fsal Rops A B C Ew order P.
Let sv := solver_of (E := E) m fuelc o rhs PInf.
Hypothesis Hsh : length C = length A /\ A <> [].
Hypothesis Hk : keeps_dim n rhs.
Hypothesis Ho : sane o.
Variables (t0 H : R) (y0 f0 y1 f1 : list R) (K : list (list R)).
Hypothesis HH : 0 < H.
Hypothesis HK : @rk_step Rops rhs A B C t0 y0 f0 H K y1.
Notation g := (rk_dense P t0 y0 H (K ++ [f1])).
(** one step of size H from (t0, y0) *)
Definition first_done (x : @st Rops) : Prop :=
  tidy A B C Ew order P rhs n x /\ prev_t x = t0 /\ prev_y x = y0 /\ prev_f x = f0 /\ now x = t0 + H /\ state x = y1 /\ deriv x = f1.

Lemma first_interp x t a x' : first_done x -> t0 < t < t0 + H -> s_interp sv t x = (Ret a, x') ->
  first_done x' /\ deref (cache x') a = g t.
Proof.
  intros (Tx & X1 & X2 & X3 & X4 & X5 & X6) Ht Hi.
  assert (Hc : cache x' = cache x).
  { change (interp_of (E := E) m rhs t x = (Ret a, x')) in Hi. apply interp_of_ok in Hi as (Q & _). exact Q. }
  destruct (tidy_dense A B C Ew order P fuelc o rhs PInf n Hsh Hk x t Tx) as (h & K' & x2 & (L1 & L2) & L3); [rewrite X1, X4; exact Ht|].
  rewrite X1, X4 in L2. assert (h = H) by (change (@add Rops t0 h) with (t0 + h) in L2; lra). subst h.
  rewrite X1, X2, X3, X5 in L1. destruct (rk_step_det _ _ _ _ _ _ _ _ _ _ _ _ HK L1) as (-> & _).
  rewrite X1, X2, X6 in L3.
  assert (E3 : interpolate sv t x = s_interp sv t x).
  { unfold interpolate. fold (now x). rewrite <- (prev_is_first A B C Ew order P x) by apply Tx. rewrite X1, X4.
    replace (@leb Rops t0 t && @leb Rops t (t0 + H))%bool with true; [reflexivity|].
    symmetry. apply andb_true_intro. split; apply Rleb_true; lra. }
  assert (E4 := eq_trans (eq_sym Hi) (eq_trans (eq_sym E3) L3)). injection E4 as -> _.
  split; [|reflexivity]. split.
  - pose proof (tidy_interp (E := E) A B C Ew order P rhs n t x Tx) as Tx'. change (s_interp sv t x) with (interp_rk (E := E) P t x) in Hi. rewrite Hi in Tx'. exact Tx'.
  - unfold prev_t, prev_y, prev_f, now, state, deriv in *. rewrite Hc. auto 10.
Qed.
Lemma first_rows x ts vs x' : first_done x -> Forall (fun t => t0 < t < t0 + H) ts -> sampled sv x ts vs x' -> vs = map g ts.
Proof.
  intros Fx F S. revert Fx F. induction S as [x|x ti l x1 a x2 ts vs x3 U Hn Hi S IH]; intros Fx F; [reflexivity|].
  assert (Ti : t0 < ti < t0 + H) by now inversion F. assert (F' : Forall (fun t => t0 < t < t0 + H) ts) by now inversion F.
  assert (l = [] /\ x1 = x) as (-> & ->).
  { destruct U as (Ch & Fl). inversion Ch; subst; auto. exfalso. cbn [removelast] in Fl.
    inversion Fl as [|? ? Q _]; subst. change (Rltb (now x) ti = true) in Q. apply Rltb_true in Q. destruct Fx as (_ & _ & _ & _ & Nx & _). rewrite Nx in Q. lra. }
  destruct (first_interp x ti a x2 Fx Ti Hi) as (F2 & ->). cbn [map]. f_equal. auto.
Qed.
End Fresh.

Section Fresh2.
Context {E : @Env Rops}.
Variables (A : list (list R)) (B C Ew : list R) (order : Z) (P : list (list R)).
Variables (o : @options Rops) (rhs : @rhs_t Rops) (n : nat).
Let m : @meth Rops := @Fsal Rops A B C Ew order P.
Hypothesis Hsh : length C = length A /\ A <> [].
Hypothesis Hk : keeps_dim n rhs.
Hypothesis Ho : sane o.
Hypothesis Hor : (0 <= order)%Z.
Notation att := (attempts rhs A B C (fsal_error o Ew) o order).

(** the first rows of a run from a fresh stepper lie on the dense output of its first step *)
Lemma fresh_rows fuelc s1 ti ts vs s3 : tidy A B C Ew order P rhs n s1 ->
  sampled (solver_of (E := E) m fuelc o rhs PInf) s1 (ti :: ts) vs s3 -> now s1 < ti ->
  exists l y1 f1 h1, att (now s1) (state s1) (deriv s1) (hstep s1) l y1 f1 h1 /\
    forall K, @rk_step Rops rhs A B C (now s1) (state s1) (deriv s1) (last_h l) K y1 -> 0 < last_h l ->
      Forall (fun t => now s1 < t < now s1 + last_h l) (ti :: ts) ->
      vs = map (rk_dense P (now s1) (state s1) (last_h l) (K ++ [f1])) (ti :: ts).
Proof.
  intros Ts S Hlt. inversion S as [|? ? l x1 a x2 ? vs' ? U Hn Hi S']; subst. destruct U as (Ch & Fl).
  inversion Ch as [|? s2 l' ? Cm Ch']; subst.
  { exfalso. assert (Rltb (now x1) ti = true) by now apply Rltb_true. change (Rltb (now x1) ti = false) in Hn. congruence. }
  destruct Cm as (_ & Cm). cbn [s_core solver_of] in Cm.
  pose proof (tidy_core A B C Ew order P fuelc o rhs n Hsh Hk Ho s1 s2 (proj1 Ts) Cm) as T2.
  pose proof Ts as (((Wb & Wn) & D & _) & _). cbn [n_stages_of] in Wn. cbn [len_history] in Wb.
  destruct (prev_dims A B C Ew order P n Hsh s1 (conj Wb Wn) D) as (_ & _ & D1 & D2).
  cbn [core_of m] in Cm.
  destruct (core_attempts A B C (@norm_fsal Rops Ew) o order rhs (fsal_error o Ew) n (computes_fsal Ew o) Hor (proj1 Hsh) (proj2 Hsh) Hk fuelc s1 s2
     ltac:(rewrite Wn; apply Nat.add_1_r) D1 D2 Cm) as (l & y1 & f1 & Ha & _ & Hc).
  exists l, y1, f1, (hstep s2). split; [exact Ha|]. intros K HK HH F.
  refine (first_rows A B C Ew order P fuelc o rhs n Hsh Hk (now s1) (last_h l) (state s1) (deriv s1) y1 f1 K HK s2 (ti :: ts) _ s3 _ F _).
  - split; [exact T2|]. unfold prev_t, prev_y, prev_f, now, state, deriv. rewrite Hc.
    rewrite (push_tp 0 _ _ _ _ Wb), (push_yp 0 _ _ _ _ Wb), (push_fp 0 _ _ _ _ Wb), (push_t 1 _ _ _ _ Wb), (push_y 1 _ _ _ _ Wb), (push_f 1 _ _ _ _ Wb). auto 10.
  - refine (smp_cons _ s2 ti l' x1 a x2 ts vs' s3 _ Hn Hi S'). split; [exact Ch'|]. inversion Fl; assumption.
Qed.
End Fresh2.

Lemma push_rows_near (rhs : @rhs_t Rops) t0 te y N E h (Hh : 0 < h) : forall (rows : list (R * list R)) (c c' : @buffer Rops),
  buf_len (S N) c -> t0 <= @buf_t Rops c -> (@buf_t Rops c <= te -> wnear rhs t0 y (S N) E c (buf_t c) h) ->
  (forall j r, nth_error rows j = Some r -> fst r = @buf_t Rops c + INR (S j) * h /\ (fst r <= te -> near E (snd r) (y (fst r)))) ->
  @fs_push_all Rops rhs rows c = Ret c' ->
  t0 <= @buf_t Rops c' /\ (@buf_t Rops c' <= te -> wnear rhs t0 y (S N) E c' (buf_t c') h).
Proof.
  induction rows as [|(t, v) rows IH]; intros c c' Bl T0 W F H; cbn [fs_push_all] in H.
  - injection H as <-. auto.
  - destruct (rhs t v) as [f| |] eqn:ef; try discriminate. cbn [obind] in H.
    destruct (F 0%nat (t, v) eq_refl) as (Ft & Fn). cbn [fst snd INR] in Ft, Fn. rewrite Rmult_1_l in Ft.
    assert (Ep : buf_t (push c t v f) = t) by exact (push_t N _ _ _ _ Bl).
    apply IH in H; auto.
    + now apply push_len.
    + rewrite Ep. lra.
    + rewrite Ep. intros Hte. subst t. apply (wnear_push rhs t0 y N E); auto; try lra. apply W. lra.
    + intros j r Hj. rewrite Ep. destruct (F (S j) r Hj) as (F1 & F2). split; [|exact F2]. rewrite F1, Ft, (S_INR (S j)). ring.
Qed.

Lemma init_var_fresh (m : @meth Rops) g rhs t0 y0 o sel first s : garbage_ok m g -> is_fixed m = false -> init_var m g rhs t0 y0 o sel first = Ret s ->
  now s = t0 /\ state s = y0 /\ rhs t0 y0 = Ret (deriv s) /\ buf_t0 (cache s) = t0.
Proof.
  intros Hg Hf H. unfold init_var in H. destruct (init_base m g rhs t0 y0 None) as [s0| |] eqn:e; try discriminate. cbn [obind] in H.
  apply init_base_spec in e as (_ & f & Hr & Hc & _); auto.
  destruct (match max_step o with Fin x => _ | PInf => _ end); [discriminate|]. destruct (ltb _ _); [discriminate|].
  match type of H with (let! h := ?x in _) = _ => destruct x as [h| |] end; cbn [obind] in H; try discriminate.
  assert (cache s = cache s0) as Ec.
  { destruct m; cbn [is_fixed] in Hf; try discriminate; injection H as H || idtac.
    - subst s. reflexivity.
    - match type of H with (match ?d with _ => _ end) = _ => destruct d as [r s'] eqn:ed end.
      destruct r; try discriminate. injection H as <-. unfold dop_update, bind, lift in ed.
      destruct (dop_extra _ _ _ _ _ _ _); inversion ed; reflexivity. }
  destruct (len_history_pos m) as (j & Hj). unfold now, state, deriv, buf_t, buf_y, buf_f. rewrite Ec, Hc, Hj. cbn [MBuffer.ts MBuffer.ys MBuffer.fs].
  rewrite !last_repeat by lia. repeat (split; auto).
Qed.

Lemma ofnat_R k : @ofnat Rops k = INR k.
Proof.
  unfold ofnat, ofZ. rewrite lit_R. cbn [QArith_base.Qnum QArith_base.Qden inject_Z]. rewrite <- INR_IZR_INZ. unfold Rdiv. rewrite Rinv_1. apply Rmult_1_r.
Qed.
Lemma ab_inv_mono rhs t0 te y m La E0 E1 D h s : 0 <= La -> 0 <= D -> 0 < h -> 0 <= E0 <= E1 -> ab_inv rhs t0 te y m La E0 D h s -> ab_inv rhs t0 te y m La E1 D h s.
Proof.
  intros H1 H2 H3 H4 (G & A & B & C). split; [exact G|]. split; [exact A|]. split; [exact B|]. intros Ht.
  eapply wnear_mono; [|apply C; exact Ht]. apply acc_mono; lra.
Qed.
Lemma times_sorted h : 0 < h -> forall k j, is_sorted (map (fun i => @mul Rops (@ofnat Rops i) h) (seq j k)) = true.
Proof.
  intros Hh. induction k as [|[|k] IH]; intros j; auto.
  cbn [seq map]. specialize (IH (S j)). cbn [seq map] in IH.
  match goal with |- is_sorted (?a :: ?b :: ?l) = true => change (@leb Rops a b && is_sorted (b :: l) = true) end.
  apply andb_true_intro. split; [|exact IH]. apply Rleb_true. rewrite !ofnat_R, S_INR.
  change (INR j * h <= (INR j + 1) * h). nra.
Qed.

Section VarStart.
Context {E : @Env Rops}.
Variables (A : list (list R)) (B C Ew : list R) (order : Z) (P : list (list R)) (o : @options Rops).
Let m1 : @meth Rops := @Fsal Rops A B C Ew order P.
Hypothesis Hsh : length C = length A /\ A <> [].
Hypothesis Ho : sane o.
Hypothesis Hmin : 0 < min_factor o.
Hypothesis Hmax : 0 < max_factor o.
Hypothesis Hor : (0 <= order)%Z.
Hypothesis HP : P_ok P B (length A + 1).
Variables (rhs : @rhs_t Rops) (n : nat) (L te M : R) (y dy : R -> list R).
Hypothesis HL : lipschitz n L rhs.
Hypothesis HS : sol_ok n 0 te M y dy.
Hypothesis HD : forall t, 0 <= t <= te -> rhs t (y t) = Ret (dy t).
Notation att := (attempts rhs A B C (fsal_error o Ew) o order).

(** the rows of the start-up run *)
Lemma start_rows H0 g1 sel s1 fuel1 fuel h k rows s2 : 0 <= te -> 0 < H0 -> garbage_ok m1 g1 -> init_var m1 g1 rhs 0 (y 0) o sel None = Ret s1 -> hstep s1 = H0 ->
  0 < h -> (0 < k)%nat ->
  run (E := E) (solver_of (E := E) m1 fuel1 o rhs PInf) fuel (map (fun i => @mul Rops (@ofnat Rops i) h) (seq 1 k)) s1 = (Ret rows, s2) ->
  exists f0 l y1 f1 h1, rhs 0 (y 0) = Ret f0 /\ att 0 (y 0) f0 H0 l y1 f1 h1 /\
    forall K, @rk_step Rops rhs A B C 0 (y 0) f0 (last_h l) K y1 -> 0 < last_h l -> INR k * h < last_h l ->
    forall j r, nth_error rows j = Some r -> fst r = INR (S j) * h /\ (j < k)%nat /\ snd r = rk_dense P 0 (y 0) (last_h l) (K ++ [f1]) (fst r).
Proof.
  intros Hte HH0 Hg Hi Hs1 Hh Hk Hr. destruct HL as (_ & Hd & _).
  destruct (init_var_fresh m1 g1 rhs 0 (y 0) o sel None s1 Hg eq_refl Hi) as (N1 & N2 & N3 & _).
  assert (Tid : tidy A B C Ew order P rhs n s1).
  { apply (built_tidy (E := E)); auto.
    - exact (built_var (E := E) rhs m1 g1 0 (y 0) o sel None s1 eq_refl Hg Hi).
    - rewrite N2. apply HS. lra.
    - lra. }
  apply (C13_lemma (E := E)) in Hr; [|now apply times_sorted].
  destruct Hr as (s3 & Hf & Hsm & Hend).
  assert (Hlen : length rows = k).
  { destruct Hend as [(Hend & _)|(tj & _ & l & _ & _ & Hw)]; [now rewrite map_length, seq_length in Hend|]. discriminate Hw. }
  rewrite firstn_all2 in Hf by (rewrite map_length, seq_length; lia).
  rewrite Hf in Hsm. destruct k as [|k]; [lia|]. cbn [seq map] in Hsm.
  destruct (fresh_rows A B C Ew order P o rhs n Hsh Hd Ho Hor fuel1 s1 _ _ _ s3 Tid Hsm) as (l & y1 & f1 & h1 & Ha & Hv).
  { rewrite N1, ofnat_R. change (0 < INR 1 * h). cbn [INR]. lra. }
  rewrite N1, N2, Hs1 in *. exists (deriv s1), l, y1, f1, h1. split; [exact N3|]. split; [exact Ha|].
  intros K HK HHp Hlt j r Hj.
  assert (Hjk : (j < S k)%nat) by (rewrite <- Hlen; apply nth_error_Some; rewrite Hj; discriminate).
  assert (F1 : fst r = INR (S j) * h).
  { assert (Q : nth_error (map fst rows) j = Some (fst r)) by (apply map_nth_error; exact Hj).
    rewrite Hf in Q. assert (Q2 : nth_error (map (fun i => @mul Rops (@ofnat Rops i) h) (seq 1 (S k))) j = Some (@mul Rops (@ofnat Rops (S j)) h)).
    { rewrite nth_error_map. rewrite nth_error_nth' with (d := 0%nat) by (now rewrite seq_length). rewrite seq_nth by exact Hjk. reflexivity. }
    rewrite Q2 in Q. injection Q as Q. exact (eq_trans (eq_sym Q) (f_equal (fun z => z * h) (ofnat_R (S j)))). }
  split; [exact F1|]. split; [exact Hjk|].
  assert (Q : nth_error (map (@snd (@T Rops) (@vec Rops)) rows) j = Some (snd r)) by (apply map_nth_error; exact Hj).
  pose proof (Hv K HK HHp) as Hv'. clear Hv.
  change (@mul Rops (@ofnat Rops 1) h :: map (fun i => @mul Rops (@ofnat Rops i) h) (seq 2 k)) with (map (fun i => @mul Rops (@ofnat Rops i) h) (seq 1 (S k))) in Hv'.
  rewrite <- Hf, map_map in Hv'.
  assert (Hv2 : Forall (fun t : R => 0 < t < 0 + last_h l) (map fst rows)); [|specialize (Hv' Hv2)].
  2:{ assert (Q3 := eq_trans (eq_sym Q) (eq_trans (f_equal (fun z => nth_error z j) Hv') (map_nth_error _ j rows Hj))). injection Q3 as Q3. exact Q3. }
  rewrite Hf.
  - change (Forall (fun t : R => 0 < t < 0 + last_h l) (map (fun i => @mul Rops (@ofnat Rops i) h) (seq 1 (S k)))).
    apply Forall_forall. intros t Ht. apply in_map_iff in Ht as (i & <- & Hin). apply in_seq in Hin. rewrite ofnat_R. change (0 < INR i * h < 0 + last_h l).
    assert (INR i <= INR (S k)) by (apply le_INR; lia). assert (1 <= INR i) by (change 1 with (INR 1); apply le_INR; lia). nra.
Qed.

Lemma ab_order k m bs : In (k, m, bs) ab_table -> (ms_order m - 1 <= 4)%nat.
Proof. intros H. repeat (destruct H as [H|H]; [injection H as <- <- <-; vm_compute; lia|]). destruct H. Qed.

Lemma ab_inv_var H0 : 0 <= te -> 0 < H0 -> exists E0 hmax, 0 <= E0 /\ 0 < hmax <= 1 /\
  forall k m bs g h g1 sel s1 fuel1 fuel s, In (k, m, bs) ab_table -> 0 < h <= hmax -> garbage_ok m g ->
    garbage_ok m1 g1 -> init_var m1 g1 rhs 0 (y 0) o sel None = Ret s1 -> hstep s1 = H0 ->
    init_ms (E := E) m g rhs 0 (y 0) (Some h) (FSVar (fun _ _ => Ret (solver_of (E := E) m1 fuel1 o rhs PInf, s1))) fuel = Ret s ->
    ab_inv rhs 0 te y m (ab_La L bs) E0 (ab_D M m bs) h s.
Proof.
  intros Hte HH0.
  destruct (ab_inv_start (E := E) rhs n L 0 te M y dy HL HS HD None Hte) as (E1 & HE1 & Hnone); [discriminate|].
  assert (First : forall m g h fs fuel s, ms_order m = 1%nat -> init_ms (E := E) m g rhs 0 (y 0) (Some h) fs fuel = Ret s ->
     init_ms (E := E) m g rhs 0 (y 0) (Some h) FSNone fuel = Ret s).
  { intros m g h fs fuel s H1 H. unfold init_ms in *. rewrite H1 in *. exact H. }
  destruct (classic (exists f0 l y1 f1 h1, rhs 0 (y 0) = Ret f0 /\ att 0 (y 0) f0 H0 l y1 f1 h1)) as [(f0 & l & y1 & f1 & h1 & Hf0 & Ha)|Hno].
  - destruct (attempts_last _ _ _ _ _ _ _ _ _ _ _ _ _ _ _ Ha) as (K & HK & Hf1).
    pose proof (attempts_pos _ _ _ _ _ _ _ _ _ _ _ _ _ _ _ Hmin Hmax Ha HH0) as HHp. set (H := last_h l) in *.
    assert (LK : length (K ++ [f1]) = (length A + 1)%nat).
    { destruct HK as (HK & _). apply stages_len in HK as (Q & _). rewrite app_length, Q. destruct A as [|a0 A0]; [destruct Hsh; congruence|]. reflexivity. }
    assert (Ly0 : length (y 0) = n) by (apply HS; lra).
    set (gd := rk_dense P 0 (y 0) H (K ++ [f1])).
    destruct (lip_all (fun i t => nth i (gd t) 0) 0 n) as (r & F1 & Hr & HF1 & HB1).
    { intros i Hi. exists (nth i (nth 0 (K ++ [f1]) []) 0). apply (slope_start P B); [lra|exact (eq_ind_r (P_ok P B) HP LK)|now rewrite Ly0]. }
    destruct (slope_bound n 0 te M y dy HS Hte) as (F2 & HF2 & _ & HB2).
    exists (Rmax E1 (4 * (F1 + F2))), (Rmin 1 (Rmin (H / 5) (r / 5))).
    split; [eapply Rle_trans; [exact HE1|apply Rmax_l]|]. split; [split; [repeat apply Rmin_glb_lt; lra|apply Rmin_l]|].
    intros k m bs g h g1 sel s1 fuel1 fuel s Hm Hh Hg Hg1 Hi1 Hs1 Hi.
    assert (H1 : h <= 1) by (eapply Rle_trans; [apply Hh|apply Rmin_l]).
    assert (H2 : h <= H / 5) by (eapply Rle_trans; [apply Hh|eapply Rle_trans; [apply Rmin_r|apply Rmin_l]]).
    assert (H3 : h <= r / 5) by (eapply Rle_trans; [apply Hh|eapply Rle_trans; [apply Rmin_r|apply Rmin_r]]).
    destruct Hh as (Hh & _). assert (0 <= ab_La L bs) by (eapply ab_La_pos; eauto). assert (0 <= ab_D M m bs) by (eapply ab_D_pos; eauto).
    destruct (Nat.eq_dec (ms_order m) 1) as [e1|e1].
    { apply (ab_inv_mono rhs 0 te y m _ E1); auto; [split; [exact HE1|apply Rmax_l]|].
      apply (Hnone k m bs g h FSNone fuel s Hm); auto; [constructor|]. exact (First _ _ _ _ _ _ e1 Hi). }
    set (E0 := Rmax E1 (4 * (F1 + F2))) in *. assert (HE0 : 4 * (F1 + F2) <= E0) by apply Rmax_r.
    unfold init_ms in Hi. destruct (init_base m g rhs 0 (y 0) (Some h)) as [s0| |] eqn:eb; try discriminate. cbn [obind] in Hi.
    destruct (Nat.eqb_spec (ms_order m) 1) as [|_]; [contradiction|]. cbn [fst snd] in Hi.
    destruct (base_near rhs 0 te y m g h s0 Hte Hh Hg eb) as (G & B1 & B2 & B3). rewrite B1 in Hi.
    destruct (run _ _ _ _) as [[rows| |] sx] eqn:er in Hi; try discriminate.
    destruct (fs_push_all rhs rows (cache s0)) as [c'| |] eqn:ep; try discriminate. cbn [obind] in Hi. injection Hi as <-.
    assert (Hko : (0 < ms_order m - 1)%nat) by (destruct (ms_order m) as [|[|q]] eqn:eo; [|lia|lia]; exfalso; revert Hm eo; clear; intros Hm; repeat (destruct Hm as [Hm|Hm]; [injection Hm as <- <- <-; discriminate|]); destruct Hm).
    pose proof (ab_order k m bs Hm) as Ho4.
    destruct (start_rows H0 g1 sel s1 fuel1 fuel h _ rows sx Hte HH0 Hg1 Hi1 Hs1 Hh Hko er) as (f0' & l' & y1' & f1' & h1' & Q0 & Qa & Qr).
    assert (f0' = f0) by (assert (Q := eq_trans (eq_sym Q0) Hf0); now injection Q). subst f0'.
    destruct (attempts_det _ _ _ _ _ _ _ _ _ _ _ _ _ _ _ Ha _ _ _ _ Qa) as (<- & <- & <-). fold H in Qr.
    assert (I4 : INR (ms_order m - 1) <= 4) by (replace 4 with (INR 4) by (cbn; lra); apply le_INR; exact Ho4).
    specialize (Qr K HK HHp ltac:(nra)).
    destruct (len_history_pos m) as (N & HN). pose proof G as ((Bl & _) & _). rewrite HN in Bl.
    assert (G' : good rhs m (set_cache c' s0)).
    { apply fs_push_all_spec in ep as (le & -> & F & _). now apply good_push_all. }
    apply (push_rows_near rhs 0 te y (S N) (E0 * h) h Hh) in ep; auto.
    + destruct ep as (T1 & T2). split; [exact G'|]. split; [exact B1|]. split; [exact T1|]. intros Ht. cbn [cache set_cache].
      rewrite HN. eapply wnear_mono; [|exact (T2 Ht)]. assert (0 <= F1 + F2) by lra. apply acc_ge; try lra. change (0 <= now (set_cache c' s0)) in T1. lra.
    + fold (now s0). rewrite B2. lra.
    + fold (now s0). rewrite B2, HN in *. intros _. apply B3. assert (0 <= F1 + F2) by lra. apply Rmult_le_pos; lra.
    + intros j q Hj. fold (now s0). rewrite B2. destruct (Qr j q Hj) as (V1 & V2 & V3). change (@fst R (list R) q = INR (S j) * h) in V1. change (@snd R (list R) q = gd (@fst R (list R) q)) in V3.
      split; [exact (eq_trans V1 (eq_sym (Rplus_0_l _)))|].
      intros Hq. assert (Jk : INR (S j) <= 4) by (eapply Rle_trans; [apply le_INR|exact I4]; lia).
      assert (J0 : 0 < INR (S j)) by (apply lt_0_INR; lia).
      assert (Tq : 0 <= fst q <= 4 * h) by (rewrite V1; split; nra).
      assert (Lg : length (gd (fst q)) = n) by (unfold gd, rk_dense; now rewrite map_length, seq_length).
      rewrite V3. split; [rewrite Lg; symmetry; apply HS; lra|]. intros i Hi. rewrite Lg in Hi.
      assert (W1 := HB1 i (fst q) Hi ltac:(rewrite Rminus_0_r, Rabs_pos_eq; lra)). cbn beta in W1.
      assert (W0 : nth i (gd 0) 0 = nth i (y 0) 0) by (apply dense_start; [lra|now rewrite Ly0]).
      rewrite W0, Rminus_0_r, (Rabs_pos_eq (fst q)) in W1 by lra.
      assert (W2 := HB2 0 (fst q) i ltac:(lra) Hq Hi). rewrite Rminus_0_r in W2.
      replace (nth i (gd (fst q)) 0 - nth i (y (fst q)) 0) with ((nth i (gd (fst q)) 0 - nth i (y 0) 0) - (nth i (y (fst q)) 0 - nth i (y 0) 0)) by ring.
      eapply Rle_trans; [apply Rabs_triang|]. rewrite Rabs_Ropp.
      eapply Rle_trans; [apply Rplus_le_compat; [exact W1|exact W2]|]. nra.
  - exists E1, 1. split; [exact HE1|]. split; [lra|].
    intros k m bs g h g1 sel s1 fuel1 fuel s Hm Hh Hg Hg1 Hi1 Hs1 Hi.
    destruct (Nat.eq_dec (ms_order m) 1) as [e1|e1].
    { apply (Hnone k m bs g h FSNone fuel s Hm); auto; [constructor|]. exact (First _ _ _ _ _ _ e1 Hi). }
    exfalso. unfold init_ms in Hi. destruct (init_base m g rhs 0 (y 0) (Some h)) as [s0| |] eqn:eb; try discriminate. cbn [obind] in Hi.
    destruct (Nat.eqb_spec (ms_order m) 1) as [|_]; [contradiction|]. cbn [fst snd] in Hi.
    destruct (base_near rhs 0 te y m g h s0 Hte ltac:(lra) Hg eb) as (G & B1 & B2 & B3). rewrite B1 in Hi.
    destruct (run _ _ _ _) as [[rows| |] sx] eqn:er in Hi; try discriminate.
    assert (Hko : (0 < ms_order m - 1)%nat) by (destruct (ms_order m) as [|[|q]] eqn:eo; [|lia|lia]; exfalso; revert Hm eo; clear; intros Hm; repeat (destruct Hm as [Hm|Hm]; [injection Hm as <- <- <-; discriminate|]); destruct Hm).
    destruct (start_rows H0 g1 sel s1 fuel1 fuel h _ rows sx Hte HH0 Hg1 Hi1 Hs1 ltac:(lra) Hko er) as (f0 & l & y1 & f1 & h1 & Q0 & Qa & _).
    apply Hno. exists f0, l, y1, f1, h1. auto.
Qed.
End VarStart.

Section Default.
Context {E : @Env Rops}.
Variables (k : nat) (m : @meth Rops) (bs : list R) (rhs : @rhs_t Rops) (n : nat) (L te : R) (y : R -> list R).
Hypothesis Hm : In (k, m, bs) ab_table.
Hypothesis HL : lipschitz n L rhs.
Hypothesis Hte : 0 <= te.
Hypothesis HC : C2_solution rhs n 0 te y.

Lemma default_sane : sane (@default_options Rops) /\ 0 < min_factor (@default_options Rops) /\ 0 < max_factor (@default_options Rops).
Proof.
  unfold sane. cbn [min_factor max_factor safety_factor default_options]. rewrite !lit_R. cbn [QArith_base.Qnum QArith_base.Qden].
  repeat split; lra.
Qed.
Lemma starts_inv M dy H0 : sol_ok n 0 te M y dy -> (forall t, 0 <= t <= te -> rhs t (y t) = Ret (dy t)) -> 0 < H0 ->
  exists E0 hmax, 0 <= E0 /\ 0 < hmax <= 1 /\ forall h g fs fuel s, 0 < h <= hmax -> garbage_ok m g -> starts_default (E := E) rhs 0 (y 0) H0 fs ->
    init_ms (E := E) m g rhs 0 (y 0) (Some h) fs fuel = Ret s -> ab_inv rhs 0 te y m (ab_La L bs) E0 (ab_D M m bs) h s.
Proof.
  intros HS HD HH. destruct default_sane as (Hs & H1 & H2).
  destruct (@RungeKutta45 Rops) as [| | |A B C Ew order P|] eqn:em; try discriminate.
  pose proof P_ok_45 as HP. rewrite em in HP.
  assert (Hsh : length C = length A /\ A <> []) by (injection em as <- <- <- <- <- <-; split; [reflexivity|discriminate]).
  assert (Hor : (0 <= order)%Z) by (injection em as <- <- <- <- <- <-; lia).
  destruct (ab_inv_var (E := E) A B C Ew order P default_options Hsh Hs H1 H2 Hor HP rhs n L te M y dy HL HS HD H0 Hte HH) as (E0 & hmax & P1 & P2 & P3).
  exists E0, hmax. split; [exact P1|]. split; [exact P2|]. intros h g fs fuel s Hh Hg Hst Hi.
  inversion Hst as [g1 sel s1 fuel1 G1 G2 G3]; subst fs. rewrite em in *.
  exact (P3 k m bs g h g1 sel s1 fuel1 fuel s Hm Hh Hg G1 G2 G3 Hi).
Qed.

Lemma C33_default_lemma H0 : 0 < H0 -> exists K hmax, 0 < hmax /\
  forall h g fs s0 fuel0 fuelc o tb fuel cs s, 0 < h <= hmax -> garbage_ok m g ->
    starts_default (E := E) rhs 0 (y 0) H0 fs -> init_ms (E := E) m g rhs 0 (y 0) (Some h) fs fuel0 = Ret s0 ->
    s = session (E := E) (solver_of (E := E) m fuelc o rhs tb) fuel cs s0 ->
    (now s <= te -> near (K * h) (state s) (y (now s))) /\
    forall fuel' t rows s', is_sorted t = true -> run (E := E) (solver_of (E := E) m fuelc o rhs tb) fuel' t s = (Ret rows, s') -> now s' <= te ->
      Forall (fun r => near (K * h) (snd r) (y (fst r))) rows.
Proof.
  intros HH. destruct (C2_sol_ok rhs n 0 te y Hte (proj1 (proj2 HL)) HC) as (dy & M & HS & HD).
  destruct (starts_inv M dy H0 HS HD HH) as (E0 & hmax & HE & Hx & H1).
  destruct (ab_table_spec _ _ _ Hm) as (A & Em & _). assert (Fx : is_fixed m = true) by now rewrite Em.
  assert (0 <= ab_La L bs) by (eapply ab_La_pos; eauto). assert (0 <= ab_D M m bs) by (eapply ab_D_pos; eauto).
  destruct (run_near (E := E) rhs n L 0 te M y dy m (ab_La L bs) E0 (ab_D M m bs) Hte HL HS HD ltac:(lra) Fx ltac:(now rewrite Em)) as (K & HK).
  set (K' := acc (ab_La L bs) E0 (ab_D M m bs) 1 (te - 0)).
  exists (Rmax K K'), hmax. split; [apply Hx|]. intros h g fs s0 fuel0 fuelc o tb fuel cs s Hh Hg Hs Hi ->.
  specialize (H1 h g fs fuel0 s0 Hh Hg Hs Hi). assert (Hh1 : 0 < h <= 1) by lra.
  assert (Cl : forall x x', ab_inv rhs 0 te y m (ab_La L bs) E0 (ab_D M m bs) h x -> core_of (E := E) m fuelc o rhs x = (Ret tt, x') ->
    ab_inv rhs 0 te y m (ab_La L bs) E0 (ab_D M m bs) h x').
  { intros x x' I Hc. exact (ab_inv_core (E := E) rhs n L 0 te M y dy HL HS HD k m bs E0 h fuelc o x x' Hm HE Hh1 I Hc). }
  pose proof (ab_inv_session rhs 0 te y m (ab_La L bs) E0 (ab_D M m bs) h fuelc o tb fuel cs s0 ltac:(lra) Cl ltac:(now rewrite Em) H1) as I.
  split.
  - intros Hn. pose proof I as (_ & _ & It & In). specialize (In Hn). destruct (len_history_pos m) as (j & Hj). rewrite Hj in In.
    eapply near_mono; [|exact (wnear_last rhs 0 y _ _ _ _ _ In eq_refl)].
    eapply Rle_trans; [apply (acc_mono _ E0 E0 _ h _ (te - 0)); lra|].
    apply Rle_trans with (K' * h); [unfold K', acc; lra|]. apply Rmult_le_compat_r; [lra|apply Rmax_r].
  - intros fuel' t rows s' Ho Hr Hn. eapply Forall_impl; [|exact (HK h fuelc o tb fuel' t rows _ s' Hh1 Cl I Ho Hr Hn)].
    intros r Hr'. eapply near_mono; [|exact Hr']. apply Rmult_le_compat_r; [lra|apply Rmax_l].
Qed.
End Default.
