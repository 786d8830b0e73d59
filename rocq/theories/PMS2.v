(** The coefficients of the multistep classes against polynomials. *)
From Coq Require Import List ZArith QArith Bool Arith Lia Reals Lra.
From Verif Require Import Base Scalar Vec MBuffer MZeros MSteps MApi MClasses Laws Spec SpecInst
  PStep PCore PHist PBound PVecR SpecRK PDim PTop1 SpecZeros PZeros PZeros2 SpecMS PMS.
Import ListNotations.
Open Scope R_scope.

Definition exact_meth (m : @meth Rops) (k : nat) : Prop :=
  match m with
  | ExplMS A B => length A = length B /\ exact_deg A B 0 k
  | ImplMS A B Bn => length A = length B /\ exact_deg A B Bn k
  | _ => False
  end.
Ltac ex_deg :=
  cbv [exact_meth AB1 AB2 AM1 AM2 AM3 BDF1 BDF2 BDF3 BDF4 BDF5 BDF6 ab am bdf]; rewrite ?Rops_lits, ?Rops_over, ?lit_R;
  cbn [map adams_A bdf_B list_set length Nat.sub Qnum Qden]; rewrite ?lit_R, ?zero_R; split; [reflexivity|];
  let p := fresh "p" in let Hp := fresh in
  intros p t h Hp; unfold degree_le in Hp; cbn [length Nat.sub seq map INR dot Qnum Qden];
  repeat (destruct p as [|? p]; [cbn [peval pder pder_from]; field | cbn [length] in Hp; try (exfalso; lia)]).
Lemma AB1_exact : exact_meth AB1 1. Proof. ex_deg. Qed.
Lemma AM1_exact : exact_meth AM1 1. Proof. ex_deg. Qed.
Lemma AM2_exact : exact_meth AM2 2. Proof. ex_deg. Qed.
Lemma AM3_exact : exact_meth AM3 3. Proof. ex_deg. Qed.
Lemma BDF1_exact : exact_meth BDF1 1. Proof. ex_deg. Qed.
Lemma BDF2_exact : exact_meth BDF2 2. Proof. ex_deg. Qed.
Lemma BDF3_exact : exact_meth BDF3 3. Proof. ex_deg. Qed.
Lemma BDF4_exact : exact_meth BDF4 4. Proof. ex_deg. Qed.
Lemma BDF5_exact : exact_meth BDF5 5. Proof. ex_deg. Qed.
Lemma BDF6_exact : exact_meth BDF6 6. Proof. ex_deg. Qed.

Section Steps.
Context {E : @Env Rops}.
Lemma wf_pos m (s : @st Rops) : wf m s -> exists k, buf_len (S k) (cache s) /\ len_history m = S k.
Proof. intros ((L1 & L2 & L3) & _). destruct (len_history_pos m) as (k & e). exists (S k). rewrite <- e. repeat split; auto. Qed.
Lemma wf_state_dim m (s : @st Rops) n : wf m s -> dims n s -> length (state s) = n.
Proof.
  intros W D. destruct (wf_pos _ _ W) as (k & (_ & L & _) & _).
  apply last_dim; [destruct (ys (cache s)); cbn in *; [lia|discriminate] | apply D].
Qed.

(** the polynomials satisfy the relation *)
Lemma relation_poly A B Bn k Ps (s : @st Rops) : length A = length B -> exact_deg A B Bn k -> Forall (degree_le k) Ps ->
  tracks (length A) Ps s ->
  lm_relation A B Bn s (solution Ps (now s + hstep s)) (slope Ps (now s + hstep s)).
Proof.
  intros LAB X HP Tr i Hi. rewrite solution_cmp, slope_cmp. rewrite (tracks_ys _ Ps) by auto.
  assert (Tr' : tracks (length B) Ps s) by (rewrite <- LAB; exact Tr).
  rewrite (tracks_fs _ Ps) by auto. apply X.
  destruct (le_lt_dec (length Ps) i) as [l|l].
  - rewrite nth_overflow by auto. unfold degree_le. cbn. lia.
  - rewrite Forall_forall in HP. apply HP. now apply nth_In.
Qed.

(** one explicit step *)
Lemma explicit_exact A B k Ps fuelc o rhs tb (s s' : @st Rops) :
  wf (ExplMS A B) s -> length A = length B -> (0 < length A)%nat -> exact_deg A B 0 k -> Forall (degree_le k) Ps ->
  dims (length Ps) s -> tracks (length A) Ps s -> solves rhs Ps ->
  took_step (solver_of (E := E) (ExplMS A B) fuelc o rhs tb) s s' ->
  now s' = now s + hstep s /\ state s' = solution Ps (now s') /\ tracks (length A) Ps s'.
Proof.
  intros W LAB LA X HP D Tr So H. pose proof (wf_state_dim _ _ _ W D) as Hn.
  destruct (expl_step A B fuelc o rhs tb s s' (length Ps) (proj1 W) LAB D Hn H) as (Ht & Hl & Rel & Er & Pu).
  pose proof (relation_poly A B 0 k Ps s LAB X HP Tr) as RP.
  assert (Es : state s' = solution Ps (now s')).
  { apply (vec_ext (length Ps)); [exact Hl|apply map_length|]. intros i Hi. specialize (Rel i). specialize (RP i).
    rewrite Hn in Rel, RP. specialize (Rel Hi). specialize (RP Hi). rewrite Ht. rewrite ?Rmult_0_l, ?Rplus_0_r in Rel, RP.
    apply (Rplus_eq_reg_r (dot A (map (fun y => cmp i y) (lastn (length A) (ys (cache s)))))). exact (eq_trans Rel (eq_sym RP)). }
  split; [auto|]. split; [auto|]. destruct (wf_pos _ _ W) as (j & Bl & Lh). cbn in Lh. unfold ms_len in Lh.
  apply (tracks_push _ Ps s s' j); auto; [lia|]. 
  rewrite Ht in *. rewrite Es in Er. specialize (So (now s + hstep s)). congruence.
Qed.
Lemma explicit_runs A B fuelc o rhs (s : @st Rops) : 
  (forall t y, exists f, rhs t y = Ret f) -> exists s', took_step (solver_of (E := E) (ExplMS A B) fuelc o rhs PInf) s s'.
Proof.
  intros Hr. unfold took_step. destruct (Hr (buf_t (cache s) + hstep s) (@ms_combination Rops A B (cache s) (hstep s))) as (f & Hf).
  eexists. exists 0%nat. eexists. eexists. rewrite step_none by reflexivity. cbn [s_core solver_of core_of].
  unfold core_expl_ms, expl_ms_fixed_step, bind, lift. match goal with |- context [rhs ?a ?b] => replace (rhs a b) with (@Ret (@vec Rops) f) by (symmetry; exact Hf) end.
  reflexivity.
Qed.

(** the residual of the implicit equation *)
Lemma root_residual (A B : list R) (Bn : R) (rhs : @rhs_t Rops) (s : @st Rops) n (y f : list R) (t : R) : wf (@ImplMS Rops A B Bn) s -> length A = length B -> dims n s ->
  length y = n -> length f = n -> rhs t y = Ret f ->
  @implicit_root Rops rhs t (@mul Rops (hstep s) Bn) (@ms_combination Rops A B (cache s) (hstep s)) y = Ret (lm_residual A B Bn s y f).
Proof.
  intros W LAB D Ly Lf Hr. pose proof (wf_state_dim _ _ _ W D) as Hn. unfold implicit_root. rewrite Hr. cbn [obind]. f_equal.
  assert (Lk : length (@ms_combination Rops A B (cache s) (hstep s)) = n) by (now apply ms_comb_len).
  apply (vec_ext n).
  - apply vsub_len; auto. apply vsub_len; auto. now apply vscale_len.
  - unfold lm_residual. rewrite map_length, seq_length. exact Hn.
  - intros i Hi. rewrite (vsub_cmp n), (vsub_cmp n), vscale_cmp by (try apply vsub_len; try apply vscale_len; auto).
    rewrite (ms_comb_cmp n) by (auto; apply W). unfold lm_residual. rewrite nth_map_sq by (rewrite Hn; exact Hi).
    change (@mul Rops) with Rmult. match goal with |- @eq _ ?a ?b => change (@eq R a b) end. change (@nth (@T Rops)) with (@nth R). ring.
Qed.

(** a completed implicit step of dimension n <> 1 *)
Lemma implicit_hd A B Bn fuelc o rhs tb (s s' : @st Rops) n :
  wf (ImplMS A B Bn) s -> length A = length B -> dims n s -> n <> 1%nat -> keeps_dim n rhs -> solve_dim (E := E) ->
  took_step (solver_of (E := E) (ImplMS A B Bn) fuelc o rhs tb) s s' ->
  now s' = now s + hstep s /\ length (state s') = n /\ pushed s s' /\
  rhs (now s + hstep s) (state s') = Ret (deriv s') /\
  norm2 (lm_residual A B Bn s (state s') (deriv s')) <= IZR 148 / IZR 10000000000.
Proof.
  intros W LAB D Hn1 Kd Sd H. pose proof (wf_state_dim _ _ _ W D) as Hn.
  destruct (impl_step_gen A B Bn fuelc o rhs tb s s' (proj1 W) H) as (Ht & Er & Pu & Ei).
  pose proof (took_core _ _ _ H) as Hc. cbn [s_core solver_of] in Hc.
  pose proof (core_dim n rhs Kd (ImplMS A B Bn) fuelc o s s' Sd W I D Hc) as D'.
  assert (W' : wf (ImplMS A B Bn) s') by (pose proof (core_wf (ImplMS A B Bn) fuelc o rhs s W) as K; rewrite Hc in K; exact K).
  pose proof (wf_state_dim _ _ _ W' D') as Hn'.
  split; [auto|]. split; [auto|]. split; [auto|]. split; [auto|].
  unfold impl_ms_fixed_step in Ei. unfold ysize in Ei. change (buf_y (cache s)) with (state s) in Ei. rewrite Hn in Ei.
  destruct (Nat.eqb_spec n 1) as [e|_]; [congruence|].
  match type of Ei with context [newton_hd ?F _ _ _ _] => pose proof (newton_hd_R F (@default_tol Rops) (@zero Rops) (state s) 50) as NR end.
  match type of Ei with context [newton_hd ?F ?a ?b ?c ?d] => destruct (newton_hd F a b c d) as [y| |]; try discriminate end.
  cbn [obind] in Ei. injection Ei as ->. destruct NR as (k & v & _ & _ & Hv & Nv).
  match type of Hv with ?F _ = _ => assert (e : F (state s') = Ret (lm_residual A B Bn s (state s') (deriv s'))) end.
  { apply (root_residual A B Bn rhs s n); auto. apply (Kd _ _ _ Hn' Er). }
  rewrite e in Hv. injection Hv as <-. unfold default_tol in Nv. rewrite lit_R in Nv. exact Nv.
Qed.

(** a scalar implicit step of an affine problem *)
Lemma len1 {A} (l : list A) d : length l = 1%nat -> l = [nth 0 l d].
Proof. destruct l as [|x [|y l]]; cbn; intros; try discriminate. reflexivity. Qed.
Lemma secant_affine_j (func : R -> outcome R) al be (x0 : R) : al <> 0 -> (forall p, func p = Ret (al * p + be)) ->
  @j_newton Rops func x0 None None None (@default_tol Rops) (@zero Rops) 50 = Ret (- be / al).
Proof.
  intros Ha Hf.
  assert (Ht : 0 < @default_tol Rops) by (unfold default_tol; rewrite lit_R; cbn; lra).
  destruct (secant_affine func al be (@default_tol Rops) (@zero Rops) x0 None (Z.to_nat 50)) as (r & K & Hr & _); auto.
  - lra.
  - rewrite zero_R. lra.
  - cbn. lia.
  - discriminate.
  - destruct (newton_wrap func x0 None None None (@default_tol Rops) (@zero Rops) 50 (r, OK) Ht) as (_ & _ & J); [lia|exact K|].
    change (Z.to_nat 50) with 50%nat in J. cbn [snd fst] in J. rewrite J. f_equal. exact Hr.
Qed.
Lemma impl_affine_step (A B : list R) (Bn : R) rhs (s : @st Rops) a b :
  wf (@ImplMS Rops A B Bn) s -> length A = length B -> dims 1 s -> affine1 rhs a b ->
  1 - hstep s * Bn * a (now s + hstep s) <> 0 ->
  let t := now s + hstep s in
  exists y, @impl_ms_fixed_step Rops E A B Bn rhs (cache s) (hstep s) = Ret (t, [y]) /\
    forall z, (1 - hstep s * Bn * a t) * z - hstep s * Bn * b t =
       cmp 0 (@ms_combination Rops A B (cache s) (hstep s)) <-> z = y.
Proof.
  intros W LAB D Af Hne t. pose proof (wf_state_dim _ _ _ W D) as Hn.
  unfold impl_ms_fixed_step. unfold ysize. change (buf_y (cache s)) with (state s). rewrite Hn. cbn [Nat.eqb].
  set (K := @ms_combination Rops A B (cache s) (hstep s)).
  assert (LK : length K = 1%nat) by (now apply ms_comb_len).
  set (al := 1 - hstep s * Bn * a t). set (be := - (hstep s * Bn * b t) - cmp 0 K).
  match goal with |- context [j_newton ?F ?x _ _ _ _ _ _] => pose proof (secant_affine_j F al be x Hne) as SJ end.
  change (buf_t (cache s)) with (now s) in *. 
  match type of SJ with ?P -> _ => assert (HP : P) end.
  { intros p. unfold implicit_root. change (@add Rops) with Rplus. fold t.
    match goal with |- context [rhs ?x ?y] => replace (rhs x y) with (@Ret (@vec Rops) [a t * p + b t]) by (symmetry; exact (Af t p)) end. cbn [obind].
    f_equal. rewrite (len1 K 0 LK). unfold be. generalize (nth 0 K 0) as z. intros z. cbn. unfold al. match goal with |- @eq _ ?a ?b => change (@eq R a b) end. ring. }
  specialize (SJ HP). rewrite SJ. cbn [obind]. exists (- be / al). split; [reflexivity|].
  intros z. fold al. assert (al <> 0) by exact Hne. unfold be. split.
  - intros e. replace (cmp 0 K) with (al * z - hstep s * Bn * b t) by exact e. match goal with |- @eq _ ?a ?b => change (@eq R a b) end. field. auto.
  - intros ->. match goal with |- @eq _ ?a ?b => change (@eq R a b) end. field. auto.
Qed.
Lemma implicit_affine (A B : list R) (Bn : R) fuelc o rhs tb (s s' : @st Rops) a b :
  wf (@ImplMS Rops A B Bn) s -> length A = length B -> dims 1 s -> affine1 rhs a b ->
  1 - hstep s * Bn * a (now s + hstep s) <> 0 ->
  took_step (solver_of (E := E) (@ImplMS Rops A B Bn) fuelc o rhs tb) s s' ->
  now s' = now s + hstep s /\ length (state s') = 1%nat /\ pushed s s' /\
  deriv s' = [a (now s') * cmp 0 (state s') + b (now s')] /\
  (forall z, lm_relation A B Bn s [z] [a (now s') * z + b (now s')] <-> state s' = [z]).
Proof.
  intros W LAB D Af Hne H. pose proof (wf_state_dim _ _ _ W D) as Hn.
  destruct (impl_step_gen A B Bn fuelc o rhs tb s s' (proj1 W) H) as (Ht & Er & Pu & Ei).
  destruct (impl_affine_step A B Bn rhs s a b W LAB D Af Hne) as (y & Ey & Hy).
  assert (Es : state s' = [y]) by congruence.
  split; [auto|]. rewrite Es in *. split; [reflexivity|]. split; [auto|]. rewrite Ht. split.
  - assert (HH : Ret (deriv s') = Ret [a (now s + hstep s) * y + b (now s + hstep s)]) by (rewrite <- Er; apply Af). injection HH as ->. reflexivity.
  - intros z. cbn zeta in Hy. rewrite (ms_comb_cmp 1) in Hy by (auto; apply W). split.
    + intros Re. specialize (Re 0%nat). rewrite Hn in Re. specialize (Re (le_n _)). f_equal. symmetry. apply Hy. cbn [nth] in Re.
      match type of Re with @eq _ ?p ?q => assert (p - q = 0) as R' by (apply Rminus_diag_eq; exact Re) end.
      apply Rminus_diag_uniq. refine (eq_trans _ R'). match goal with |- @eq _ ?a ?b => change (@eq R a b) end. ring.
    + intros e. injection e as e. symmetry in e. apply Hy in e. intros i Hi. rewrite Hn in Hi. assert (i = 0)%nat as -> by lia. cbn [nth].
      match type of e with @eq _ ?p ?q => assert (p - q = 0) as R' by (apply Rminus_diag_eq; exact e) end.
      apply Rminus_diag_uniq. refine (eq_trans _ R'). match goal with |- @eq _ ?a ?b => change (@eq R a b) end. ring.
Qed.
Lemma implicit_affine_runs (A B : list R) (Bn : R) fuelc o rhs (s : @st Rops) a b :
  wf (@ImplMS Rops A B Bn) s -> length A = length B -> dims 1 s -> affine1 rhs a b ->
  1 - hstep s * Bn * a (now s + hstep s) <> 0 ->
  exists s', took_step (solver_of (E := E) (@ImplMS Rops A B Bn) fuelc o rhs PInf) s s'.
Proof.
  intros W LAB D Af Hne. destruct (impl_affine_step A B Bn rhs s a b W LAB D Af Hne) as (y & Ey & _).
  eexists. exists 0%nat. eexists. eexists. rewrite step_none by reflexivity. cbn [s_core solver_of core_of].
  unfold core_impl_ms, bind, lift. rewrite Ey. match goal with |- context [rhs ?u ?v] => replace (rhs u v) with (@Ret (@vec Rops) [a (now s + hstep s) * y + b (now s + hstep s)]) by (symmetry; apply Af) end. reflexivity.
Qed.
(** exactness in one dimension *)
Lemma implicit_exact (A B : list R) (Bn : R) k p fuelc o rhs tb (s s' : @st Rops) a b :
  wf (@ImplMS Rops A B Bn) s -> length A = length B -> (0 < length A)%nat -> exact_deg A B Bn k -> degree_le k p ->
  dims 1 s -> affine1 rhs a b -> tracks (length A) [p] s -> solves rhs [p] ->
  1 - hstep s * Bn * a (now s + hstep s) <> 0 ->
  took_step (solver_of (E := E) (@ImplMS Rops A B Bn) fuelc o rhs tb) s s' ->
  now s' = now s + hstep s /\ state s' = solution [p] (now s') /\ tracks (length A) [p] s'.
Proof.
  intros W LAB LA X HP D Af Tr So Hne H.
  destruct (implicit_affine A B Bn fuelc o rhs tb s s' a b W LAB D Af Hne H) as (Ht & Hl & Pu & Hd & Hu).
  pose proof (relation_poly A B Bn k [p] s LAB X (Forall_cons _ HP (Forall_nil _)) Tr) as RP.
  assert (Sl : forall t, a t * peval p t + b t = peval (pder p) t).
  { intros t. specialize (So t). unfold solution, slope in So. cbn [map] in So. specialize (Af t (peval p t)).
    assert (HH : Ret [a t * peval p t + b t] = Ret [peval (pder p) t]) by (rewrite <- Af; exact So). now injection HH. }
  assert (Es : state s' = solution [p] (now s')).
  { apply Hu. rewrite Ht. rewrite Sl. exact RP. }
  split; [auto|]. split; [auto|]. destruct (wf_pos _ _ W) as (j & Bl & Lh). cbn in Lh. unfold ms_len in Lh.
  apply (tracks_push _ [p] s s' j); auto; [change (@length (@T Rops) A) with (@length R A) in *; lia|].
  rewrite Hd, Es. cbn. f_equal. apply Sl.
Qed.
End Steps.
