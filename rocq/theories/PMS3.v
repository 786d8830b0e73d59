(** C27 - C30, C34, C35: statements about the multistep classes. *)
From Coq Require Import List ZArith QArith Bool Arith Lia Reals Lra.
From Verif Require Import Base Scalar Vec MBuffer MZeros MSteps MApi MClasses Laws Spec SpecInst
  PStep PCore PHist PBound PVecR SpecRK PRK PDim PFwd Ex PTerm PTop1 SpecZeros PZeros PZeros2 SpecMS PMS PMS2 PRK2 PRK3.
Import ListNotations.
Open Scope R_scope.

Ltac rtidy := rewrite ?Rops_lits, ?Rops_over, ?lit_R; cbn [map adams_A bdf_B list_set length Nat.sub Qnum Qden]; rewrite ?lit_R, ?zero_R.
Lemma ab_table_spec k m bs : In (k, m, bs) ab_table -> exists A : list R, m = @ExplMS Rops A bs /\ length A = k /\ length bs = k /\ (0 < k)%nat /\
  A = repeat 0 (k - 1) ++ [-1].
Proof.
  intros H. cbn [ab_table In] in H.
  destruct H as [H|[H|[H|[H|[H|[]]]]]]; injection H as <- <- <-; cbv [AB1 AB2 AB3 AB4 AB5 ab]; rtidy.
  all: eexists; (split; [apply f_equal2; [reflexivity|]; repeat (apply f_equal2; [lra|]); reflexivity|]).
  all: repeat split; try lia; cbn [repeat app Nat.sub]. 
  all: cbn [Qnum Qden]; repeat (apply f_equal2; [lra|]); reflexivity.
Qed.

Lemma dot_adams j : forall l, length l = S j -> dot (repeat 0 j ++ [-1]) l = - last l 0.
Proof.
  induction j as [|j IH]; intros [|x l] H; try discriminate.
  - destruct l; [|discriminate]. cbn. lra.
  - cbn [repeat app dot]. rewrite IH by (cbn in H; lia). destruct l; [discriminate|]. cbn [last]. lra.
Qed.
Lemma last_map_cmp i (l : list (list R)) : l <> [] -> last (map (fun y => cmp i y) l) 0 = cmp i (last l []).
Proof.
  intros H. rewrite (last_def _ _ ((fun y => cmp i y) [])) by (destruct l; [congruence|discriminate]). exact (last_map' (fun y : list R => cmp i y) l [] H).
Qed.
Lemma lastn_len {A} k (l : list A) : (k <= length l)%nat -> length (lastn k l) = k.
Proof. intros H. unfold lastn. rewrite skipn_length. lia. Qed.
Lemma adams_y (A : list R) k (s : @st Rops) n i : A = repeat 0 (k - 1) ++ [-1] -> (0 < k)%nat -> (k <= S n)%nat -> buf_len (S n) (cache s) ->
  dot A (map (fun y => cmp i y) (lastn k (ys (cache s)))) = - cmp i (state s).
Proof.
  intros -> Hk Hn (_ & L & _). rewrite dot_adams by (rewrite map_length; transitivity k; [apply lastn_len; exact (eq_ind_r (fun x => (k <= x)%nat) Hn L)|lia]).
  rewrite last_map_cmp by (apply lastn_nonnil; [lia|exact (eq_ind_r (fun x => (0 < x)%nat) (Nat.lt_0_succ n) L)]).
  unfold state, buf_y. rewrite <- (last_lastn k (ys (cache s))) by lia. reflexivity.
Qed.

Definition quad_defect (A B : list R) (Bn D : R) : Prop := forall p t h, degree_le 2 p ->
  peval p (t + h) + dot A (map (fun j => peval p (t - INR (length A - 1 - j) * h)) (seq 0 (length A))) -
  h * (dot B (map (fun j => peval (pder p) (t - INR (length B - 1 - j) * h)) (seq 0 (length B))) + Bn * peval (pder p) (t + h))
  = D * nth 2 p 0 * (h * h).
Ltac defect :=
  let p := fresh "p" in let Hp := fresh in
  intros p t h Hp; unfold degree_le in Hp; cbn [length Nat.sub seq map INR dot repeat app];
  repeat (destruct p as [|? p]; [cbn [peval pder pder_from nth]; field | cbn [length] in Hp; try (exfalso; lia)]).
Lemma ab_defect k m bs : In (k, m, bs) ab_table -> (2 <= k)%nat -> quad_defect (repeat 0 (k - 1) ++ [-1]) bs 0 (2 * INR k).
Proof.
  intros H Hk. cbn [ab_table In] in H. destruct H as [H|[H|[H|[H|[H|[]]]]]]; injection H as <- <- <-; [lia|..]; defect.
Qed.
(** the documented formula, newest row first *)
Lemma ab_documented k m bs : In (k, m, bs) ab_table -> forall p t h, degree_le k p ->
  peval p (t + h) = peval p t + h * dot bs (map (fun j => peval (pder p) (t - INR j * h)) (seq 0 k)).
Proof.
  intros H. cbn [ab_table In] in H. destruct H as [H|[H|[H|[H|[H|[]]]]]]; injection H as <- <- <-; defect.
Qed.
Lemma ab_linear k m bs : In (k, m, bs) ab_table -> exact_deg (repeat 0 (k - 1) ++ [-1]) bs 0 1.
Proof.
  intros H. cbn [ab_table In] in H. destruct H as [H|[H|[H|[H|[H|[]]]]]]; injection H as <- <- <-; defect.
Qed.

Section Top.
Context {E : @Env Rops}.
Lemma reach_good m rhs fuelc o tb (s : @st Rops) : reachable (E := E) rhs m fuelc o tb s -> good rhs m s.
Proof. apply reachable_good. Qed.
Lemma C27_formula_lemma k m bs rhs fuelc o tb n (s s' : @st Rops) : In (k, m, bs) ab_table ->
  reachable (E := E) rhs m fuelc o tb s -> dims n s -> took_step (solver_of (E := E) m fuelc o rhs tb) s s' ->
  now s' = now s + hstep s /\ length (state s') = n /\ rhs (now s') (state s') = Ret (deriv s') /\
  forall i, (i < n)%nat -> cmp i (state s') =
    cmp i (state s) + hstep s * dot bs (map (fun f => cmp i f) (lastn k (fs (cache s)))).
Proof.
  intros H G D St. apply reach_good in G as (W & _).
  destruct (ab_table_spec _ _ _ H) as (A & -> & LA & LB & Hk & EA).
  pose proof (wf_state_dim _ _ _ W D) as Hn. destruct (wf_pos _ _ W) as (j & Bl & Lh). cbn in Lh. unfold ms_len in Lh.
  destruct (expl_step A bs fuelc o rhs tb s s' n (proj1 W) (eq_trans LA (eq_sym LB)) D Hn St) as (Ht & Hl & Rel & Er & _).
  rewrite Ht. split; [reflexivity|]. split; [exact Hl|]. split; [exact Er|]. intros i Hi. specialize (Rel i). rewrite Hn in Rel. specialize (Rel Hi).
  rewrite LA, LB in Rel. rewrite (adams_y A k s j i EA Hk) in Rel; [|change (@length (@T Rops) A) with (@length R A) in Lh; lia|exact Bl].
  rewrite Rmult_0_l, Rplus_0_r in Rel. 
  apply (Rplus_eq_reg_r (- cmp i (state s))). refine (eq_trans Rel _). rring.
Qed.

Lemma defect_step A B Bn D Ps (s : @st Rops) y' i : length A = length B -> quad_defect A B Bn D -> Forall (degree_le 2) Ps ->
  tracks (length A) Ps s -> (i < length (state s))%nat ->
  lm_relation A B Bn s y' (slope Ps (now s + hstep s)) ->
  cmp i y' = peval (nth i Ps []) (now s + hstep s) - D * nth 2 (nth i Ps []) 0 * (hstep s * hstep s).
Proof.
  intros LAB Q HP Tr Hi Rel. specialize (Rel i Hi). assert (Tr' : tracks (length B) Ps s) by (rewrite <- LAB; exact Tr).
  rewrite (tracks_ys _ Ps) in Rel by auto. rewrite (tracks_fs _ Ps) in Rel by auto. rewrite slope_cmp in Rel.
  assert (dg : degree_le 2 (nth i Ps [])).
  { destruct (le_lt_dec (length Ps) i) as [l|l]; [rewrite nth_overflow by auto; unfold degree_le; cbn; lia|].
    rewrite Forall_forall in HP. apply HP. now apply nth_In. }
  specialize (Q (nth i Ps []) (now s) (hstep s) dg).
  match type of Q with ?a + ?b - ?c = ?d => set (X := a) in *; set (Y := b) in *; set (Z := c) in *; set (W := d) in * end.
  change (cmp i y' = X - W). clearbody X Y Z W. clear - Q Rel. 
  apply (Rplus_eq_reg_r Y). rewrite Rel. lra.
Qed.
Lemma C27_defect_lemma k m bs rhs Ps fuelc o tb (s s' : @st Rops) : In (k, m, bs) ab_table -> (2 <= k)%nat ->
  reachable (E := E) rhs m fuelc o tb s -> dims (length Ps) s -> Forall (degree_le 2) Ps -> tracks k Ps s ->
  took_step (solver_of (E := E) m fuelc o rhs tb) s s' ->
  now s' = now s + hstep s /\
  forall i, (i < length Ps)%nat -> cmp i (state s') =
    peval (nth i Ps []) (now s') - 2 * INR k * nth 2 (nth i Ps []) 0 * (hstep s * hstep s).
Proof.
  intros H Hk G D HP Tr St. apply reach_good in G as (W & _).
  pose proof (ab_defect _ _ _ H Hk) as Q.
  destruct (ab_table_spec _ _ _ H) as (A & -> & LA & LB & Hk' & EA). rewrite <- EA in Q.
  pose proof (wf_state_dim _ _ _ W D) as Hn.
  destruct (expl_step A bs fuelc o rhs tb s s' _ (proj1 W) (eq_trans LA (eq_sym LB)) D Hn St) as (Ht & Hl & Rel & Er & _).
  rewrite Ht. split; [reflexivity|]. intros i Hi.
  apply (defect_step A bs 0 (2 * INR k) Ps s); auto; try congruence; try exact (eq_ind_r (fun x => (i < x)%nat) Hi Hn).
  intros j Hj. specialize (Rel j Hj). rewrite Rmult_0_l in *. exact Rel.
Qed.
Lemma C27_linear_lemma k m bs rhs Ps fuelc o tb (s s' : @st Rops) : In (k, m, bs) ab_table ->
  reachable (E := E) rhs m fuelc o tb s -> dims (length Ps) s -> Forall (degree_le 1) Ps -> tracks k Ps s -> solves rhs Ps ->
  took_step (solver_of (E := E) m fuelc o rhs tb) s s' ->
  now s' = now s + hstep s /\ state s' = solution Ps (now s') /\ tracks k Ps s'.
Proof.
  intros H G D HP Tr So St. apply reach_good in G as (W & _).
  pose proof (ab_linear _ _ _ H) as Q.
  destruct (ab_table_spec _ _ _ H) as (A & -> & LA & LB & Hk' & EA). rewrite <- EA in Q.
  rewrite <- LA in *. apply (explicit_exact A bs 1 Ps fuelc o rhs tb s s'); auto.
Qed.

(** ** implicit classes *)
Lemma am_spec k m : In (k, m) am_table -> exact_meth m k /\ is_impl m /\ (0 < length (A_of m))%nat.
Proof.
  intros H. cbn [am_table In] in H. destruct H as [H|[H|[H|[]]]]; injection H as <- <-; (split; [|split; [exact I|cbn; lia]]).
  - apply AM1_exact. - apply AM2_exact. - apply AM3_exact.
Qed.
Lemma bdf_spec k m : In (k, m) bdf_table -> exact_meth m k /\ is_impl m /\ (0 < length (A_of m))%nat.
Proof.
  intros H. cbn [bdf_table In] in H. destruct H as [H|[H|[H|[H|[H|[H|[]]]]]]]; injection H as <- <-; (split; [|split; [exact I|cbn; lia]]).
  - apply BDF1_exact. - apply BDF2_exact. - apply BDF3_exact. - apply BDF4_exact. - apply BDF5_exact. - apply BDF6_exact.
Qed.
Lemma exact_relation m k rhs Ps fuelc o tb (s : @st Rops) : exact_meth m k -> reachable (E := E) rhs m fuelc o tb s ->
  Forall (degree_le k) Ps -> tracks (length (A_of m)) Ps s ->
  lm_relation (A_of m) (B_of m) (new_weight m) s (solution Ps (now s + hstep s)) (slope Ps (now s + hstep s)).
Proof.
  intros X G HP Tr. destruct m; try contradiction; destruct X as (LAB & X); cbn [A_of B_of new_weight] in *;
    apply (relation_poly _ _ _ k); auto.
Qed.
Lemma exact_scalar m k rhs p a b fuelc o tb (s s' : @st Rops) : exact_meth m k -> is_impl m -> (0 < length (A_of m))%nat ->
  reachable (E := E) rhs m fuelc o tb s -> dims 1 s -> degree_le k p -> affine1 rhs a b -> solves rhs [p] ->
  tracks (length (A_of m)) [p] s -> 1 - hstep s * new_weight m * a (now s + hstep s) <> 0 ->
  took_step (solver_of (E := E) m fuelc o rhs tb) s s' ->
  now s' = now s + hstep s /\ state s' = [peval p (now s')] /\ tracks (length (A_of m)) [p] s'.
Proof.
  intros X Im LA G D HP Af So Tr Hne St. apply reach_good in G as (W & _).
  destruct m; try contradiction; destruct X as (LAB & X); cbn [A_of new_weight] in *.
  exact (implicit_exact A B Bn k p fuelc o rhs tb s s' a b W LAB LA X HP D Af Tr So Hne St).
Qed.
Lemma scalar_runs m rhs a b fuelc o (s : @st Rops) : is_impl m -> length (A_of m) = length (B_of m) ->
  reachable (E := E) rhs m fuelc o PInf s -> dims 1 s -> affine1 rhs a b ->
  1 - hstep s * new_weight m * a (now s + hstep s) <> 0 ->
  exists s', took_step (solver_of (E := E) m fuelc o rhs PInf) s s'.
Proof.
  intros Im LAB G D Af Hne. apply reach_good in G as (W & _).
  destruct m; try contradiction; cbn [A_of B_of new_weight] in *.
  now apply (implicit_affine_runs A B Bn fuelc o rhs s a b).
Qed.
Lemma norm2_ext u v : u = v -> norm2 u = norm2 v. Proof. now intros ->. Qed.
Lemma exact_system m k rhs Ps fuelc o tb (s s' : @st Rops) : exact_meth m k -> is_impl m ->
  reachable (E := E) rhs m fuelc o tb s -> dims (length Ps) s -> length Ps <> 1%nat -> solve_dim (E := E) ->
  Forall (degree_le k) Ps -> quadrature rhs Ps -> tracks (length (A_of m)) Ps s ->
  took_step (solver_of (E := E) m fuelc o rhs tb) s s' ->
  now s' = now s + hstep s /\
  norm2 (map (fun i => cmp i (state s') - peval (nth i Ps []) (now s')) (seq 0 (length Ps))) <= 148 / 10000000000.
Proof.
  intros X Im G D Hn1 Sd HP Hq Tr St. pose proof (exact_relation m k rhs Ps fuelc o tb s X G HP Tr) as Rel.
  apply reach_good in G as (W & _). pose proof (wf_state_dim _ _ _ W D) as Hn.
  destruct m; try contradiction; destruct X as (LAB & X); cbn [A_of B_of new_weight] in *.
  assert (Kd : keeps_dim (length Ps) rhs) by (intros ? ? ? _ er; rewrite Hq in er; injection er as <-; apply map_length).
  destruct (implicit_hd A B Bn fuelc o rhs tb s s' (length Ps) W LAB D Hn1 Kd Sd St) as (Ht & Hl & _ & Er & Nv).
  split; [exact Ht|]. refine (Rle_trans _ _ _ (Req_le _ _ _) Nv). apply norm2_ext. unfold lm_residual. rewrite Hn.
  apply map_ext_in. intros i Hi. apply in_seq in Hi. specialize (Rel i). rewrite Hn in Rel. specialize (Rel (proj2 Hi)).
  rewrite Hq in Er. injection Er as Er. rewrite <- Er, Ht, slope_cmp. rewrite solution_cmp, slope_cmp in Rel.
  match type of Rel with ?a + ?b = ?c => change (cmp i (state s') - a = cmp i (state s') + b - c); rewrite <- Rel end. rring.
Qed.
End Top.
