(** Dense output (C24, C40). *)
From Coq Require Import List ZArith QArith Bool Arith Lia Reals Lra.
From Verif Require Import Base Scalar Vec MBuffer MZeros MSteps MApi MDop853 MClasses Laws Spec SpecInst SpecRK SpecDense
  PStep PKeeps PClean PCore PHist PBound PVecR PRun PFwd PInterp PRK PDim.
Import ListNotations.
Open Scope nat_scope.

Section G.
Context {OT : Ops} {E : Env}.
Lemma core_fsal_step fuel A B C norm o ex rhs : forall s s', length (stages s) = S (length A) -> length C = length A -> A <> [] ->
  core_fsal fuel A B C norm o ex rhs s = (Ret tt, s') ->
  exists h K y f, rk_step rhs A B C (now s) (state s) (deriv s) h K y /\
    rhs (add (now s) h) y = Ret f /\ cache s' = push (cache s) (add (now s) h) y f /\
    stages s' = K ++ [f] /\ interp s' = interp s.
Proof.
  induction fuel; intros s s' Hl HC HA H; cbn [core_fsal] in H; [discriminate|].
  unfold bind in H. destruct (fsal_fixed_step A B C rhs s) as [[[t y]| |] s1] eqn:e1; try discriminate.
  apply fsal_fixed_iff in e1 as (K & f & H1 & -> & H2 & ->); auto.
  unfold get, lift in H. destruct (norm o y _) as [en| |]; try discriminate.
  destruct (step_update en o ex _) as [[[]| |] s2] eqn:eu; try discriminate;
    apply step_update_frame in eu as (U1 & U2 & U3).
  - unfold push_st in H. injection H as <-. exists (hstep s), K, y, f. cbn [cache stages interp set_cache].
    rewrite U1, U2, U3. cbn [cache stages interp set_stages]. rewrite last_snoc. repeat (split; auto).
  - apply IHfuel in H; auto.
    + destruct H as (h & K' & y' & f' & P1 & P2 & P3 & P4 & P5). unfold now, state, deriv in *.
      rewrite U1 in *. rewrite U2 in P5. cbn [cache interp set_stages] in *.
      exists h, K', y', f'. repeat (split; auto).
    + rewrite U3. cbn [stages set_stages]. rewrite app_length. destruct H1 as (H1 & _).
      apply stages_len in H1 as (L & _). destruct A; [congruence|]. cbn in *. lia.
Qed.

Lemma nth_prev {A} n (l : list A) d x : length l = S (S n) -> nth (length (skipn 1 l ++ [x]) - 2) (skipn 1 l ++ [x]) d = last l d.
Proof.
  intros H. destruct l as [|a l]; [discriminate|]. destruct l as [|z l]; [discriminate|].
  cbn [skipn]. rewrite app_length. cbn [length]. rewrite app_nth1 by (cbn; lia).
  replace (S (length l) + 1 - 2) with (length l) by lia. change (last (a :: z :: l) d) with (last (z :: l) d).
  clear. revert z. induction l as [|w l IH]; intros z; auto. cbn [length nth]. change (last (z :: w :: l) d) with (last (w :: l) d). apply IH.
Qed.
Lemma push_tp n b t y f : buf_len (S (S n)) b -> buf_tp (push b t y f) = buf_t b.
Proof.
  intros (A & _). unfold buf_tp, buf_t. rewrite push_ts by (eapply nonnil_len; eauto). eapply nth_prev; eauto.
Qed.
Lemma push_yp n b t y f : buf_len (S (S n)) b -> buf_yp (push b t y f) = buf_y b.
Proof.
  intros (_ & A & _). unfold buf_yp, buf_y. rewrite push_ys by (eapply nonnil_len; eauto). eapply nth_prev; eauto.
Qed.
Lemma push_fp n b t y f : buf_len (S (S n)) b ->
  nth (length (fs (push b t y f)) - 2) (fs (push b t y f)) [] = buf_f b.
Proof.
  intros (_ & _ & A). unfold buf_f. rewrite push_fs by (eapply nonnil_len; eauto). eapply nth_prev; eauto.
Qed.

(** after a completed step, the stages are those of that step *)
Lemma core_last_step fuel A B C norm o ex rhs s s' n : buf_len (S (S n)) (cache s) ->
  length (stages s) = S (length A) -> length C = length A -> A <> [] ->
  core_fsal fuel A B C norm o ex rhs s = (Ret tt, s') ->
  exists h K, last_step rhs A B C s' h K /\ stages s' = K ++ [deriv s'] /\ interp s' = interp s /\
    prev_t s' = now s.
Proof.
  intros Hb Hl HC HA H. apply core_fsal_step in H as (h & K & y & f & P1 & P2 & P3 & P4 & P5); auto.
  exists h, K. unfold last_step, now, state, deriv, prev_t, prev_y, prev_f. rewrite P3.
  rewrite (push_tp _ _ _ _ _ Hb), (push_yp _ _ _ _ _ Hb), (push_fp _ _ _ _ _ Hb).
  rewrite (push_t _ _ _ _ _ Hb), (push_y _ _ _ _ _ Hb), (push_f _ _ _ _ _ Hb). repeat (split; auto).
Qed.
End G.

(** ** sums *)
Section Sums.
Open Scope R_scope.
Lemma Rsum_S f n : Rsum f (S n) = f 0%nat + Rsum (fun k => f (S k)) n.
Proof. unfold Rsum. cbn [seq map fold_right]. f_equal. rewrite <- seq_shift, map_map. reflexivity. Qed.
Lemma Rsum_ext f g n : (forall k, (k < n)%nat -> f k = g k) -> Rsum f n = Rsum g n.
Proof.
  intros H. unfold Rsum. f_equal. apply map_ext_in. intros k Hk. apply in_seq in Hk. apply H. lia.
Qed.
Lemma dot_Rsum (l : list R) : forall c, dot c l = Rsum (fun k => nth k c 0 * nth k l 0) (length l).
Proof.
  induction l as [|y l IH]; intros [|x c]; cbn [dot length]; auto.
  - rewrite Rsum_S. cbn [nth]. rewrite Rsum_ext with (g := fun k => nth k (@nil R) 0 * nth k l 0).
    + rewrite <- (IH []). destruct l; cbn; lra.
    + intros k _. destruct k; reflexivity.
  - rewrite Rsum_S. cbn [nth]. now rewrite IH.
Qed.
Lemma dot_map_Rsum {A} (f : A -> R) (l : list A) d c : dot c (map f l) = Rsum (fun k => nth k c 0 * f (nth k l d)) (length l).
Proof.
  rewrite dot_Rsum, map_length. apply Rsum_ext. intros k Hk. f_equal.
  rewrite nth_indep with (d' := f d) by (now rewrite map_length). apply map_nth.
Qed.
Lemma nth_map_d {A B} (f : A -> B) l k d d' : f d = d' -> nth k (map f l) d' = f (nth k l d).
Proof. intros <-. apply map_nth. Qed.
Lemma nth_map_seq {A} (f : nat -> A) n i d : (i < n)%nat -> nth i (map f (seq 0 n)) d = f i.
Proof.
  intros H. rewrite nth_indep with (d' := f 0%nat) by (now rewrite map_length, seq_length).
  now rewrite map_nth, seq_nth.
Qed.
Lemma powers_R (x : R) n : forall (acc : R) k, (k < n)%nat -> @eq R (@nth R k (@powers_from Rops acc x n) 0) (acc * x ^ k).
Proof.
  induction n; intros acc k Hk; [lia|]. cbn [powers_from]. destruct k; cbn [nth].
  - cbn [pow]. ring.
  - rewrite (IHn (acc * x)) by lia. cbn [pow]. ring.
Qed.
Lemma powers_len {OT : Ops} (x : T) n : forall acc, length (powers_from acc x n) = n.
Proof. induction n; intros; cbn; auto. Qed.
End Sums.

Section R.
Context {E : @Env Rops}.
Open Scope R_scope.
Variables (A : list (list R)) (B C Ew : list R) (order : Z) (P : list (list R)).
Variables (fuelc : nat) (o : @options Rops) (rhs : @rhs_t Rops) (tb : @ext Rops) (n : nat).
Let m : @meth Rops := @Fsal Rops A B C Ew order P.
Let sv := solver_of m fuelc o rhs tb.
Hypothesis Hsh : length C = length A /\ A <> [].
Hypothesis Hk : keeps_dim n rhs.
Hypothesis Ho : sane o.

Notation st := (@st Rops).
(** what every sequence of calls keeps *)
Definition calm (s : st) : Prop :=
  wf m s /\ dims n s /\ 0 <= hstep s /\ iupd (interp s) <= now s /\ prev_t s <= now s.
Definition rk_cols (s : st) : list (list R) :=
  map (fun j => @lincomb Rops (ysize (cache s)) (map (fun row => nth j row 0) P) (stages s)) (seq 0 (length (hd [] P))).
(** what calls that return keep *)
Definition tidy (s : st) : Prop :=
  calm s /\
  (prev_t s < now s -> exists h K, last_step rhs A B C s h K /\ stages s = K ++ [deriv s]) /\
  (iupd (interp s) <= prev_t s \/ iQ (interp s) = rk_cols s).

Lemma rk_update_R (s : st) : rk_update (OT := Rops) P s = @set_interp Rops (@mkitp Rops (rk_cols s) (iF (interp s)) (now s)) s.
Proof.
  unfold rk_update, rk_cols, now. f_equal. f_equal. rewrite map_map. rewrite !zero_R. reflexivity.
Qed.
Lemma interp_rk_cases t (s : st) :
  interp_rk (OT := Rops) P t s =
  if Reqb t (now s) then (Ret (CacheRow (length (ys (cache s)) - 1)), s)
  else if Reqb t (prev_t s) then (Ret (CacheRow (length (ys (cache s)) - 2)), s)
  else let s1 := if Rltb t (iupd (interp s)) then s else @set_interp Rops (@mkitp Rops (rk_cols s) (iF (interp s)) (now s)) s in
    match @sdiv Rops E (t - prev_t s) (now s - prev_t s) with
    | Ret x => (Ret (Own (@vadd Rops (@vscale Rops (now s - prev_t s)
                 (@lincomb Rops (length (prev_y s)) (powers_from x x (length (iQ (interp s1)))) (iQ (interp s1)))) (prev_y s))), s1)
    | Raise e => (Raise e, s1)
    | Loop => (Loop, s1)
    end.
Proof.
  unfold interp_rk. fold (now s) (prev_t s) (prev_y s). rewrite rk_update_R.
  change (@eqb Rops) with Reqb. change (@ltb Rops) with Rltb.
  destruct (Reqb t (now s)); auto.
Qed.

Lemma calm_core s r s' : calm s -> core_of m fuelc o rhs s = (r, s') -> calm s'.
Proof.
  intros (W & D & Hh & Hu & Hp) H.
  pose proof (core_wf m fuelc o rhs s W) as W'. rewrite H in W'. cbn [snd] in W'.
  assert (Hb := W). destruct Hb as (Hb & Hst). cbn [len_history m] in Hb. cbn [n_stages_of m] in Hst.
  pose proof H as H'. cbn [core_of m] in H'.
  destruct (core_fsal_R _ _ _ _ _ _ _ _ _ _ _ _ Ho (error_exponent_pos order) Hb H' Hh) as (Hh' & Hn).
  pose proof I as I0. assert (I : interp s' = interp s).
  { apply core_of_ok in H; [|intros; now apply (wf_stages m)]. unfold core_ok in H. tauto. }
  destruct r as [[]| |].
  - destruct (core_last_step _ _ _ _ _ _ _ _ _ _ _ Hb ltac:(now rewrite Hst, Nat.add_1_r) (proj1 Hsh) (proj2 Hsh) H') as (h & K & _ & _ & _ & Hpt).
    split; [exact W'|]. split; [|split; [exact Hh'|split]].
    + exact (core_dim n rhs Hk m fuelc o s s' I0 W Hsh D H).
    + rewrite I. lra.
    + rewrite Hpt. apply Hn.
  - apply core_of_ok in H; [|intros; now apply (wf_stages m)]. destruct H as (_ & _ & _ & Hc).
    split; auto. unfold dims, now, prev_t in *. rewrite Hc, I in *. auto.
  - apply core_of_ok in H; [|intros; now apply (wf_stages m)]. destruct H as (_ & _ & _ & Hc).
    split; auto. unfold dims, now, prev_t in *. rewrite Hc, I in *. auto.
Qed.

Lemma calm_interp t s : calm s -> calm (snd (interp_rk (OT := Rops) P t s)).
Proof.
  intros (W & D & Hh & Hu & Hp). rewrite interp_rk_cases.
  destruct (Reqb t (now s)); [repeat (split; auto)|]. destruct (Reqb t (prev_t s)); [repeat (split; auto)|].
  cbn zeta. assert (K : calm (if Rltb t (iupd (interp s)) then s else
     @set_interp Rops (@mkitp Rops (rk_cols s) (iF (interp s)) (now s)) s)).
  { destruct (Rltb t _); repeat (split; auto); try apply D; try apply W. cbn. unfold now. cbn. lra. }
  destruct (sdiv _ _); exact K.
Qed.

Lemma tidy_core s s' : calm s -> core_of m fuelc o rhs s = (Ret tt, s') -> tidy s'.
Proof.
  intros Hc H. pose proof (calm_core s _ _ Hc H) as Hc'. split; auto.
  destruct Hc as (W & D & Hh & Hu & Hp). destruct W as (Hb & Hst).
  cbn [len_history m] in Hb. cbn [n_stages_of m] in Hst. cbn [core_of m] in H.
  destruct (core_last_step _ _ _ _ _ _ _ _ _ _ _ Hb ltac:(now rewrite Hst, Nat.add_1_r) (proj1 Hsh) (proj2 Hsh) H)
    as (h & K & L & S & I & Hpt).
  split; [intros _; exists h, K; auto|]. left. rewrite I, Hpt. exact Hu.
Qed.
Lemma tidy_interp t s : tidy s -> tidy (snd (interp_rk (OT := Rops) P t s)).
Proof.
  intros (Hc & HK & HQ). split; [now apply calm_interp|]. rewrite interp_rk_cases.
  destruct (Reqb t (now s)); auto. destruct (Reqb t (prev_t s)); auto.
  cbn zeta. match goal with |- context [match ?o with Ret _ => (_, ?x) | _ => _ end] =>
    assert (K : forall r : outcome (@arr Rops), snd (match o with Ret v => (r, x) | Raise e => (Raise e, x) | Loop => (Loop, x) end) = x) by (intros; now destruct o)
  end.
  destruct (sdiv _ _); cbn [snd]; clear K; (destruct (Rltb t _); [auto|]); (split; [exact HK | right; reflexivity]).
Qed.

Lemma built_tidy s : built rhs m s -> length (state s) = n -> 0 <= hstep s -> tidy s.
Proof.
  intros Hb Dn0 Hh. assert (Dn1 : length (state s) = n /\ True) by auto. clear Dn0. pose proof (built_good rhs m s Hb) as (W & _).
  assert (Hpn : prev_t s = now s /\ iupd (interp s) = now s /\ iQ (interp s) = rk_cols s /\ dims n s).
  { inversion Hb as [? ? ? ? ? ? H|? g t0 y0 o' sel first ? Hf Hg H|? ? ? ? ? ? ? H|? ? ? ? ? ? ? ? ? ? ? H|? ? ? ? ? ? ? ? ? ? ? H]; subst; try (destruct H; fail).
    unfold init_var in H. destruct (init_base m g rhs t0 y0 None) as [s0| |] eqn:e; try discriminate.
    cbn [obind] in H. apply (init_base_spec m g rhs t0 y0 None s0 Hg) in e as (_ & f & Hrf & Hc & _).
    destruct (match max_step o' with Fin x => _ | PInf => _ end); [discriminate|]. destruct (ltb _ _); [discriminate|].
    match type of H with (let! h := ?x in _) = _ => destruct x as [h| |] end; cbn [obind] in H; try discriminate.
    cbn [m] in H. rewrite rk_update_R in H. injection H as <-. cbn. unfold rk_cols, prev_t, now. cbn.
    destruct Dn1 as (Dn & _). unfold dims. unfold state in Dn. cbn in Dn. cbn [cache set_interp set_h]. rewrite Hc in *. repeat split.
    - repeat constructor; exact Dn.
    - assert (length f = n) by (eapply Hk; [exact Dn | exact Hrf]). repeat constructor; assumption. }
  destruct Hpn as (H1 & H2 & H3 & D). split; [|split].
  - repeat (split; auto); try apply D; try apply W; try lra.
  - intros H. exfalso. rewrite H1 in H. lra.
  - right. exact H3.
Qed.

Lemma prev_is_first s : wf m s -> prev_t s = buf_t0 (cache s).
Proof.
  intros ((L & _) & _). cbn [len_history m] in L. unfold prev_t, buf_tp, buf_t0. rewrite L. cbn.
  now destruct (ts (cache s)).
Qed.
Lemma prev_dims s : wf m s -> dims n s -> length (prev_y s) = n /\ length (prev_f s) = n /\ length (state s) = n /\ length (deriv s) = n.
Proof.
  intros ((L1 & L2 & L3) & _) (D1 & D2). cbn [len_history m] in *. rewrite Forall_forall in D1, D2.
  unfold prev_y, buf_yp, prev_f, state, buf_y, deriv, buf_f. rewrite L2, L3. repeat split.
  - apply D1. apply nth_In. rewrite L2. cbn. lia.
  - apply D2. apply nth_In. rewrite L3. cbn. lia.
  - apply D1. destruct (ys (cache s)) as [|a [|b [|]]]; try discriminate. cbn. auto.
  - apply D2. destruct (fs (cache s)) as [|a [|b [|]]]; try discriminate. cbn. auto.
Qed.

Lemma dense_eval s h K t : wf m s -> dims n s -> now s = prev_t s + h -> prev_t s < now s ->
  stages s = K -> Forall (fun k => length k = n) K ->
  @vadd Rops (@vscale Rops (now s - prev_t s)
     (@lincomb Rops (length (prev_y s)) (@powers_from Rops ((t - prev_t s) / (now s - prev_t s)) ((t - prev_t s) / (now s - prev_t s)) (length (rk_cols s))) (rk_cols s))) (prev_y s)
  = rk_dense P (prev_t s) (prev_y s) h K t.
Proof.
  intros W D Hn Hlt HK FK. destruct (prev_dims s W D) as (Dp & _ & Dy & _).
  replace (now s - prev_t s) with h by lra.
  assert (Fc : Forall (fun k : list R => length k = n) (rk_cols s)).
  { apply Forall_forall. intros v Hv. unfold rk_cols in Hv. apply in_map_iff in Hv as (j & <- & _).
    unfold ysize. fold (state s). rewrite Dy. apply lincomb_len. rewrite HK. exact FK. }
  assert (Lr : length (rk_dense P (prev_t s) (prev_y s) h K t) = n) by (unfold rk_dense; rewrite map_length, seq_length; exact Dp).
  apply (vec_ext n).
  - apply vadd_len; auto. apply vscale_len. rewrite Dp. now apply lincomb_len.
  - exact Lr.
  - intros i Hi. rewrite (vadd_cmp n), vscale_cmp, Dp, (lincomb_cmp n) by (auto; apply vscale_len; rewrite ?Dp; now apply lincomb_len).
    unfold rk_dense. rewrite (nth_map_seq _ (length (prev_y s))) by (rewrite Dp; exact Hi).
    rewrite Rplus_comm. f_equal. f_equal.
    rewrite dot_map_Rsum with (d := []).
    assert (Lc : length (rk_cols s) = length (hd [] P)) by (unfold rk_cols; now rewrite map_length, seq_length).
    rewrite Lc.
    apply Rsum_ext. intros j Hj. f_equal.
    + rewrite powers_R by exact Hj. cbn [pow]. ring.
    + unfold rk_cols. rewrite (nth_map_seq _ (length (hd [] P))) by exact Hj.
      unfold ysize. fold (state s). rewrite Dy, HK.
      rewrite (lincomb_cmp n) by auto. rewrite dot_map_Rsum with (d := []). apply Rsum_ext. intros k Hk'. f_equal.
      apply (nth_map_d (fun row => nth j row 0)). now destruct j.
Qed.

Lemma tidy_dense s t : tidy s -> prev_t s < t < now s ->
  exists h K s', last_step rhs A B C s h K /\
    interpolate sv t s = (Ret (@Own Rops (rk_dense P (prev_t s) (prev_y s) h (K ++ [deriv s]) t)), s').
Proof.
  intros ((W & D & Hh & Hu & Hp) & HK & HQ) Ht.
  destruct (HK ltac:(lra)) as (h & K & HL & HS). exists h, K.
  assert (FK : Forall (fun k => length k = n) (K ++ [deriv s])).
  { destruct (prev_dims s W D) as (D1 & D2 & D3 & D4). apply Forall_app. split; [|now constructor].
    destruct HL as (HL & _). eapply (rk_step_dim n rhs Hk); [exact D1 | exact D2 | exact HL]. }
  unfold interpolate. fold (now s). rewrite <- (prev_is_first s W).
  replace (@leb Rops (prev_t s) t && @leb Rops t (now s))%bool with true
    by (symmetry; apply andb_true_intro; split; apply Rleb_true; lra).
  cbn [negb sv s_interp solver_of m interp_of]. rewrite interp_rk_cases.
  replace (Reqb t (now s)) with false by (symmetry; apply Reqb_false; lra).
  replace (Reqb t (prev_t s)) with false by (symmetry; apply Reqb_false; lra).
  cbn zeta. rewrite sdiv_R by lra.
  assert (HI : iQ (interp (if Rltb t (iupd (interp s)) then s else
     @set_interp Rops (@mkitp Rops (rk_cols s) (iF (interp s)) (now s)) s)) = rk_cols s).
  { destruct (Rltb t _) eqn:e; auto. apply Rltb_true in e. destruct HQ as [HQ|HQ]; auto. lra. }
  rewrite HI. eexists. split; [exact HL|]. f_equal. f_equal. f_equal.
  apply dense_eval; auto; [apply HL | lra].
Qed.

Lemma rk_clean_tidy fuel cs s0 s : built rhs m s0 -> length (state s0) = n -> 0 <= hstep s0 ->
  returns sv fuel cs s0 s -> tidy s.
Proof.
  intros Hb Dn Hh Hr. eapply (returns_inv sv tidy); [| |exact Hr|now apply built_tidy].
  - intros b x x' _ _ (Hc & _) H. eapply tidy_core; eauto.
  - intros t' x Hx. pose proof (tidy_interp t' x Hx) as Kt. cbn [sv s_interp solver_of m interp_of].
    destruct (@interp_rk Rops E P t' x) as [[]]; auto.
Qed.
Lemma rk_clean_dims fuel cs s0 s : built rhs m s0 -> length (state s0) = n -> 0 <= hstep s0 ->
  returns sv fuel cs s0 s -> wf m s /\ dims n s.
Proof. intros H1 H2 H3 H4. destruct (rk_clean_tidy _ _ _ _ H1 H2 H3 H4) as ((W & D & _) & _). auto. Qed.
Lemma C24_rk_clean fuel cs s0 s t : built rhs m s0 -> length (state s0) = n -> 0 <= hstep s0 ->
  returns sv fuel cs s0 s -> prev_t s < t < now s ->
  exists h K s', last_step rhs A B C s h K /\
    interpolate sv t s = (Ret (@Own Rops (rk_dense P (prev_t s) (prev_y s) h (K ++ [deriv s]) t)), s').
Proof. intros Hb Dn Hh Hr. apply tidy_dense. eapply rk_clean_tidy; eauto. Qed.
Lemma C24_rk_recovers fuel0 cs0 s0 b s1 fuel cs s t : built rhs m s0 -> length (state s0) = n -> 0 <= hstep s0 ->
  completes sv b (session sv fuel0 cs0 s0) s1 ->
  returns sv fuel cs s1 s -> prev_t s < t < now s ->
  exists h K s', last_step rhs A B C s h K /\
    interpolate sv t s = (Ret (@Own Rops (rk_dense P (prev_t s) (prev_y s) h (K ++ [deriv s]) t)), s').
Proof.
  intros Hb Dn Hh (_ & Hc) Hr. apply tidy_dense.
  assert (C0 : calm (session sv fuel0 cs0 s0)).
  { apply (session_inv sv calm); [| |now apply built_tidy].
    - intros b' x _ _ Hx. cbn [sv s_core solver_of]. destruct (core_of m fuelc o rhs x) as [r x'] eqn:e.
      cbn [snd]. eapply calm_core; eauto.
    - intros t' x Hx. now apply calm_interp. }
  eapply (returns_inv sv tidy); [| |exact Hr|eapply tidy_core; eauto].
  - intros b' x x' _ _ (Hx & _) H. eapply tidy_core; eauto.
  - intros t' x Hx. pose proof (tidy_interp t' x Hx) as Kt. cbn [sv s_interp solver_of m interp_of].
    destruct (@interp_rk Rops E P t' x) as [[]]; auto.
Qed.
End R.

(** ** DOP853 *)
Section Horner.
Open Scope R_scope.
Fixpoint horner_s (x : R) (i : nat) (l : list R) (y : R) : R :=
  match l with [] => y | f :: l' => horner_s x (i + 1) l' ((y + f) * (if Nat.even i then x else 1 - x)) end.
Lemma horner_app x f : forall l i y,
  horner_s x i (l ++ [f]) y = (horner_s x i l y + f) * (if Nat.even (i + length l) then x else 1 - x).
Proof.
  induction l as [|a l IH]; intros i y; cbn [app horner_s length].
  - now rewrite Nat.add_0_r.
  - rewrite IH. do 2 f_equal. now replace (i + 1 + length l)%nat with (i + S (length l))%nat by lia.
Qed.
Lemma horner_alt x l : horner_s x 0 (rev l) 0 = alt x l.
Proof.
  induction l as [|f l IH]; cbn [rev alt]; auto. rewrite horner_app, IH, rev_length. cbn [plus]. now rewrite (Rplus_comm f).
Qed.
Lemma dop_horner_spec n (x : R) (l : list (list R)) : forall i (y : list R), length y = n -> Forall (fun f => length f = n) l ->
  length (@dop_horner Rops x i l y) = n /\
  forall k, (k < n)%nat -> cmp k (@dop_horner Rops x i l y) = horner_s x i (map (fun f => cmp k f) l) (cmp k y).
Proof.
  induction l as [|f l IH]; intros i y Hy F; cbn [dop_horner]; [split; auto|].
  assert (Hf : length f = n) by now inversion F. assert (F' : Forall (fun f => length f = n) l) by now inversion F.
  assert (Hv : length (@vadd Rops y f) = n) by now apply vadd_len.
  destruct (IH (i + 1)%nat (if Nat.even i then map (fun v => @mul Rops v x) (@vadd Rops y f)
               else map (fun v => @mul Rops v (@sub Rops one x)) (@vadd Rops y f))) as (L & C); auto.
  { destruct (Nat.even i); now rewrite map_length. }
  split; [exact L|]. intros k Hk. rewrite C by auto. cbn [map horner_s]. f_equal.
  match goal with |- @eq _ ?a ?b => change (@eq R a b) end.
  replace (nth k y 0 + nth k f 0) with (@nth R k (@vadd Rops y f) 0) by (apply (vadd_cmp n); auto).
  destruct (Nat.even i).
  - rewrite (nth_map_d (fun v => @mul Rops v x)) with (d := 0); [reflexivity|]. cbn. lra.
  - rewrite (nth_map_d (fun v => @mul Rops v (@sub Rops one x))) with (d := 0); [rewrite one_R; reflexivity|]. cbn. lra.
Qed.
Lemma extra_stages rhs t y h rows : forall cs K K', length rows = length cs ->
  @dop_extra Rops rhs t y h (combine rows cs) (length K) K = Ret K' <-> @stages_of Rops rhs t y h rows cs K K'.
Proof.
  induction rows as [|a rows IH]; intros [|c cs] K K' Hl; try discriminate; cbn [combine dop_extra].
  - split; intros H; [injection H as <-; constructor | inversion H; subst; reflexivity].
  - assert (E1 : @vadd Rops y (map (fun x => @mul Rops x h) (@lincomb Rops (length y) (firstn (length K) a) (firstn (length K) K))) =
      @vadd Rops y (@vscale Rops h (@lincomb Rops (length y) (firstn (length K) a) K))).
    { rewrite firstn_all. f_equal. unfold vscale. apply map_ext. intros v. apply Rmult_comm. }
    assert (E2 : @add Rops t (@mul Rops c h) = @add Rops t (@mul Rops h c)).
    { change (t + c * h = t + h * c). apply (f_equal (Rplus t)). apply Rmult_comm. }
    rewrite E1, E2. clear E1 E2.
    destruct (rhs _ _) as [k| |] eqn:ek; cbn [obind].
    + specialize (IH cs (K ++ [k]) K' ltac:(now injection Hl)). rewrite app_length in IH. cbn [length] in IH. rewrite IH.
      split; intros H.
      * econstructor; eauto.
      * inversion H; subst. congruence.
    + split; intros H; [discriminate|]. inversion H; subst. congruence.
    + split; intros H; [discriminate|]. inversion H; subst. congruence.
Qed.
End Horner.
Section Tot.
Context {OT : Ops}.
Lemma dop_extra_total rhs t y h rows : total rhs -> forall k K e, dop_extra rhs t y h rows k K <> Raise e.
Proof.
  intros Ht. induction rows as [|[a c] rows IH]; intros k K e; cbn [dop_extra]; [discriminate|].
  match goal with |- context [rhs ?a ?b] => destruct (Ht a b) as (f & ->) end. cbn [obind]. apply IH.
Qed.
Lemma dop_extra_noloop rhs t y h rows : total rhs -> forall k K, dop_extra rhs t y h rows k K <> Loop.
Proof.
  intros Ht. induction rows as [|[a c] rows IH]; intros k K; cbn [dop_extra]; [discriminate|].
  match goal with |- context [rhs ?a ?b] => destruct (Ht a b) as (f & ->) end. cbn [obind]. apply IH.
Qed.
End Tot.

Section RD.
Context {E : @Env Rops}.
Open Scope R_scope.
Variables (A : list (list R)) (B C E5 E3 : list R) (order : Z) (D Af : list (list R)) (Cf : list R).
Variables (fuelc : nat) (o : @options Rops) (rhs : @rhs_t Rops) (tb : @ext Rops) (n : nat).
Let m : @meth Rops := @Dop Rops A B C E5 E3 order D Af Cf.
Let sv := solver_of m fuelc o rhs tb.
Hypothesis Hsh : length C = length A /\ A <> [].
Hypothesis Hk : keeps_dim n rhs.
Hypothesis Ho : sane o.
Hypothesis HA : length A = dop_n_stages.
Hypothesis HCf : length Cf = length Af.

Notation st := (@st Rops).
(** what every sequence of calls keeps *)
Definition dcalm (s : st) : Prop :=
  wf m s /\ dims n s /\ 0 <= hstep s /\ iupd (interp s) <= now s /\ prev_t s <= now s.
(** the rows of F, [K] being all the stages *)
Definition dop_F (s : st) (K : list (list R)) : list (list R) :=
  let h := now s - prev_t s in
  let d := @vsub Rops (state s) (prev_y s) in
  let f_old := hd [] K in
  d :: @vsub Rops (@vscale Rops h f_old) d ::
  @vsub Rops (@vscale Rops 2 d) (@vscale Rops h (@vadd Rops (deriv s) f_old)) ::
  map (fun row => @vscale Rops h (@lincomb Rops (length (prev_y s)) row K)) D.
Definition all_stages (s : st) (K : list (list R)) : Prop :=
  @stages_of Rops rhs (prev_t s) (prev_y s) (now s - prev_t s)
    (skipn (dop_n_stages + 1) Af) (skipn (dop_n_stages + 1) Cf) (stages s) K.
(** what calls that return keep *)
Definition dtidy (s : st) : Prop :=
  dcalm s /\
  (prev_t s < now s -> exists h K, last_step rhs A B C s h K /\ stages s = K ++ [deriv s]) /\
  (iupd (interp s) <= prev_t s \/ exists K, all_stages s K /\ iF (interp s) = dop_F s K).

Lemma dop_update_R (s : st) : wf m s ->
  (forall K, all_stages s K -> @dop_update Rops dop_n_stages D Af Cf rhs s =
     (Ret tt, @set_interp Rops (@mkitp Rops (iQ (interp s)) (dop_F s K) (now s)) s)) /\
  (forall s', @dop_update Rops dop_n_stages D Af Cf rhs s = (Ret tt, s') -> exists K, all_stages s K) /\
  (total rhs -> exists K, all_stages s K) /\
  (forall r s', @dop_update Rops dop_n_stages D Af Cf rhs s = (r, s') -> r = Ret tt \/ s' = s).
Proof.
  intros (_ & W0). assert (W : length (stages s) = (dop_n_stages + 1)%nat) by (rewrite <- HA; exact W0).
  assert (EX : forall K', @dop_extra Rops rhs (prev_t s) (prev_y s) (now s - prev_t s)
     (combine (skipn (dop_n_stages + 1) Af) (skipn (dop_n_stages + 1) Cf)) (dop_n_stages + 1) (stages s) = Ret K' <-> all_stages s K').
  { intros K'. rewrite <- W. unfold all_stages. rewrite <- W. apply extra_stages. rewrite !skipn_length. now rewrite HCf. }
  unfold dop_update. fold (prev_t s) (prev_y s) (now s) (state s) (deriv s).
  change (@sub Rops (now s) (prev_t s)) with (now s - prev_t s). unfold bind, lift.
  destruct (dop_extra _ _ _ _ _ _ _) as [K| |] eqn:e.
  - assert (HKs : all_stages s K) by now apply EX.
    split; [|split; [|split]].
    + intros K' HK'. apply EX in HK'. assert (K' = K) by congruence. subst K'. rewrite two_R. reflexivity.
    + intros s' _. now exists K.
    + intros _. now exists K.
    + intros r s' H. injection H as <- <-. now left.
  - split; [|split; [|split]].
    + intros K HK. apply EX in HK. congruence.
    + discriminate.
    + intros Ht. exfalso. exact (dop_extra_total _ _ _ _ _ Ht _ _ _ e).
    + intros r s' H. injection H as <- <-. now right.
  - split; [|split; [|split]].
    + intros K HK. apply EX in HK. congruence.
    + discriminate.
    + intros Ht. exfalso. exact (dop_extra_noloop _ _ _ _ _ Ht _ _ e).
    + intros r s' H. injection H as <- <-. now right.
Qed.
Lemma interp_dop_cases t (s : st) :
  interp_dop (OT := Rops) dop_n_stages D Af Cf rhs t s =
  if Reqb t (now s) then (Ret (CacheRow (length (ys (cache s)) - 1)), s)
  else if Reqb t (prev_t s) then (Ret (CacheRow (length (ys (cache s)) - 2)), s)
  else match (if Rltb t (iupd (interp s)) then (Ret tt, s) else @dop_update Rops dop_n_stages D Af Cf rhs s) with
    | (Ret _, s1) =>
      match @sdiv Rops E (t - prev_t s) (now s - prev_t s) with
      | Ret x => (Ret (Own (@vadd Rops (@dop_horner Rops x 0 (rev (iF (interp s1))) (@vzero Rops (length (prev_y s)))) (prev_y s))), s1)
      | Raise e => (Raise e, s1)
      | Loop => (Loop, s1)
      end
    | (Raise e, s1) => (Raise e, s1)
    | (Loop, s1) => (Loop, s1)
    end.
Proof.
  unfold interp_dop. fold (now s) (prev_t s) (prev_y s).
  change (@eqb Rops) with Reqb. change (@ltb Rops) with Rltb.
  destruct (Reqb t (now s)); auto. destruct (Reqb t (prev_t s)); auto.
  unfold bind. destruct (Rltb t _); unfold ret; cbv beta iota; [reflexivity|].
  destruct (dop_update _ _ _ _ _ _) as [[]]; auto.
Qed.

Lemma dcalm_core s r s' : dcalm s -> core_of m fuelc o rhs s = (r, s') -> dcalm s'.
Proof.
  intros (W & Dm & Hh & Hu & Hp) H.
  pose proof (core_wf m fuelc o rhs s W) as W'. rewrite H in W'. cbn [snd] in W'.
  assert (Hb := W). destruct Hb as (Hb & Hst). cbn [len_history m] in Hb. cbn [n_stages_of m] in Hst.
  pose proof H as H'. cbn [core_of m] in H'.
  destruct (core_fsal_R _ _ _ _ _ _ _ _ _ _ _ _ Ho (error_exponent_pos order) Hb H' Hh) as (Hh' & Hn).
  pose proof I as I0. assert (I : interp s' = interp s).
  { apply core_of_ok in H; [|intros; now apply (wf_stages m)]. unfold core_ok in H. tauto. }
  destruct r as [[]| |].
  - destruct (core_last_step _ _ _ _ _ _ _ _ _ _ _ Hb ltac:(now rewrite Hst, Nat.add_1_r) (proj1 Hsh) (proj2 Hsh) H') as (h & K & _ & _ & _ & Hpt).
    split; [exact W'|]. split; [|split; [exact Hh'|split]].
    + exact (core_dim n rhs Hk m fuelc o s s' I0 W Hsh Dm H).
    + rewrite I. lra.
    + rewrite Hpt. apply Hn.
  - apply core_of_ok in H; [|intros; now apply (wf_stages m)]. destruct H as (_ & _ & _ & Hc).
    split; auto. unfold dims, now, prev_t in *. rewrite Hc, I in *. auto.
  - apply core_of_ok in H; [|intros; now apply (wf_stages m)]. destruct H as (_ & _ & _ & Hc).
    split; auto. unfold dims, now, prev_t in *. rewrite Hc, I in *. auto.
Qed.

Lemma dcalm_interp t s : dcalm s -> dcalm (snd (interp_dop (OT := Rops) dop_n_stages D Af Cf rhs t s)).
Proof.
  intros Hc. rewrite interp_dop_cases.
  destruct (Reqb t (now s)); auto. destruct (Reqb t (prev_t s)); auto.
  assert (K : dcalm (snd (if Rltb t (iupd (interp s)) then (Ret tt, s) else @dop_update Rops dop_n_stages D Af Cf rhs s))).
  { destruct (Rltb t _); auto. destruct Hc as (W & Dm & Hh & Hu & Hp).
    destruct (dop_update_R s W) as (U1 & U2 & _ & U4).
    destruct (dop_update _ _ _ _ _ s) as [r s'] eqn:e. destruct (U4 _ _ eq_refl) as [-> | ->]; [|repeat (split; auto); try apply Dm; try apply W].
    destruct (U2 s' eq_refl) as (K & HK). specialize (U1 K HK). injection U1 as ->.
    repeat (split; auto); try apply Dm; try apply W. cbn. unfold now. cbn. lra. }
  destruct (if Rltb t _ then _ else _) as [[[]| |] s1]; auto. destruct (sdiv _ _); exact K.
Qed.

Lemma dtidy_core s s' : dcalm s -> core_of m fuelc o rhs s = (Ret tt, s') -> dtidy s'.
Proof.
  intros Hc H. pose proof (dcalm_core s _ _ Hc H) as Hc'. split; auto.
  destruct Hc as (W & Dm & Hh & Hu & Hp). destruct W as (Hb & Hst).
  cbn [len_history m] in Hb. cbn [n_stages_of m] in Hst. cbn [core_of m] in H.
  destruct (core_last_step _ _ _ _ _ _ _ _ _ _ _ Hb ltac:(now rewrite Hst, Nat.add_1_r) (proj1 Hsh) (proj2 Hsh) H)
    as (h & K & L & S & I & Hpt).
  split; [intros _; exists h, K; auto|]. left. rewrite I, Hpt. exact Hu.
Qed.
Lemma dtidy_interp t s : dtidy s -> dtidy (snd (interp_dop (OT := Rops) dop_n_stages D Af Cf rhs t s)).
Proof.
  intros Hs. rewrite interp_dop_cases.
  destruct (Reqb t (now s)); auto. destruct (Reqb t (prev_t s)); auto.
  assert (K : dtidy (snd (if Rltb t (iupd (interp s)) then (Ret tt, s) else @dop_update Rops dop_n_stages D Af Cf rhs s))).
  { destruct (Rltb t _); auto. pose proof Hs as ((W & Dm & Hh & Hu & Hp) & HK & HQ).
    destruct (dop_update_R s W) as (U1 & U2 & _ & U4).
    destruct (dop_update _ _ _ _ _ s) as [r s'] eqn:e. destruct (U4 _ _ eq_refl) as [-> | ->]; auto.
    destruct (U2 s' eq_refl) as (K & HK'). specialize (U1 K HK'). injection U1 as ->.
    split; [|split; [exact HK | right; exists K; split; [exact HK' | reflexivity]]].
    repeat (split; auto); try apply Dm; try apply W. cbn. unfold now. cbn. lra. }
  destruct (if Rltb t _ then _ else _) as [[[]| |] s1]; auto. destruct (sdiv _ _); exact K.
Qed.

Lemma dbuilt_tidy s : built rhs m s -> length (state s) = n -> 0 <= hstep s -> dtidy s.
Proof.
  intros Hb Dn0 Hh. assert (Dn1 : length (state s) = n /\ True) by auto. clear Dn0. pose proof (built_good rhs m s Hb) as (W & _).
  assert (Hpn : prev_t s = now s /\ iupd (interp s) = now s /\ dims n s).
  { inversion Hb as [? ? ? ? ? ? H|? g t0 y0 o' sel first ? Hf Hg H|? ? ? ? ? ? ? H|? ? ? ? ? ? ? ? ? ? ? H|? ? ? ? ? ? ? ? ? ? ? H]; subst; try (destruct H; fail).
    unfold init_var in H. destruct (init_base m g rhs t0 y0 None) as [s0| |] eqn:e; try discriminate.
    cbn [obind] in H. apply (init_base_spec m g rhs t0 y0 None s0 Hg) in e as (W0 & f & Hrf & Hc & _).
    destruct (match max_step o' with Fin x => _ | PInf => _ end); [discriminate|]. destruct (ltb _ _); [discriminate|].
    match type of H with (let! h := ?x in _) = _ => destruct x as [h| |] end; cbn [obind] in H; try discriminate.
    cbn [m] in H. assert (W1 : wf m (set_h h s0)).
    { destruct W0 as (W0 & _). exact W0. }
    destruct (dop_update_R _ W1) as (U1 & U2 & _ & U4).
    destruct (dop_update _ _ _ _ _ (set_h h s0)) as [[[]| |] s1] eqn:eu; try discriminate. injection H as <-.
    destruct (U2 s1 eq_refl) as (K & HK). specialize (U1 K HK). injection U1 as ->.
    cbn. unfold prev_t, now. cbn.
    destruct Dn1 as (Dn & _). unfold dims. unfold state in Dn. cbn in Dn. cbn [cache set_interp set_h]. rewrite Hc in *. repeat split.
    - repeat constructor; exact Dn.
    - assert (length f = n) by (eapply Hk; [exact Dn | exact Hrf]). repeat constructor; assumption. }
  destruct Hpn as (H1 & H2 & Dm). split; [|split].
  - repeat (split; auto); try apply Dm; try apply W; try lra.
  - intros H. exfalso. rewrite H1 in H. lra.
  - left. lra.
Qed.

Lemma dprev_is_first s : wf m s -> prev_t s = buf_t0 (cache s).
Proof.
  intros ((L & _) & _). cbn [len_history m] in L. unfold prev_t, buf_tp, buf_t0. rewrite L. cbn.
  now destruct (ts (cache s)).
Qed.
Lemma dprev_dims s : wf m s -> dims n s -> length (prev_y s) = n /\ length (prev_f s) = n /\ length (state s) = n /\ length (deriv s) = n.
Proof.
  intros ((L1 & L2 & L3) & _) (D1 & D2). cbn [len_history m] in *. rewrite Forall_forall in D1, D2.
  unfold prev_y, buf_yp, prev_f, state, buf_y, deriv, buf_f. rewrite L2, L3. repeat split.
  - apply D1. apply nth_In. rewrite L2. cbn. lia.
  - apply D2. apply nth_In. rewrite L3. cbn. lia.
  - apply D1. destruct (ys (cache s)) as [|a [|b [|]]]; try discriminate. cbn. auto.
  - apply D2. destruct (fs (cache s)) as [|a [|b [|]]]; try discriminate. cbn. auto.
Qed.

Lemma ddense_eval s h K t : wf m s -> dims n s -> now s = prev_t s + h -> prev_t s < now s ->
  Forall (fun k => length k = n) K -> K <> [] ->
  @vadd Rops (@dop_horner Rops ((t - prev_t s) / (now s - prev_t s)) 0 (rev (dop_F s K)) (@vzero Rops (length (prev_y s)))) (prev_y s)
  = dop_dense D (prev_t s) (prev_y s) (state s) (deriv s) h K t.
Proof.
  intros W Dm Hn Hlt FK NK. destruct (dprev_dims s W Dm) as (Dp & _ & Dy & Df).
  assert (Hh : now s - prev_t s = h) by lra.
  assert (Lh : length (hd [] K) = n) by (destruct K; [congruence|]; now inversion FK).
  assert (Ld : length (@vsub Rops (state s) (prev_y s)) = n) by now apply vsub_len.
  assert (FF : Forall (fun f => length f = n) (dop_F s K)).
  { unfold dop_F. cbn zeta. repeat constructor.
    - exact Ld.
    - apply vsub_len; auto. now apply vscale_len.
    - apply vsub_len; [now apply vscale_len|]. apply vscale_len. now apply vadd_len.
    - apply Forall_forall. intros v Hv. apply in_map_iff in Hv as (row & <- & _). apply vscale_len.
      rewrite Dp. now apply lincomb_len. }
  assert (FR : Forall (fun f => length f = n) (rev (dop_F s K))).
  { apply Forall_forall. intros f Hf. apply in_rev in Hf. rewrite Forall_forall in FF. now apply FF. }
  destruct (dop_horner_spec n ((t - prev_t s) / (now s - prev_t s)) (rev (dop_F s K)) 0 (@vzero Rops (length (prev_y s)))
    ltac:(rewrite Dp; apply vzero_len) FR) as (L & HC).
  apply (vec_ext n).
  - now apply vadd_len.
  - unfold dop_dense. now rewrite map_length, seq_length.
  - intros i Hi. rewrite (vadd_cmp n), HC by auto. unfold dop_dense.
    rewrite (nth_map_seq _ (length (prev_y s))) by (rewrite Dp; exact Hi).
    rewrite vzero_cmp, map_rev, horner_alt, Rplus_comm, Hh. f_equal. f_equal.
    unfold dop_F, dop_coeffs. cbn zeta. rewrite Hh. cbn [map app].
    assert (H0 : nth 0 K [] = hd [] K) by now destruct K.
    rewrite !(vsub_cmp n), !vscale_cmp, !(vsub_cmp n), !(vadd_cmp n) by (auto using vscale_len, vadd_len).
    rewrite H0. do 3 f_equal. rewrite map_map. apply map_ext. intros row.
    rewrite vscale_cmp, Dp, (lincomb_cmp n) by auto. f_equal.
    exact (dot_map_Rsum (fun k : list R => nth i k 0) K [] row).
Qed.

Lemma dtidy_dense s t : dtidy s -> prev_t s < t < now s ->
  exists h K, last_step rhs A B C s h K /\
   (forall a s', interpolate sv t s = (Ret a, s') ->
    exists K', @stages_of Rops rhs (prev_t s) (prev_y s) h (skipn (dop_n_stages + 1) Af) (skipn (dop_n_stages + 1) Cf) (K ++ [deriv s]) K' /\
      a = @Own Rops (dop_dense D (prev_t s) (prev_y s) (state s) (deriv s) h K' t)) /\
   (total rhs -> exists a s', interpolate sv t s = (Ret a, s')).
Proof.
  intros ((W & Dm & Hh & Hu & Hp) & HK & HQ) Ht.
  destruct (HK ltac:(lra)) as (h & K & HL & HS). exists h, K. split; [exact HL|].
  assert (Hnow : now s = prev_t s + h) by apply HL. assert (Hdh : now s - prev_t s = h) by lra.
  assert (FK : Forall (fun k => length k = n) (K ++ [deriv s])).
  { destruct (dprev_dims s W Dm) as (D1 & D2 & D3 & D4). apply Forall_app. split; [|now constructor].
    destruct HL as (HL & _). eapply (rk_step_dim n rhs Hk); [exact D1 | exact D2 | exact HL]. }
  assert (IE : interpolate sv t s = 
    match (if Rltb t (iupd (interp s)) then (Ret tt, s) else @dop_update Rops dop_n_stages D Af Cf rhs s) with
    | (Ret _, s1) => (Ret (Own (@vadd Rops (@dop_horner Rops ((t - prev_t s) / (now s - prev_t s)) 0 (rev (iF (interp s1))) (@vzero Rops (length (prev_y s)))) (prev_y s))), s1)
    | (Raise e, s1) => (Raise e, s1)
    | (Loop, s1) => (Loop, s1)
    end).
  { unfold interpolate. fold (now s). rewrite <- (dprev_is_first s W).
    replace (@leb Rops (prev_t s) t && @leb Rops t (now s))%bool with true
      by (symmetry; apply andb_true_intro; split; apply Rleb_true; lra).
    cbn [negb sv s_interp solver_of m interp_of]. rewrite interp_dop_cases.
    replace (Reqb t (now s)) with false by (symmetry; apply Reqb_false; lra).
    replace (Reqb t (prev_t s)) with false by (symmetry; apply Reqb_false; lra).
    destruct (if Rltb t _ then _ else _) as [[[]| |] s1]; auto. rewrite sdiv_R by lra. reflexivity. }
  assert (ST : forall s1, (if Rltb t (iupd (interp s)) then (Ret tt, s) else @dop_update Rops dop_n_stages D Af Cf rhs s) = (Ret tt, s1) ->
    exists K', all_stages s K' /\ iF (interp s1) = dop_F s K').
  { intros s1 H. destruct (Rltb t _) eqn:e.
    - injection H as <-. apply Rltb_true in e. destruct HQ as [HQ|HQ]; [lra | exact HQ].
    - destruct (dop_update_R s W) as (U1 & U2 & _ & _). destruct (U2 s1 H) as (K' & HK'). exists K'. split; auto.
      rewrite (U1 K' HK') in H. injection H as <-. reflexivity. }
  split.
  - intros a s' Hi. rewrite IE in Hi. destruct (if Rltb t _ then _ else _) as [[[]| |] s1]; try discriminate.
    injection Hi as <- <-. destruct (ST s1 eq_refl) as (K' & HK' & HF). unfold all_stages in HK'. rewrite Hdh, HS in HK'.
    exists K'. split; auto. rewrite HF. f_equal. destruct (dprev_dims s W Dm) as (D1 & D2 & D3 & D4).
    apply ddense_eval; auto.
    + lra.
    + eapply (stages_dim n rhs Hk); [exact D1 | exact HK' | exact FK].
    + intros ->. apply stages_len in HK' as (L & _). rewrite app_length in L. cbn in L. lia.
  - intros HT. destruct (dop_update_R s W) as (U1 & _ & U3 & _). destruct (U3 HT) as (K' & HK').
    rewrite IE. destruct (Rltb t _); [eexists; eexists; reflexivity|]. rewrite (U1 K' HK'). eexists. eexists. reflexivity.
Qed.

Lemma dop_clean_tidy fuel cs s0 s : built rhs m s0 -> length (state s0) = n -> 0 <= hstep s0 ->
  returns sv fuel cs s0 s -> dtidy s.
Proof.
  intros Hb Dn Hh Hr. eapply (returns_inv sv dtidy); [| |exact Hr|now apply dbuilt_tidy].
  - intros b x x' _ _ (Hc & _) H. eapply dtidy_core; eauto.
  - intros t' x Hx. pose proof (dtidy_interp t' x Hx) as Kt. cbn [sv s_interp solver_of m interp_of].
    destruct (@interp_dop Rops E dop_n_stages D Af Cf rhs t' x) as [[]]; auto.
Qed.
Lemma dop_clean_dims fuel cs s0 s : built rhs m s0 -> length (state s0) = n -> 0 <= hstep s0 ->
  returns sv fuel cs s0 s -> wf m s /\ dims n s.
Proof. intros H1 H2 H3 H4. destruct (dop_clean_tidy _ _ _ _ H1 H2 H3 H4) as ((W & D1 & _) & _). auto. Qed.
Lemma C24_dop_clean fuel cs s0 s t : built rhs m s0 -> length (state s0) = n -> 0 <= hstep s0 ->
  returns sv fuel cs s0 s -> prev_t s < t < now s ->
  exists h K, last_step rhs A B C s h K /\
   (forall a s', interpolate sv t s = (Ret a, s') ->
    exists K', @stages_of Rops rhs (prev_t s) (prev_y s) h (skipn (dop_n_stages + 1) Af) (skipn (dop_n_stages + 1) Cf) (K ++ [deriv s]) K' /\
      a = @Own Rops (dop_dense D (prev_t s) (prev_y s) (state s) (deriv s) h K' t)) /\
   (total rhs -> exists a s', interpolate sv t s = (Ret a, s')).
Proof. intros Hb Dn Hh Hr. apply dtidy_dense. eapply dop_clean_tidy; eauto. Qed.
Lemma C24_dop_recovers fuel0 cs0 s0 b s1 fuel cs s t : built rhs m s0 -> length (state s0) = n -> 0 <= hstep s0 ->
  completes sv b (session sv fuel0 cs0 s0) s1 ->
  returns sv fuel cs s1 s -> prev_t s < t < now s ->
  exists h K, last_step rhs A B C s h K /\
   (forall a s', interpolate sv t s = (Ret a, s') ->
    exists K', @stages_of Rops rhs (prev_t s) (prev_y s) h (skipn (dop_n_stages + 1) Af) (skipn (dop_n_stages + 1) Cf) (K ++ [deriv s]) K' /\
      a = @Own Rops (dop_dense D (prev_t s) (prev_y s) (state s) (deriv s) h K' t)) /\
   (total rhs -> exists a s', interpolate sv t s = (Ret a, s')).
Proof.
  intros Hb Dn Hh (_ & Hc) Hr. apply dtidy_dense.
  assert (C0 : dcalm (session sv fuel0 cs0 s0)).
  { apply (session_inv sv dcalm); [| |now apply dbuilt_tidy].
    - intros b' x _ _ Hx. cbn [sv s_core solver_of]. destruct (core_of m fuelc o rhs x) as [r x'] eqn:e.
      cbn [snd]. eapply dcalm_core; eauto.
    - intros t' x Hx. now apply dcalm_interp. }
  eapply (returns_inv sv dtidy); [| |exact Hr|eapply dtidy_core; eauto].
  - intros b' x x' _ _ (Hx & _) H. eapply dtidy_core; eauto.
  - intros t' x Hx. pose proof (dtidy_interp t' x Hx) as Kt. cbn [sv s_interp solver_of m interp_of].
    destruct (@interp_dop Rops E dop_n_stages D Af Cf rhs t' x) as [[]]; auto.
Qed.
End RD.
