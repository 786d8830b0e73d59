(** Corresponding problems: the constructors. *)
From Coq Require Import List ZArith Bool Arith Lia.
From Verif Require Import Base Scalar Vec MBuffer MZeros MSteps MApi MClasses Spec SpecInst SpecRK SpecEqv PCore PHist PEqv1 PEqv2 PEqv3.
Import ListNotations.

Section Init.
Context {OT : Ops} {E : Env}.
Variables (f : T -> T) (g : vec -> vec) (ok : vec -> Prop) (cls : meth -> Prop).
Hypothesis f_lt : forall a b, ltb (f a) (f b) = ltb a b.
Hypothesis f_le : forall a b, leb (f a) (f b) = leb a b.
Hypothesis f_eq : forall a b, eqb (f a) (f b) = eqb a b.
Hypothesis f_add : forall a h, add (f a) h = f (add a h).
Hypothesis f_mid : forall a b, div (add (f a) (f b)) two = f (div (add a b) two).
Hypothesis f_max : forall a b, npmax (f a) (f b) = f (npmax a b).
Hypothesis f_sort : forall l, np_argsort (map f l) = np_argsort l.
Variables (rhs rhs' : rhs_t).
Hypothesis Hr : corr_rhs f g ok rhs rhs'.
Hypothesis Hd : forall t y k, ok y -> rhs t y = Ret k -> ok k.
Definition fits m L nK := cls m /\ len_history m = S (S L) /\ n_stages_of m = nK /\ (is_erk m -> shaped m).
Hypothesis Hcore : forall m L nK fuelc o, fits m L nK ->
  msim f g ok L nK (negb (is_fixed m)) (fun _ _ => True) (core_of m fuelc o rhs) (core_of m fuelc o rhs').
Hypothesis Hint : forall m L nK t, fits m L nK ->
  msim f g ok L nK (negb (is_fixed m)) (rarr g ok L) (interp_of m rhs t) (interp_of m rhs' (f t)).

Lemma map_rep {A B} (h : A -> B) x n : map h (repeat x n) = repeat (h x) n.
Proof. induction n; cbn; congruence. Qed.
Definition dummy (s : st) : st := set_interp (mkitp [] [] (f zero)) s.
Lemma base_rel m L nK vr gb gb' t0 y0 h : fits m L nK -> garbage_ok m gb -> garbage_ok m gb' -> ok y0 ->
  (vr = true -> g_K gb' = map g (g_K gb) /\ Forall ok (g_K gb)) ->
  corr_out (fun s s' => rel f g ok L nK vr s (dummy s')) (init_base m gb rhs t0 y0 h) (init_base m gb' rhs' (f t0) (g y0) h).
Proof.
  intros (_ & HL & HK & _) G G' H0 Hv. pose proof (Hr t0 y0 H0) as Er.
  destruct (init_base m gb rhs t0 y0 h) as [s|e|] eqn:e1.
  - pose proof e1 as e1'. apply init_base_spec in e1 as (_ & v & Hf & Hc & Hh); auto.
    destruct (init_base m gb' rhs' (f t0) (g y0) h) as [s'|e|] eqn:e2.
    2,3: unfold init_base in e2; rewrite Er, Hf in e2; discriminate.
    pose proof e2 as e2'. apply init_base_spec in e2 as (_ & v' & Hf' & Hc' & Hh'); auto.
    rewrite Er, Hf in Hf'. injection Hf' as <-. constructor.
    assert (S1 : stages s = g_K gb) by (unfold init_base in e1'; rewrite Hf in e1'; injection e1' as <-; reflexivity).
    assert (S2 : stages s' = g_K gb') by (unfold init_base in e2'; rewrite Er, Hf in e2'; injection e2' as <-; reflexivity).
    assert (I1 : interp s = mkitp [] [] zero) by (unfold init_base in e1'; rewrite Hf in e1'; injection e1' as <-; reflexivity).
    unfold rel, dummy. cbn [cache set_interp hstep stages interp iQ iF iupd]. rewrite Hc, Hc', Hh, Hh', S1, S2, I1, HL. cbn [ts ys fs iQ iF iupd].
    rewrite !repeat_length. split; [auto|]. split; [unfold corr_hist; cbn [ts ys fs]; rewrite !map_rep; auto|].
    split; [split; [apply Forall_forall; intros x Hx; apply repeat_spec in Hx; now subst|split; [apply Forall_forall; intros x Hx; apply repeat_spec in Hx; subst; eapply Hd; eauto|intros q; now apply Hv]]|].
    split; [reflexivity|]. destruct G as (_ & _ & _ & G), G' as (_ & _ & _ & G'). rewrite HK in G, G'. split; [split; [exact G|split; [exact G'|intros q; now apply Hv]]|]. intros _. auto.
  - unfold init_base in *. rewrite Er. destruct (rhs t0 y0); try discriminate. injection e1 as <-. constructor.
  - unfold init_base in *. rewrite Er. destruct (rhs t0 y0); try discriminate. constructor.
Qed.
Lemma rel_dummy m L nK s s' : fits m L nK -> rel f g ok L nK false s (dummy s') <-> rel f g ok L nK false s s'.
Proof. intros _. unfold rel, dummy. cbn [cache set_interp hstep stages interp]. split; intros (A & B & C & D & F & _); repeat split; auto; try apply A; try apply B; try apply C; try apply F; discriminate. Qed.
Lemma rk_rel m L nK gb gb' t0 y0 h : fits m L nK -> garbage_ok m gb -> garbage_ok m gb' -> ok y0 ->
  corr_out (rel f g ok L nK false) (init_rk m gb rhs t0 y0 h) (init_rk m gb' rhs' (f t0) (g y0) h).
Proof.
  intros Hm G G' H0. unfold init_rk. destruct (base_rel m L nK false gb gb' t0 y0 h Hm G G' H0 ltac:(discriminate)) as [s s' H| |]; constructor.
  now apply (rel_dummy m L nK).
Qed.

(** ** multistep classes *)
Lemma iterate_rel L nK k : forall s s', rel f g ok L nK false s s' ->
  rel f g ok L nK false (set_cache (iterate k (fun c => push c (buf_t c) (buf_y c) (buf_f c)) (cache s)) s)
     (set_cache (iterate k (fun c => push c (buf_t c) (buf_y c) (buf_f c)) (cache s')) s').
Proof.
  induction k as [|k IH]; intros s s' Hs; [destruct s, s'; exact Hs|]. cbn [iterate].
  pose proof (rel_push f g ok L nK false s s' (buf_t (cache s)) _ _ _ _ Hs (rel_y _ _ _ _ _ _ _ _ Hs) (rel_f _ _ _ _ _ _ _ _ Hs)) as H1.
  rewrite <- (rel_t _ _ _ _ _ _ _ _ Hs) in H1. exact (IH _ _ H1).
Qed.
Lemma loop_rel L nK L1 nK1 sv sv' : (forall n u, msim f g ok L1 nK1 false (rstep f g ok L1) (step sv 0 n u) (step sv' 0 n (option_map (ext_map f) u))) ->
  forall n s1 s1' s s', rel f g ok L1 nK1 false s1 s1' -> rel f g ok L nK false s s' ->
  corr_out (fun c c' => rel f g ok L nK false (set_cache c s) (set_cache c' s')) (fs_fixed_loop n sv s1 (cache s)) (fs_fixed_loop n sv' s1' (cache s')).
Proof.
  intros Hst. induction n as [|n IH]; intros s1 s1' s s' H1 Hs; cbn [fs_fixed_loop].
  - constructor. destruct s, s'; exact Hs.
  - destruct (Hst None None s1 s1' H1) as (K1 & K2). cbn [option_map] in K1, K2.
    destruct (step sv 0 None None s1) as [o x], (step sv' 0 None None s1') as [o' x']. cbn [fst snd] in *.
    destruct K1; try constructor.
    pose proof (rel_push f g ok L nK false s s' (buf_t (cache x)) _ _ _ _ Hs (rel_y _ _ _ _ _ _ _ _ K2) (rel_f _ _ _ _ _ _ _ _ K2)) as Hp.
    rewrite <- (rel_t _ _ _ _ _ _ _ _ K2) in Hp. exact (IH _ _ _ _ K2 Hp).
Qed.
Definition rfs (t0 : T) (y0 : vec) (h : T) (fs fs' : first_stepper) : Prop :=
  match fs, fs' with
  | FSNone, FSNone => True
  | FSFixed mk, FSFixed mk' => corr_out (fun p p' => exists m1 L1 nK1 fuel1 o1, fits m1 L1 nK1 /\ is_fixed m1 = true /\
      fst p = solver_of m1 fuel1 o1 rhs PInf /\ fst p' = solver_of m1 fuel1 o1 rhs' PInf /\ rel f g ok L1 nK1 false (snd p) (snd p'))
      (mk t0 y0 h) (mk' (f t0) (g y0) h)
  | _, _ => False
  end.
Lemma ms_rel m L nK gb gb' t0 y0 h fs fs' fuel : fits m L nK -> garbage_ok m gb -> garbage_ok m gb' -> ok y0 ->
  rfs t0 y0 (match h with Some x => x | None => one end) fs fs' ->
  corr_out (rel f g ok L nK false) (init_ms m gb rhs t0 y0 h fs fuel) (init_ms m gb' rhs' (f t0) (g y0) h fs' fuel).
Proof.
  intros Hm G G' H0 Hfs. unfold init_ms.
  pose proof (base_rel m L nK false gb gb' t0 y0 h Hm G G' H0 ltac:(discriminate)) as Hb.
  destruct (init_base m gb rhs t0 y0 h) as [s|e|] eqn:e1, (init_base m gb' rhs' (f t0) (g y0) h) as [s'|e'|] eqn:e2; inversion Hb; subst; try constructor.
  clear Hb. match goal with H : rel _ _ _ _ _ _ _ _ |- _ => apply (proj1 (rel_dummy m L nK _ _ Hm)) in H; rename H into Hs end.
  cbn [obind].
  apply init_base_spec in e1 as (_ & v & Hf & Hc & Hh); auto.
  assert (Hn : buf_t (cache s) = t0). { unfold buf_t. rewrite Hc. destruct Hm as (_ & -> & _). apply last_repeat; lia. }
  assert (Hy : buf_y (cache s) = y0). { unfold buf_y. rewrite Hc. destruct Hm as (_ & -> & _). apply last_repeat; lia. }
  assert (Hnone : rel f g ok L nK false (set_cache (iterate (len_history m - 1) (fun c => push c (buf_t c) (buf_y c) (buf_f c)) (cache s)) s)
     (set_cache (iterate (len_history m - 1) (fun c => push c (buf_t c) (buf_y c) (buf_f c)) (cache s')) s')) by exact (iterate_rel L nK _ s s' Hs).
  destruct (Nat.eqb (ms_order m) 1); [now constructor|].
  destruct fs as [|mk|mk], fs' as [|mk'|mk']; try contradiction; [now constructor|].
  rewrite (rel_t _ _ _ _ _ _ _ _ Hs), (proj1 (rel_y _ _ _ _ _ _ _ _ Hs)), (rel_h _ _ _ _ _ _ _ _ Hs), Hn, Hy, Hh.
  cbn [rfs] in Hfs. destruct Hfs as [[sv s1] [sv' s1'] (m1 & L1 & nK1 & fuel1 & o1 & F1 & F2 & F3 & F4 & F5)| |]; try constructor.
  cbn [fst snd obind] in *. subst sv sv'.
  assert (Hst : forall n u, msim f g ok L1 nK1 false (rstep f g ok L1) (step (solver_of m1 fuel1 o1 rhs PInf) 0 n u) (step (solver_of m1 fuel1 o1 rhs' PInf) 0 n (option_map (ext_map f) u))).
  { intros n u. apply sim_step; auto.
    intros. exact (eq_rect _ (fun b => msim f g ok L1 nK1 (negb b) _ _ _) (Hcore m1 L1 nK1 fuel1 o1 F1) _ F2). }
  pose proof (loop_rel L nK L1 nK1 _ _ Hst (ms_order m - 1) s1 s1' s s' F5 Hs) as K.
  destruct (fs_fixed_loop _ _ s1 _) as [c|e|], (fs_fixed_loop _ _ s1' _) as [c'|e'|]; inversion K; subst; constructor; auto.
Qed.

(** ** twins *)
Hypothesis Hvar : forall m L nK gb gb' t0 y0 o sel sel' first, fits m L nK -> is_fixed m = false -> garbage_ok m gb -> garbage_ok m gb' -> ok y0 ->
  g_K gb' = map g (g_K gb) -> Forall ok (g_K gb) -> (forall t y k, ok y -> ok k -> sel' (f t) (g y) (g k) = sel t y k) ->
  corr_out (rel f g ok L nK true) (init_var m gb rhs t0 y0 o sel first) (init_var m gb' rhs' (f t0) (g y0) o sel' first).
Lemma erk_fixed m : is_erk m -> is_fixed m = true. Proof. now destruct m. Qed.
Lemma ms_fixed m : is_multistep m -> is_fixed m = true. Proof. now destruct m. Qed.
Lemma ms_not_erk m : is_multistep m -> ~ is_erk m. Proof. now destruct m. Qed.
Lemma var_not_erk m : is_fixed m = false -> ~ is_erk m. Proof. now destruct m. Qed.
Lemma corr_ret {A B} (R : A -> B -> Prop) a b : corr_out R (Ret a) (Ret b) -> R a b.
Proof. inversion 1; auto. Qed.
Lemma twin_rel m s s' : twin f g ok cls rhs rhs' m s s' -> exists L nK, fits m L nK /\ rel f g ok L nK (negb (is_fixed m)) s s'.
Proof.
  induction 1 as [m gb gb' t0 y0 h s s' Hc Hm Hsh G G' H0 H1 H2|m gb gb' t0 y0 o sel sel' first s s' Hc Hm G G' H0 HK1 HK2 Hsel H1 H2
    |m gb gb' t0 y0 h fuel s s' Hc Hm G G' H0 H1 H2|m gb gb' t0 y0 h fuel s s' m1 s1 s1' fuel1 o1 Hc Hm G G' H0 Hf Htw IH Hn Hy Hh H1 H2];
  destruct (len_history_pos m) as (L & HL); exists L, (n_stages_of m).
  - assert (F : fits m L (n_stages_of m)) by (split; [auto|split; auto]). split; [exact F|]. rewrite (erk_fixed m Hm). apply corr_ret. rewrite <- H1, <- H2. now apply rk_rel.
  - assert (F : fits m L (n_stages_of m)) by (split; [auto|split; [auto|split; [auto|intros q; now apply var_not_erk in q]]]). split; [exact F|]. rewrite Hm. apply corr_ret. rewrite <- H1, <- H2. now apply Hvar.
  - assert (F : fits m L (n_stages_of m)) by (split; [auto|split; [auto|split; [auto|intros q; now apply ms_not_erk in q]]]). split; [exact F|]. rewrite (ms_fixed m Hm). apply corr_ret. rewrite <- H1, <- H2. now apply ms_rel.
  - assert (F : fits m L (n_stages_of m)) by (split; [auto|split; [auto|split; [auto|intros q; now apply ms_not_erk in q]]]). split; [exact F|]. rewrite (ms_fixed m Hm). apply corr_ret. rewrite <- H1, <- H2.
    destruct IH as (L1 & nK1 & F1 & R1). rewrite Hf in R1. apply ms_rel; auto. cbn [rfs]. constructor.
    exists m1, L1, nK1, fuel1, o1. cbn [fst snd]. auto.
Qed.
Lemma corr_eqn {A B} (R R' : A -> B -> Prop) o o' : corr_out R o o' -> (forall a b, o = Ret a -> o' = Ret b -> R' a b) -> corr_out R' o o'.
Proof. intros [a b q|e|] H; constructor; auto. Qed.
Lemma all_twins : twins_built f g ok cls rhs rhs'.
Proof.
  split; [|split; [|split]].
  - intros m gb gb' t0 y0 h Hc Hm Hsh G G' H0. destruct (len_history_pos m) as (L & HL).
    eapply corr_eqn; [apply (rk_rel m L (n_stages_of m)); auto; split; [auto|split; auto]|]. intros s s' H1 H2. exact (twin_rk f g ok cls rhs rhs' m gb gb' t0 y0 h s s' Hc Hm Hsh G G' H0 H1 H2).
  - intros m gb gb' t0 y0 o sel sel' first Hc Hm G G' H0 HK1 HK2 Hsel. destruct (len_history_pos m) as (L & HL).
    eapply corr_eqn; [apply (Hvar m L (n_stages_of m)); auto; split; [auto|split; [auto|split; [auto|intros q; now apply var_not_erk in q]]]|]. intros s s' H1 H2.
    exact (twin_var f g ok cls rhs rhs' m gb gb' t0 y0 o sel sel' first s s' Hc Hm G G' H0 HK1 HK2 Hsel H1 H2).
  - intros m gb gb' t0 y0 h fuel Hc Hm G G' H0. destruct (len_history_pos m) as (L & HL).
    eapply corr_eqn; [apply (ms_rel m L (n_stages_of m)); auto; [split; [auto|split; [auto|split; [auto|intros q; now apply ms_not_erk in q]]]|exact I]|].
    intros s s' H1 H2. exact (twin_ms f g ok cls rhs rhs' m gb gb' t0 y0 h fuel s s' Hc Hm G G' H0 H1 H2).
  - intros m gb gb' t0 y0 h fuel m1 s1 s1' fuel1 o1 Hc Hm G G' H0 Hf Htw Hn Hy Hh. destruct (len_history_pos m) as (L & HL).
    eapply corr_eqn.
    + apply (ms_rel m L (n_stages_of m)); auto; [split; [auto|split; [auto|split; [auto|intros q; now apply ms_not_erk in q]]]|].
      destruct (twin_rel m1 s1 s1' Htw) as (L1 & nK1 & F1 & R1). rewrite Hf in R1. cbn [rfs]. constructor. exists m1, L1, nK1, fuel1, o1. cbn [fst snd]. auto.
    + intros s s' H1 H2. exact (twin_ms_fixed f g ok cls rhs rhs' m gb gb' t0 y0 h fuel s s' m1 s1 s1' fuel1 o1 Hc Hm G G' H0 Hf Htw Hn Hy Hh H1 H2).
Qed.
Lemma corr_weak {A B} (R R' : A -> B -> Prop) o o' : (forall a b, R a b -> R' a b) -> corr_out R o o' -> corr_out R' o o'.
Proof. intros H []; constructor; auto. Qed.
Lemma F2_weak {A B} (R R' : A -> B -> Prop) l l' : (forall a b, R a b -> R' a b) -> Forall2 R l l' -> Forall2 R' l l'.
Proof. intros H. induction 1; constructor; auto. Qed.
Lemma rstep_corr L r r' : rstep f g ok L r r' -> corr_step f g r r'.
Proof. destruct r, r'; cbn; auto; [intros (H1 & H2); split; [exact H1|now apply (rarr_corr g ok L)]|]. apply F2_weak. intros a b H. apply H. Qed.
Lemma rrun_corr L r r' : rrun f g ok L r r' -> corr_run f g r r'.
Proof.
  intros (H1 & H2 & H3). split; [|split; [exact H2|]].
  - revert H1. apply F2_weak. intros a b H. apply H.
  - revert H3. apply F2_weak. intros a b. apply F2_weak. intros x y. apply (rarr_corr g ok L).
Qed.
Lemma alike_rel m L nK fuelc o tb fuel s s' : fits m L nK -> rel f g ok L nK (negb (is_fixed m)) s s' ->
  alike f g ok (solver_of m fuelc o rhs tb) (solver_of m fuelc o rhs' (ext_map f tb)) fuel s s'.
Proof.
  intros F R. set (vr := negb (is_fixed m)) in *.
  assert (Hc : msim f g ok L nK vr (fun _ _ => True) (s_core (solver_of m fuelc o rhs tb)) (s_core (solver_of m fuelc o rhs' (ext_map f tb)))) by exact (Hcore m L nK fuelc o F).
  assert (Hi : forall t, msim f g ok L nK vr (rarr g ok L) (s_interp (solver_of m fuelc o rhs tb) t) (s_interp (solver_of m fuelc o rhs' (ext_map f tb)) (f t))) by exact (fun t => Hint m L nK t F).
  assert (Hb : s_bound (solver_of m fuelc o rhs' (ext_map f tb)) = ext_map f (s_bound (solver_of m fuelc o rhs tb))) by reflexivity.
  set (sv := solver_of m fuelc o rhs tb) in *. set (sv' := solver_of m fuelc o rhs' (ext_map f tb)) in *.
  split; [apply R|]. split; [apply R|]. split; [|split; [|split; [|split]]].
  - intros n u. refine (corr_weak _ _ _ _ (rstep_corr L) (proj1 (sim_step f g ok L nK vr f_lt f_add sv sv' Hc Hb fuel n u s s' R))).
  - intros n u. destruct (proj1 (sim_skip f g ok L nK vr f_lt f_add sv sv' Hc Hb fuel n u s s' R)); congruence.
  - intros t. refine (corr_weak _ _ _ _ _ (proj1 (sim_run f g ok L nK vr f_lt f_le f_eq f_add f_mid f_max f_sort sv sv' Hc Hi Hb fuel t s s' R))).
    intros a b. apply F2_weak. intros x y H. apply H.
  - intros t evs evs' He. exact (corr_weak _ _ _ _ (rrun_corr L) (proj1 (sim_run_events f g ok L nK vr f_lt f_le f_eq f_add f_mid f_max f_sort sv sv' Hc Hi Hb fuel t evs evs' He s s' R))).
  - intros t. exact (corr_weak _ _ _ _ (rarr_corr g ok L) (proj1 (sim_interpolate f g ok L nK vr f_le sv sv' Hi t s s' R))).
Qed.
Lemma twin_alike m s s' fuelc o tb fuel fuel' cs cs' : twin f g ok cls rhs rhs' m s s' -> Forall2 (corr_call f g ok) cs cs' ->
  let sv := solver_of m fuelc o rhs tb in let sv' := solver_of m fuelc o rhs' (ext_map f tb) in
  alike f g ok sv sv' fuel' (session sv fuel cs s) (session sv' fuel cs' s').
Proof.
  intros Ht Hcs sv sv'. apply twin_rel in Ht as (L & nK & F & R). apply (alike_rel m L nK); auto.
  apply (sim_session f g ok L nK (negb (is_fixed m)) f_lt f_le f_eq f_add f_mid f_max f_sort); auto.
  - exact (Hcore m L nK fuelc o F).
  - exact (fun t => Hint m L nK t F).
Qed.
End Init.
