(** Corresponding problems: another origin of time; maps of the states. *)
From Coq Require Import List ZArith Bool Arith Lia.
From Verif Require Import Base Scalar Vec MBuffer MZeros MSteps MApi MClasses Spec SpecInst SpecRK SpecEqv PCore PHist PDim PEqv1 PEqv2 PEqv3 PEqv4.
Import ListNotations.

Section Shift.
Context {OT : Ops} {E : Env}.
Variable f : T -> T.
Hypothesis f_lt : forall a b, ltb (f a) (f b) = ltb a b.
Hypothesis f_le : forall a b, leb (f a) (f b) = leb a b.
Hypothesis f_eq : forall a b, eqb (f a) (f b) = eqb a b.
Hypothesis f_add : forall a h, add (f a) h = f (add a h).
Hypothesis f_sub : forall a b, sub (f a) (f b) = sub a b.
Hypothesis f_mid : forall a b, div (add (f a) (f b)) two = f (div (add a b) two).
Hypothesis f_max : forall a b, npmax (f a) (f b) = f (npmax a b).
Hypothesis f_sort : forall l, np_argsort (map f l) = np_argsort l.
Notation gid := (fun y : vec => y).
Notation okT := (fun _ : vec => True).
Notation clsT := (fun _ : meth => True).
Variables (rhs rhs' : rhs_t).
Hypothesis Hr : corr_rhs f gid okT rhs rhs'.

Lemma interp_base m gb t0 y0 h s : init_base m gb rhs' t0 y0 h = Ret s -> interp s = mkitp [] [] zero.
Proof. unfold init_base. destruct (rhs' t0 y0); [|discriminate|discriminate]. intros [= <-]. reflexivity. Qed.
Lemma dop_update_upd n D Af Cf i s : iQ i = iQ (interp s) ->
  fst (dop_update n D Af Cf rhs' (set_interp i s)) = fst (dop_update n D Af Cf rhs' s) /\
  (fst (dop_update n D Af Cf rhs' s) = Ret tt -> snd (dop_update n D Af Cf rhs' (set_interp i s)) = snd (dop_update n D Af Cf rhs' s)).
Proof.
  intros H. unfold dop_update, bind, lift. cbn [cache set_interp stages interp].
  destruct (dop_extra rhs' _ _ _ _ _ _); cbn [fst snd]; split; auto; try discriminate.
  intros _. unfold set_interp. cbn [cache hstep stages interp]. now rewrite H.
Qed.
Lemma var_rel m L nK gb gb' t0 y0 o sel sel' first : fits clsT m L nK -> is_fixed m = false -> garbage_ok m gb -> garbage_ok m gb' ->
  g_K gb' = map gid (g_K gb) -> (forall t y k, sel' (f t) y k = sel t y k) ->
  corr_out (rel f gid okT L nK true) (init_var m gb rhs t0 y0 o sel first) (init_var m gb' rhs' (f t0) y0 o sel' first).
Proof.
  intros Hm Hf G G' HK Hsel. unfold init_var.
  pose proof (base_rel f gid okT clsT rhs rhs' Hr ltac:(auto) m L nK true gb gb' t0 y0 None Hm G G' I ltac:(intros _; split; [exact HK|apply Forall_T])) as Hb.
  destruct (init_base m gb rhs t0 y0 None) as [s|e|], (init_base m gb' rhs' (f t0) y0 None) as [s'|e'|] eqn:e2; inversion Hb; subst; try constructor.
  rename H1 into Hs. clear Hb. apply interp_base in e2. cbn [obind].
  destruct (match max_step o with Fin x => leb x zero | PInf => false end); [constructor|].
  destruct (ltb (atol o) zero); [constructor|].
  assert (Esel : match first with Some h => Ret h | None => sel' (buf_t (cache s')) (buf_y (cache s')) (buf_f (cache s')) end =
                 match first with Some h => Ret h | None => sel (buf_t (cache s)) (buf_y (cache s)) (buf_f (cache s)) end).
  { destruct first; [reflexivity|]. change (cache s') with (cache (dummy f s')).
    rewrite (rel_t _ _ _ _ _ _ _ _ Hs), (proj1 (rel_y _ _ _ _ _ _ _ _ Hs)), (proj1 (rel_f _ _ _ _ _ _ _ _ Hs)). apply Hsel. }
  rewrite Esel. clear Esel. set (oh := match first with Some h => Ret h | None => sel (buf_t (cache s)) (buf_y (cache s)) (buf_f (cache s)) end). destruct oh as [h|e|]; [|constructor|constructor]. cbn [obind].
  assert (Hs1 : rel f gid okT L nK true (set_h h s) (set_h h (dummy f s'))).
  { destruct Hs as (A1 & A2 & A3 & A4 & A5 & A6). unfold rel. cbn [set_h cache hstep stages interp] in *. auto 10. }
  assert (Ed : set_h h (dummy f s') = set_interp (mkitp [] [] (f zero)) (set_h h s')) by reflexivity.
  assert (Ei : interp (set_h h s') = mkitp [] [] zero) by exact e2.
  destruct m as [A B|A B Bn|A B C|A B C Ew ord P|A B C E5 E3 ord D Af Cf]; try discriminate.
  - constructor. pose proof (rel_rk_update f L nK P _ _ Hs1) as H.
    rewrite Ed in H. unfold rk_update in H at 2. cbn [cache set_interp stages interp iF] in H.
    unfold rk_update at 2. rewrite Ei. cbn [iF]. exact H.
  - destruct (sim_dop_update f L nK f_add f_sub rhs rhs' Hr MDop853.dop_n_stages D Af Cf _ _ Hs1) as (K1 & K2). rewrite Ed in K1, K2.
    destruct (dop_update_upd MDop853.dop_n_stages D Af Cf (mkitp [] [] (f zero)) (set_h h s') ltac:(now rewrite Ei)) as (Q1 & Q2).
    rewrite Q1 in K1. destruct (dop_update MDop853.dop_n_stages D Af Cf rhs (set_h h s)) as [o1 x1], (dop_update MDop853.dop_n_stages D Af Cf rhs' (set_h h s')) as [o2 x2].
    cbn [fst snd] in *. clear Q1. destruct K1 as [[] [] _|e|]; constructor. rewrite (Q2 eq_refl) in K2. exact K2.
Qed.
Lemma shift_core m L nK fuelc o : fits clsT m L nK ->
  msim f gid okT L nK (negb (is_fixed m)) (fun _ _ => True) (core_of m fuelc o rhs) (core_of m fuelc o rhs').
Proof. intros (_ & _ & H1 & H2). apply sim_core_id; auto. Qed.
Lemma shift_interp m L nK t : fits clsT m L nK ->
  msim f gid okT L nK (negb (is_fixed m)) (rarr gid okT L) (interp_of m rhs t) (interp_of m rhs' (f t)).
Proof. intros _. apply sim_interp_id; auto. Qed.

Lemma shift_alike m s s' fuelc o tb fuel fuel' cs cs' : twin f gid okT clsT rhs rhs' m s s' -> Forall2 (corr_call f gid okT) cs cs' ->
  let sv := solver_of m fuelc o rhs tb in let sv' := solver_of m fuelc o rhs' (ext_map f tb) in
  alike f gid okT sv sv' fuel' (session sv fuel cs s) (session sv' fuel cs' s').
Proof.
  apply (twin_alike f gid okT clsT f_lt f_le f_eq f_add f_mid f_max f_sort rhs rhs' Hr); auto.
  - intros. now apply shift_core.
  - intros. now apply shift_interp.
  - intros m0 L nK gb gb' t0 y0 o0 sel sel' first F F1 G G' _ HK _ Hs. apply var_rel; auto.
Qed.
Lemma shift_twins : twins_built f gid okT clsT rhs rhs'.
Proof.
  apply (all_twins f gid okT clsT f_lt f_add rhs rhs' Hr); auto.
  - intros. now apply shift_core.
  - intros m0 L nK gb gb' t0 y0 o0 sel sel' first F F1 G G' _ HK _ Hs. apply var_rel; auto.
Qed.
End Shift.

(** ** maps of the states, the explicit fixed step classes *)
Section Map.
Context {OT : Ops} {E : Env}.
Variables (g : vec -> vec) (ok : vec -> Prop).
Notation fid := (fun t : T => t).
Hypothesis g_add : forall u v, ok u -> ok v -> vadd (g u) (g v) = g (vadd u v) /\ ok (vadd u v).
Hypothesis g_sub : forall u v, ok u -> ok v -> vsub (g u) (g v) = g (vsub u v) /\ ok (vsub u v).
Hypothesis g_scale : forall c u, ok u -> vscale c (g u) = g (vscale c u) /\ ok (vscale c u).
Hypothesis g_lin : forall y c K, ok y -> Forall ok K -> lincomb (length (g y)) c (map g K) = g (lincomb (length y) c K) /\ ok (lincomb (length y) c K).
Variables (rhs rhs' : rhs_t).
Hypothesis Hr : corr_rhs fid g ok rhs rhs'.
Hypothesis Hd : forall t y k, ok y -> rhs t y = Ret k -> ok k.
Lemma map_core m L nK fuelc o : fits explicit m L nK ->
  msim fid g ok L nK (negb (is_fixed m)) (fun _ _ => True) (core_of m fuelc o rhs) (core_of m fuelc o rhs').
Proof.
  intros (H0 & _ & H1 & H2). destruct m as [A B|A B Bn|A B C|A B C Ew ord P|A B C E5 E3 ord D Af Cf]; try contradiction; cbn [core_of is_fixed negb].
  - apply (sim_expl fid g ok L nK false ltac:(reflexivity) g_sub g_lin rhs rhs' Hr Hd).
  - destruct (H2 I) as (H3 & H4). apply (sim_erk fid g ok L nK false ltac:(reflexivity) g_add g_scale g_lin rhs rhs' Hr Hd); auto.
Qed.
Lemma map_interp m L nK t : fits explicit m L nK ->
  msim fid g ok L nK (negb (is_fixed m)) (rarr g ok L) (interp_of m rhs t) (interp_of m rhs' t).
Proof.
  intros (H0 & _). destruct m; try contradiction; cbn [interp_of is_fixed negb];
  apply (sim_hermite fid g ok L nK false ltac:(reflexivity) ltac:(reflexivity) g_add g_sub g_scale).
Qed.
Lemma map_alike m s s' fuelc o tb fuel fuel' cs cs' : twin fid g ok explicit rhs rhs' m s s' -> Forall2 (corr_call fid g ok) cs cs' ->
  let sv := solver_of m fuelc o rhs tb in let sv' := solver_of m fuelc o rhs' (ext_map fid tb) in
  alike fid g ok sv sv' fuel' (session sv fuel cs s) (session sv' fuel cs' s').
Proof.
  apply (twin_alike fid g ok explicit ltac:(reflexivity) ltac:(reflexivity) ltac:(reflexivity) ltac:(reflexivity) ltac:(reflexivity) ltac:(reflexivity) ltac:(intros; now rewrite map_id) rhs rhs' Hr Hd); auto.
  - intros. now apply map_core.
  - intros. now apply map_interp.
  - intros m0 L nK gb gb' t0 y0 o0 sel sel' first (F & _) F1. destruct m0; try contradiction; discriminate.
Qed.
Lemma map_twins : twins_built fid g ok explicit rhs rhs'.
Proof.
  apply (all_twins fid g ok explicit ltac:(reflexivity) ltac:(reflexivity) rhs rhs' Hr Hd); auto.
  - intros. now apply map_core.
  - intros m0 L nK gb gb' t0 y0 o0 sel sel' first (F & _) F1. destruct m0; try contradiction; discriminate.
Qed.
End Map.
