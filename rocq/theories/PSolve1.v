(** Fixed step instances: run returns the rows asked for. *)
From Coq Require Import List ZArith Bool Arith Lia Reals Lra.
From Verif Require Import Base Scalar Vec MBuffer MZeros MSteps MApi MClasses Laws Spec SpecInst
  PStep PKeeps PCore PHist PBound PVecR SpecRK PRK PDim PRun PRun2 PRun3 PFwd PTerm SpecMS PMS PMS2 SpecDense PDense PC2 SpecConv SpecLive PVL4.
Import ListNotations.
Open Scope R_scope.

Lemma gt_mono (x te : R) tb : x <= te -> @gt_ext Rops te tb = false -> @gt_ext Rops x tb = false.
Proof. intros Hx. destruct tb as [b|]; [|reflexivity]. cbn. rewrite !Rltb_false. lra. Qed.

Section F.
Context {E : @Env Rops}.
Variables (m : @meth Rops) (fuelc : nat) (o : @options Rops) (rhs : @rhs_t Rops) (tb : @ext Rops) (h te : R) (P : @st Rops -> Prop).
Hypothesis Hf : is_fixed m = true.
Hypothesis Hi : interp_of (E := E) m rhs = interp_default.
Hypothesis Hh : 0 < h.
Hypothesis HP : forall x, P x -> good rhs m x /\ in_order x /\ hstep x = h.
Hypothesis Hc : forall x, P x -> now x + h <= te -> ~ would_pass tb x -> exists x', core_of (E := E) m fuelc o rhs x = (Ret tt, x') /\ P x'.

Lemma fixed_solves s (t : list R) : @gt_ext Rops te tb = false -> P s -> now s <= te -> t <> [] -> is_sorted (OT := Rops) t = true ->
  (forall x, In x t -> buf_t0 (cache s) <= x <= te - h) ->
  exists N rows s', (forall fuel, (N <= fuel)%nat -> run (E := E) (solver_of (E := E) m fuelc o rhs tb) fuel t s = (Ret rows, s')) /\ map fst rows = t /\ now s' <= te.
Proof.
  intros Hg Ps Hn Ht Hs Hr.
  destruct (run_returns (E := E) m fuelc o rhs tb (fun x => P x /\ now x <= te) h (te - h) Hh) with (s := s) (t := t) as (N & rows & s' & H1 & (Ps' & Hn') & H3); auto.
  - intros x (Px & Nx) Hw Hx. destruct (Hc x Px ltac:(lra) Hw) as (x' & C & Px'). destruct (HP x Px) as (Gx & Ox & Hhx).
    assert (Cp : completes (solver_of (E := E) m fuelc o rhs tb) tb x x') by (split; [exact Hw|exact C]).
    destruct (core_fixed_now m fuelc o rhs x x' (proj1 Gx) Hf C) as (N1 & _). rewrite Hhx in N1. cbn in N1.
    assert (Hle : @leb Rops (now x) (now x') = true) by (apply Rleb_true; rewrite N1; lra).
    destruct (core_in_order m fuelc o rhs tb tb x x' (proj1 Gx) Cp Hle Ox) as (_ & Q). apply Rleb_true in Q.
    exists x'. split; [exact C|]. split; [split; [exact Px'|rewrite N1; lra]|]. split; [exact Q|]. rewrite N1, Hhx. lra.
  - intros ti x (Px & Nx) Hti. rewrite Hi. unfold interp_default. destruct (hermite_total ti (cache x) Hti) as (a & Ha).
    exists a, x. rewrite Ha. auto.
  - intros x Hx. specialize (Hr x Hx). split; [lra|]. apply (gt_mono x te); auto. lra.
  - exists N, rows, s'. split; [exact H1|]. split; [|exact Hn']. destruct H3 as [H3|(H3 & H4)]; [exact H3|]. exfalso.
    destruct (HP s' Ps') as (_ & _ & Hh'). assert (K : @gt_ext Rops (now s' + hstep s') tb = false) by (apply (gt_mono _ te); auto; rewrite Hh'; lra).
    unfold would_pass in H3. pose proof (eq_trans (eq_sym H3) K) as F. discriminate F.
Qed.
End F.

(** the explicit classes complete every step *)
Section X.
Context {E : @Env Rops}.
Variables (rhs : @rhs_t Rops) (n : nat).
Hypothesis Hk : keeps_dim (OT := Rops) n rhs.
Hypothesis Hd : defined_on n rhs.

Lemma stages_exist t (y : list R) h rows : forall cs K, length cs = length rows -> length y = n -> Forall (fun k => length k = n) K ->
  exists K', stages_of (OT := Rops) rhs t y h rows cs K K'.
Proof.
  induction rows as [|r rows IH]; intros [|c cs] K Hl Hy F; try discriminate; [exists K; constructor|]. injection Hl as Hl.
  assert (Ly : length (@vadd Rops y (@vscale Rops h (@lincomb Rops (length y) (firstn (length K) r) K))) = n).
  { apply (vadd_l (OT := Rops)); auto. apply (vscale_l (OT := Rops)). rewrite Hy. now apply (lincomb_l (OT := Rops)). }
  destruct (Hd (t + h * c) _ Ly) as (k & Ek). destruct (IH cs (K ++ [k]) Hl Hy) as (K' & HK).
  - apply Forall_app. split; [exact F|]. constructor; [|constructor]. eapply Hk; [|exact Ek]. exact Ly.
  - exists K'. econstructor; [exact Ek|exact HK].
Qed.
Lemma explicit_core m fuelc o (s : @st Rops) : explicit m -> shaped m -> wf m s -> dims n s -> exists s', core_of (E := E) m fuelc o rhs s = (Ret tt, s').
Proof.
  intros Hm Sh W D. pose proof (wf_state_dim _ _ _ W D) as Ly. destruct m as [A B| |A B C| |]; try contradiction.
  - cbn [core_of]. unfold core_expl_ms, expl_ms_fixed_step. destruct (Hd (buf_t (cache s) + hstep s) (@ms_combination Rops A B (cache s) (hstep s))) as (f & Ef).
    { apply (ms_combination_dim (OT := Rops)); [exact Ly|apply D|apply D]. }
    eexists. unfold bind, lift. change (@add Rops) with Rplus. rewrite Ef. reflexivity.
  - destruct Sh as (S1 & S2). destruct (dims_prev _ _ _ W D) as (_ & _ & Lf & _). destruct W as (Wb & Wk). cbn [n_stages_of] in Wk.
    destruct (stages_exist (now s) (state s) (hstep s) (skipn 1 A) (skipn 1 C) [deriv s]) as (K & HK); auto.
    { change (@T Rops) with R in *. rewrite !skipn_length. now rewrite S1. }
    assert (Rk : rk_step (OT := Rops) rhs A B C (now s) (state s) (deriv s) (hstep s) K (rk_combine (OT := Rops) (state s) (hstep s) B K)) by (split; [exact HK|reflexivity]).
    destruct (rk_step_dim (OT := Rops) n rhs Hk _ _ _ _ _ _ _ _ _ Ly Lf Rk) as (Ly' & _).
    destruct (Hd (now s + hstep s) _ Ly') as (f' & Ef). eexists. cbn [core_of]. apply core_erk_iff; auto.
    exists K, (rk_combine (OT := Rops) (state s) (hstep s) B K), f'. split; [exact Rk|]. split; [exact Ef|reflexivity].
Qed.

(** good instances of fixed step classes in dimension n *)
Definition steady (m : @meth Rops) (h : R) (x : @st Rops) : Prop := good rhs m x /\ dims n x /\ in_order x /\ hstep x = h.

Definition solver_dim (m : @meth Rops) : Prop := match m with ImplMS _ _ _ => solve_dim (E := E) | _ => True end.
Lemma steady_core m fuelc o tb h x x' : is_fixed m = true -> shaped m -> solver_dim m -> 0 < h -> steady m h x -> ~ would_pass tb x -> core_of (E := E) m fuelc o rhs x = (Ret tt, x') -> steady m h x'.
Proof.
  intros Hf Sh Sd Hh (G & D & O & Hx) Hw C. destruct (core_fixed_now m fuelc o rhs x x' (proj1 G) Hf C) as (N1 & N2 & _).
  assert (Cp : completes (solver_of (E := E) m fuelc o rhs tb) tb x x') by (split; [exact Hw|exact C]).
  assert (Hle : @leb Rops (now x) (now x') = true) by (apply Rleb_true; rewrite N1, Hx; cbn; lra).
  destruct (core_in_order m fuelc o rhs tb tb x x' (proj1 G) Cp Hle O) as (O' & _).
  pose proof (good_core rhs m fuelc o x G) as G'. rewrite C in G'. split; [exact G'|]. split; [|split; [exact O'|now rewrite N2]].
  eapply (core_dim (OT := Rops) n rhs Hk m fuelc o x x'); eauto. apply G.
Qed.
Lemma steady_session m fuelc o tb h fuel cs x : is_fixed m = true -> shaped m -> solver_dim m -> 0 < h -> steady m h x ->
  steady m h (session (E := E) (solver_of (E := E) m fuelc o rhs tb) fuel cs x).
Proof.
  intros Hf Sh Sd Hh (G & D & O & Hx).
  destruct (in_order_session m fuelc o rhs tb x fuel cs Hf G) as (O' & H').
  - apply Rleb_true. rewrite Hx. cbn. lra.
  - exists (now x - 1). apply Rltb_true. lra.
  - exact O.
  - split; [|split; [|split; [exact O'|now rewrite H']]].
    + exact (session_good rhs m fuelc o tb fuel cs x G).
    + apply (dims_session (OT := Rops) n rhs Hk); auto. apply G.
Qed.
End X.
