(** C10, C11, C12: the time grid and termination. *)
From Coq Require Import List ZArith Bool Arith Lia Reals Lra.
From Verif Require Import Base Scalar Vec MBuffer MZeros MSteps MApi MClasses Laws Spec SpecInst
  PStep PKeeps PCore PHist PBound PRun PRun2 PRun3 PFwd.
Import ListNotations.

Section G.
Context {OT : Ops} {E : Env}.

(** explicit classes with a right-hand side that always returns always step *)
Lemma erk_stages_total rhs t y h rows : total rhs -> forall cs k s,
  exists s', erk_stages rhs t y h k rows cs s = (Ret tt, s').
Proof.
  intros Ht. induction rows as [|a rows IH]; intros [|c cs] k s; cbn [erk_stages]; try (eexists; reflexivity).
  unfold bind, get, lift. cbv beta iota.
  match goal with |- context [rhs ?x ?y] => destruct (Ht x y) as (f & ->) end.
  unfold set_K. apply IH.
Qed.
Lemma core_total m fuel o rhs s : total rhs -> explicit m ->
  exists s', core_of m fuel o rhs s = (Ret tt, s').
Proof.
  intros Ht He. destruct m; try contradiction; cbn [core_of].
  - unfold core_expl_ms. destruct (expl_ms_fixed_step _ _ _ _) as [t y]. unfold bind, lift.
    destruct (Ht t y) as (f & ->). eexists; reflexivity.
  - unfold core_erk, bind. unfold erk_fixed_step. unfold bind, set_K.
    match goal with |- context [erk_stages ?r ?t ?y ?h ?k ?rows ?cs ?x] =>
      destruct (erk_stages_total r t y h rows Ht cs k x) as (s1 & e1); rewrite e1 end.
    cbn [get ret]. unfold lift.
    match goal with |- context [rhs ?x ?y] => destruct (Ht x y) as (f & ->) end.
    eexists; reflexivity.
Qed.

Lemma core_fixed_now m fuel o rhs s s' : wf m s -> is_fixed m = true ->
  core_of m fuel o rhs s = (Ret tt, s') ->
  now s' = add (now s) (hstep s) /\ hstep s' = hstep s /\ wf m s'.
Proof.
  intros Wx Hf Hc. pose proof (core_wf m fuel o rhs s Wx) as K. rewrite Hc in K. cbn in K.
  apply core_of_ok in Hc; [|intros; congruence]. destruct Hc as (_ & _ & A2 & t & y & f & (P1 & P2) & D).
  specialize (D Hf). destruct (len_history_pos m) as (k & Hk). destruct Wx as (Wx & _). rewrite Hk in Wx.
  split; [|split; [exact (A2 Hf)|exact K]]. unfold now. now rewrite P1, (push_t _ _ _ _ _ Wx), D.
Qed.

(** C10 *)
Lemma chain_grid m fuel o rhs tb b s l s' : wf m s -> is_fixed m = true ->
  chain (solver_of m fuel o rhs tb) b s l s' ->
  hstep s' = hstep s /\ wf m s' /\
  map now l = map (fun k => grid (now s) (hstep s) (S k)) (seq 0 (length l)) /\
  now s' = grid (now s) (hstep s) (length l).
Proof.
  intros W Hf C.
  revert s' C. induction l as [|x l IH] using rev_ind.
  - intros s' C. inversion C; subst. repeat split; auto; apply W.
  - intros s' C. apply chain_split in C as (s1 & C1 & C2).
    inversion C2 as [|? y ? ? Hc C3]; subst. inversion C3; subst.
    destruct (IH _ C1) as (I1 & I2 & I3 & I4). destruct Hc as (_ & Hc). cbn in Hc.
    destruct (core_fixed_now _ _ _ _ _ _ I2 Hf Hc) as (N1 & N2 & N3).
    assert (N : now s' = grid (now s) (hstep s) (S (length l))) by (rewrite N1, I4, I1; reflexivity).
    split; [congruence|]. split; [exact N3|]. rewrite app_length, map_app. cbn [length map].
    rewrite Nat.add_1_r, seq_S, map_app. cbn [map plus]. rewrite I3, N. auto.
Qed.

(** C06: no completed step is beyond the bound *)
Lemma chain_bound_fixed m fuel o rhs tb b s l s' : wf m s -> is_fixed m = true ->
  chain (solver_of m fuel o rhs tb) b s l s' -> Forall (fun r => gt_ext (fst r) b = false) (map row l).
Proof.
  intros W Hf C. induction C as [s|s s1 l s2 (Hw & Hc) C IH]; [constructor|].
  cbn in Hc. destruct (core_fixed_now _ _ _ _ _ _ W Hf Hc) as (N1 & N2 & N3).
  cbn [map]. constructor; auto. cbn [fst row]. rewrite N1. unfold would_pass in Hw. now destruct (gt_ext _ b).
Qed.
Lemma C04_fixed' {L : OrdLaws OT} rhs m fuel o tb fuel' cs s0 :
  built rhs m s0 -> is_fixed m = true -> Forall no_nan cs -> gt_ext (now s0) tb = false ->
  gt_ext (now (session (solver_of m fuel o rhs tb) fuel' cs s0)) tb = false.
Proof.
  intros B Hf Hn Ht. apply C04_fixed; auto.
  now apply built_good.
Qed.

(** a loop that is always allowed to go on never returns *)
Lemma steps_diverge (sv : solver) b (P : st -> Prop) :
  (forall s, P s -> ~ would_pass b s) ->
  (forall s s', P s -> s_core sv s = (Ret tt, s') -> P s') ->
  forall fuel s rows s', P s -> steps_ sv fuel b s <> (Ret rows, s').
Proof.
  intros H1 H2. induction fuel as [|fuel IH]; intros s rows s' Hs H; cbn [steps_] in H; [discriminate|].
  unfold bind in H. destruct (step_cases sv b s) as [[Hw _] | [_ He]]; [now apply (H1 s)|].
  rewrite He in H. destruct (s_core sv s) as [[[]| |] s1] eqn:ec; try discriminate.
  cbn [get] in H. destruct (steps_ sv fuel b s1) as [[r| |] s2] eqn:es; try discriminate.
  apply (IH s1 r s2); eauto.
Qed.
Lemma steps_loop (sv : solver) b (P : st -> Prop) :
  (forall s, P s -> ~ would_pass b s) ->
  (forall s, P s -> exists s', s_core sv s = (Ret tt, s') /\ P s') ->
  forall fuel s, P s -> fst (steps_ sv fuel b s) = Loop.
Proof.
  intros H1 H2. induction fuel as [|fuel IH]; intros s Hs; cbn [steps_]; auto.
  unfold bind. destruct (step_cases sv b s) as [[Hw _] | [_ He]]; [now apply H1 in Hw|].
  rewrite He. destruct (H2 s Hs) as (s1 & -> & Hs1). cbn [get]. specialize (IH s1 Hs1).
  destruct (steps_ sv fuel b s1) as [[r| |] s2]; cbn in *; congruence.
Qed.
End G.

Section R.
Context {E : @Env Rops}.
Existing Instance Rops.
Local Open Scope R_scope.

Lemma grid_R t h n : grid (OT := Rops) t h n = t + INR n * h.
Proof. induction n. cbn. lra. rewrite S_INR. cbn [grid]. rewrite IHn. cbn. lra. Qed.

Lemma floor_exists d h : 0 < h -> 0 <= d -> exists n, INR n * h <= d < INR (S n) * h.
Proof.
  intros Hh Hd. destruct (archimed (d / h)) as (A1 & A2).
  set (z := (up (d / h) - 1)%Z).
  assert (Hz : IZR z <= d / h < IZR z + 1) by (unfold z; rewrite minus_IZR; lra).
  assert (0 <= d / h) by (apply Rmult_le_pos; auto; left; now apply Rinv_0_lt_compat).
  assert (Hz0 : (0 <= z)%Z). { apply le_IZR. apply Rnot_lt_le. intro. assert (z <= -1)%Z.
    { apply lt_IZR in H0. lia. } apply IZR_le in H1. lra. }
  exists (Z.to_nat z). rewrite S_INR. rewrite INR_IZR_INZ, Z2Nat.id by auto.
  assert (d = d / h * h) by (field; lra). split.
  - rewrite H0. apply Rmult_le_compat_r; lra.
  - rewrite H0. apply Rmult_lt_compat_r; lra.
Qed.

Variable m : @meth Rops.
Variables (fuelc : nat) (o : @options Rops) (rhs : @rhs_t Rops) (tb : @ext Rops).
Let sv := solver_of m fuelc o rhs tb.

(** all steps return as long as they are asked for *)
Lemma chain_exists b s n : wf m s -> is_fixed m = true -> 0 < hstep s ->
  steps_return sv b s ->
  (forall k, (k < n)%nat -> gt_ext (now s + INR (S k) * hstep s) b = false) ->
  exists l s', chain sv b s l s' /\ length l = n.
Proof.
  intros W Hf Hh Hr. induction n as [|n IH]; intros Hb.
  - exists [], s. split; constructor.
  - destruct IH as (l & s1 & C & Hl). { intros k Hk. apply Hb. lia. }
    destruct (Hr _ _ C) as (s2 & Hc).
    destruct (chain_grid m fuelc o rhs tb b s l s1 W Hf C) as (G1 & G2 & G3 & G4).
    exists (l ++ [s2]), s2. split; [|rewrite app_length; cbn; lia].
    eapply chain_app; eauto. eapply chain_cons; [|constructor]. split; auto.
    unfold would_pass. rewrite G4, G1, Hl. change (add (grid (now s) (hstep s) n) (hstep s)) with (grid (OT := Rops) (now s) (hstep s) (S n)).
    rewrite grid_R. rewrite Hb by lia. discriminate.
Qed.

Lemma C11_lemma s x : wf m s -> is_fixed m = true -> 0 < hstep s -> now s <= x ->
  gt_ext x tb = false -> steps_return sv (@Fin Rops x) s ->
  exists n, INR n * hstep s <= x - now s < INR (S n) * hstep s /\
  exists rows s', length rows = n /\ now s' = now s + INR n * hstep s /\
  forall fuel, (n < fuel)%nat -> step sv fuel None (Some (@Fin Rops x)) s = (Ret (RMany rows), s').
Proof.
  intros W Hf Hh Hx Hb Hr.
  destruct (floor_exists (x - now s) (hstep s) Hh ltac:(lra)) as (n & Hn). exists n. split; auto.
  destruct (chain_exists (@Fin Rops x) s n W Hf Hh Hr) as (l & s' & C & Hl).
  { intros k Hk. unfold gt_ext. apply Rltb_false. assert (INR (S k) <= INR n) by (apply le_INR; lia).
    apply Rmult_le_compat_r with (r := hstep s) in H; lra. }
  destruct (chain_grid m fuelc o rhs tb _ s l s' W Hf C) as (G1 & G2 & G3 & G4).
  rewrite grid_R, Hl in G4.
  exists (map row l), s'. split; [now rewrite map_length|]. split; auto.
  intros fuel Hfu. rewrite not_lt_upto.
  2:{ cbn. apply Rltb_false. exact Hx. }
  change (ext_gt (@Fin Rops x) (s_bound sv)) with (@gt_ext Rops x tb). rewrite Hb.
  rewrite (steps_complete sv (@Fin Rops x) s l s' C); [reflexivity| |lia].
  unfold would_pass. cbn. apply Rltb_true. rewrite G4, G1. rewrite S_INR in Hn. lra.
Qed.

(** a non-positive step never gets anywhere: the call cannot return *)
Lemma C12_lemma s x fuel rows s' : wf m s -> is_fixed m = true -> hstep s <= 0 -> now s <= x ->
  step sv fuel None (Some (@Fin Rops x)) s <> (Ret rows, s') \/ gt_ext x tb = true.
Proof.
  intros W Hf Hh Hx. destruct (@gt_ext Rops x tb) eqn:eb; auto. left. intros H.
  rewrite not_lt_upto in H. 2:{ cbn. apply Rltb_false. exact Hx. }
  change (ext_gt (@Fin Rops x) (s_bound sv)) with (@gt_ext Rops x tb) in H. rewrite eb in H.
  destruct (steps_ sv fuel (@Fin Rops x) s) as [[r| |] s1] eqn:es; try discriminate.
  refine (steps_diverge sv (@Fin Rops x) (fun z => wf m z /\ hstep z <= 0 /\ now z <= x) _ _ fuel s r s1 _ es).
  - intros z (_ & A & B) Hw. unfold would_pass in Hw. cbn in Hw. apply Rltb_true in Hw. unfold now in *. lra.
  - intros z z' (A & B & C) Hc. destruct (core_fixed_now _ _ _ _ _ _ A Hf Hc) as (N1 & N2 & N3).
    split; auto. rewrite N1, N2. cbn. split; auto. unfold now in *. lra.
  - auto.
Qed.

(** C06, variable step *)
Lemma chain_bound_var b s l s' : wf m s -> is_fixed m = false -> sane o -> 0 <= hstep s ->
  chain sv b s l s' -> Forall (fun r => gt_ext (fst r) b = false) (map row l).
Proof.
  intros W Hf Ho Hh C. revert W Hh. induction C as [s|s s1 l s2 (Hw & Hc) C IH]; intros W Hh; [constructor|].
  pose proof (core_wf m fuelc o rhs s W) as K. cbn in Hc. rewrite Hc in K. cbn in K.
  destruct (len_history_pos m) as (k & Hk). pose proof W as (Wx & _). rewrite Hk in Wx.
  assert (K' : 0 <= hstep s1 /\ now s <= now s1 <= now s + hstep s).
  { destruct m; try discriminate; cbn [core_of] in Hc;
    exact (core_fsal_R _ _ _ _ _ _ _ _ _ _ _ _ Ho (error_exponent_pos _) Wx Hc Hh). }
  destruct K' as (K1 & K2). cbn [map]. constructor; auto. cbn [fst row].
  unfold would_pass in Hw. destruct b as [b|]; auto. cbn in *. apply Rltb_false.
  destruct (Rltb b (now s + hstep s)) eqn:e; [congruence|]. apply Rltb_false in e. lra.
Qed.

(** run returns *)
Lemma run_until_total ti k : forall s, wf m s -> is_fixed m = true -> 0 < hstep s ->
  (forall x, wf m x -> exists x', s_core sv x = (Ret tt, x')) ->
  ti - now s <= INR k * hstep s ->
  exists r s', forall fuel, (k <= fuel)%nat -> run_until sv fuel ti s = (Ret r, s').
Proof.
  induction k as [|k IH]; intros s W Hf Hh Hr Hk.
  - exists true, s. intros fuel _. cbn in Hk.
    assert (K : @ltb Rops (buf_t (cache s)) ti = false) by (apply Rltb_false; unfold now in Hk; lra).
    destruct fuel; cbn [run_until]; now rewrite K.
  - destruct (@ltb Rops (buf_t (cache s)) ti) eqn:K.
    2:{ exists true, s. intros fuel _. destruct fuel; cbn [run_until]; now rewrite K. }
    destruct (step_cases sv (s_bound sv) s) as [[Hw He] | [Hw He]].
    + exists false, s. intros [|fuel] Hfu; [lia|]. cbn [run_until]. rewrite K. unfold bind. now rewrite He.
    + destruct (Hr s W) as (s1 & Hc). rewrite Hc in He. cbn in Hc.
      destruct (core_fixed_now _ _ _ _ _ _ W Hf Hc) as (N1 & N2 & N3).
      destruct (IH s1 N3 Hf) as (r & s' & H).
      { now rewrite N2. } { auto. }
      { rewrite N1, N2. rewrite S_INR in Hk. cbn. unfold now in *. lra. }
      exists r, s'. intros [|fuel] Hfu; [lia|]. cbn [run_until]. rewrite K. unfold bind. rewrite He.
      apply H. lia.
Qed.

Lemma hermite_total t c : buf_t0 c <= t <= buf_t c -> exists a, hermite (OT := Rops) t c = Ret a.
Proof.
  intros H. unfold hermite. destruct (@eqb Rops t (buf_t0 c)) eqn:e; [eexists; reflexivity|].
  cbn in e. apply Reqb_false in e. unfold sdiv.
  replace (@eqb Rops (sub (buf_t c) (buf_t0 c)) zero) with false.
  - rewrite andb_false_r. eexists; reflexivity.
  - symmetry. cbn. apply Reqb_false. intros Hz. lra.
Qed.

Lemma run_eval_total t : forall s, wf m s -> explicit m -> total rhs -> 0 < hstep s -> in_order s ->
  is_sorted t = true -> (forall x, In x t -> buf_t0 (cache s) <= x) ->
  exists N vs s', forall fuel, (N <= fuel)%nat -> run_eval_ sv fuel t s = (Ret vs, s').
Proof.
  induction t as [|ti t IH]; intros s W He Ht Hh Ho Hs Hlo.
  - exists 0%nat, [], s. intros; reflexivity.
  - assert (Hf : is_fixed m = true) by (destruct m; try contradiction; reflexivity).
    assert (Hr : forall x, wf m x -> exists x', s_core sv x = (Ret tt, x')) by (intros; now apply core_total).
    assert (Hk : exists k, ti - now s <= INR k * hstep s).
    { destruct (Rle_dec ti (now s)). exists 0%nat. cbn. lra.
      destruct (floor_exists (ti - now s) (hstep s) Hh ltac:(lra)) as (n0 & H). exists (S n0). lra. }
    destruct Hk as (k & Hk).
    destruct (run_until_total ti k s W Hf Hh Hr Hk) as (r & s1 & Hru).
    pose proof (run_until_spec m fuelc o rhs tb k ti s _ _ (Hru k (le_n k))) as Sp.
    destruct r.
    + destruct Sp as (l & U & Hn). fold sv in U.
      assert (F : forward sv s).
      { apply forward_fixed; auto. apply Rleb_true. rewrite zero_R. lra. exists (now s - 1). apply Rltb_true. lra. }
      pose proof U as (C & _).
      destruct (chain_grid m fuelc o rhs tb _ _ _ _ W Hf C) as (G1 & G2 & _ & _).
      destruct (chain_in_order m fuelc o rhs tb _ _ _ W F Ho C) as (_ & Ho1).
      assert (Hw1 : forall x, ti <= x -> buf_t0 (cache s) <= x -> buf_t0 (cache s1) <= x).
      { intros x Hx Hx0. eapply Rle_trans; [|exact Hx]. apply Rleb_true.
        apply (upto_window m fuelc o rhs tb ti s l s1 W F Ho U). apply Rleb_true. apply Hlo. now left. }
      destruct (hermite_total ti (cache s1)) as (a & Ha).
      { split. apply Hw1. lra. apply Hlo; now left. apply Rltb_false in Hn. exact Hn. }
      assert (Hi : forall s2, s_interp sv ti s1 = (Ret a, s2) -> s2 = s1).
      { destruct m; try contradiction; cbn; unfold interp_default; rewrite Ha; intros ? Hq; now inversion Hq. }
      assert (Hi' : s_interp sv ti s1 = (Ret a, s1)).
      { destruct m; try contradiction; cbn; unfold interp_default; now rewrite Ha. }
      destruct (sorted_cons _ _ Hs) as (Hs1 & Hs2). rewrite Forall_forall in Hs2.
      destruct (IH s1 G2 He Ht) as (N & vs & s' & H); auto.
      { now rewrite G1. }
      { intros x Hx. apply Hw1. apply Rleb_true. now apply Hs2. apply Hlo. now right. }
      exists (max N k), (deref (cache s1) a :: vs), s'. intros fuel Hfu. cbn [run_eval_]. unfold bind.
      rewrite Hru by lia. unfold interp_copy, bind. rewrite Hi'. cbn [get ret]. rewrite H by lia. reflexivity.
    + exists k, [], s1. intros fuel Hfu. cbn [run_eval_]. unfold bind. rewrite Hru by lia. reflexivity.
Qed.

Lemma C11_run s ta tr : wf m s -> explicit m -> total rhs -> 0 < hstep s -> in_order s ->
  is_sorted (ta :: tr) = true ->
  (forall x, In x (ta :: tr) -> buf_t0 (cache s) <= x /\ gt_ext x tb = false) ->
  exists N n rows s', (forall fuel, (N <= fuel)%nat -> run sv fuel (ta :: tr) s = (Ret rows, s')) /\
    now s' = now s + INR n * hstep s /\
    (n = 0%nat \/ now s + INR (n - 1) * hstep s < last (ta :: tr) 0) /\
    (last (ta :: tr) 0 <= now s' \/ would_pass tb s').
Proof.
  intros W He Ht Hh Ho Hs Hr.
  assert (Hf : is_fixed m = true) by (destruct m; try contradiction; reflexivity).
  destruct (run_eval_total (ta :: tr) s W He Ht Hh Ho Hs) as (N & vs & s' & H).
  { intros x Hx. now apply Hr. }
  assert (Hnum : Forall (num (O := Rops)) (ta :: tr)) by (apply Forall_forall; intros; apply Rleb_true; lra).
  assert (R : forall fuel, (N <= fuel)%nat -> run sv fuel (ta :: tr) s = (Ret (combine (ta :: tr) vs), s')).
  { intros fuel Hfu. pose proof (run_as_eval m fuelc o rhs tb fuel ta tr s Hs) as K. fold sv in K.
    rewrite K, H; auto.
    - apply Rleb_true. lra.
    - apply Rltb_false. apply Hr. now left.
    - apply Hr. now apply list_max_in. }
  pose proof (run_end m fuelc o rhs tb N _ _ _ _ Hs (R N (le_n N))) as (l & x & U & Sx & St). fold sv in U.
  pose proof U as (C & Fl).
  destruct (chain_grid m fuelc o rhs tb _ _ _ _ W Hf C) as (G1 & G2 & G3 & G4).
  exists N, (length l), (combine (ta :: tr) vs), s'. split; auto.
  assert (Hnow : now s' = now s + INR (length l) * hstep s).
  { rewrite (sim_now _ _ Sx), G4. apply grid_R. }
  split; auto. split.
  - destruct (rev_case l) as [->|(y & l' & ->)]; [now left|]. right.
    apply chain_split in C as (x1 & C1 & C2).
    rewrite removelast_cons_app in Fl. apply Forall_app in Fl as (_ & Fl). inversion Fl as [|? ? Q1 Q2]; subst.
    destruct (chain_grid m fuelc o rhs tb _ _ _ _ W Hf C1) as (_ & _ & _ & G5).
    rewrite <- (chain_last _ _ _ _ _ C1) in Q1. rewrite app_length. cbn [length].
    replace (length l' + 1 - 1)%nat with (length l') by lia. rewrite <- grid_R, <- G5. apply Rltb_true in Q1.
    replace (last (ta :: tr) 0) with (last (ta :: tr) (@zero Rops)); auto. now rewrite zero_R.
  - replace (last (ta :: tr) 0) with (last (ta :: tr) (@zero Rops)) by (now rewrite zero_R).
    destruct St as [St|St].
    + left. apply Rltb_false in St. rewrite (sim_now _ _ Sx). exact St.
    + right. eapply sim_pass; eauto.
Qed.
End R.
