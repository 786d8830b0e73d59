(** Forms of the lemmas used in the statements of Props1. *)
From Coq Require Import List ZArith QArith Qcanon Bool Arith Lia Reals Lra.
From Verif Require Import Base Scalar Vec MBuffer MZeros MSteps MApi MClasses Laws Spec SpecInst
  PStep PKeeps PCore PHist PBound PRun PRun2 PRun3 PFwd Ex PTerm PRef1.
Import ListNotations.
Open Scope nat_scope.

Section A.
Context {OT : Ops} {E : Env}.
Variable m : meth.
Variables (fuelc : nat) (o : options) (rhs : rhs_t) (tb : ext).
Let sv := solver_of m fuelc o rhs tb.

Lemma reachable_wf s : reachable rhs m fuelc o tb s -> wf m s.
Proof. intros H. apply (reachable_good OT E rhs m fuelc o tb) in H. apply H. Qed.

(** the rows of any call of step are those of consecutive completed steps *)
Lemma step_rows fuel n u s rows s' : step sv fuel n u s = (Ret (RMany rows), s') ->
  exists b l, chain sv b s l s' /\ rows = map row l.
Proof.
  destruct u as [u|].
  - destruct (ext_lt u (now s)) eqn:el.
    + intros H. rewrite (proj1 (C07_lemma sv fuel n u s el)) in H. injection H as <- <-.
      exists u, []. split; [constructor|reflexivity].
    + rewrite (not_lt_upto sv u s el). destruct n as [k|].
      * destruct (ext_gt u _); [discriminate|]. destruct (k <? 0)%Z; [discriminate|].
        destruct (nsteps_ sv (Z.to_nat k) u s) as [[p| |] s1] eqn:en; try discriminate.
        intros H. injection H as <- <-. apply nsteps_spec in en. destruct p as [r st]. cbn in *.
        destruct en as (l & C & -> & _). eauto.
      * destruct (ext_gt u _); [discriminate|].
        destruct (steps_ sv fuel u s) as [[p| |] s1] eqn:en; try discriminate.
        intros H. injection H as <- <-. apply steps_spec in en. cbn in *.
        destruct en as (l & C & -> & _). eauto.
  - destruct n as [k|].
    + destruct (Z.ltb_spec k 0) as [Hk|Hk].
      * unfold step. assert (K : (k <? 0)%Z = true) by (apply Z.ltb_lt; lia). rewrite K. discriminate.
      * intros H. apply (C09_success sv) in H as (l & C & _ & ->); auto. eauto.
    + intros H. exfalso. unfold step, bind, get in H. destruct (step_ sv _ s) as [[[]| |] ?]; discriminate.
Qed.

Lemma C06_times s fuel u rows s' : reachable rhs m fuelc o tb s -> is_fixed m = true ->
  step sv fuel None (Some u) s = (Ret (RMany rows), s') ->
  Forall (fun r => gt_ext (fst r) u = false) rows.
Proof.
  intros W%reachable_wf Hf H. destruct (ext_lt u (now s)) eqn:el.
  - rewrite (proj1 (C07_lemma sv fuel None u s el)) in H. injection H as <- <-. constructor.
  - rewrite (not_lt_upto sv u s el) in H. destruct (ext_gt u _); [discriminate|].
    destruct (steps_ sv fuel u s) as [[p| |] s1] eqn:en; try discriminate.
    injection H as <- <-. apply steps_spec in en. destruct en as (l & C & -> & _).
    eapply chain_bound_fixed; eauto.
Qed.

Lemma C10_lemma s fuel n u rows s' : reachable rhs m fuelc o tb s -> is_fixed m = true ->
  step sv fuel n u s = (Ret (RMany rows), s') ->
  map fst rows = map (fun k => grid (now s) (hstep s) (S k)) (seq 0 (length rows)) /\
  now s' = grid (now s) (hstep s) (length rows) /\ hstep s' = hstep s.
Proof.
  intros W%reachable_wf Hf H. apply step_rows in H as (b & l & C & ->).
  destruct (chain_grid _ _ _ _ _ _ _ _ _ W Hf C) as (A & _ & B & D).
  rewrite map_length, map_map. cbn [row fst]. auto.
Qed.
Lemma C10_session s0 fuel cs : built rhs m s0 -> is_fixed m = true ->
  hstep (session sv fuel cs s0) = hstep s0 /\
  exists k, now (session sv fuel cs s0) = grid (now s0) (hstep s0) k.
Proof.
  intros B Hf. destruct (C22_lemma rhs m s0 fuelc o tb fuel cs B) as (l & G).
  fold sv in G. pose proof G as (_ & _ & G'). destruct (G' Hf) as (G1 & _). split; auto.
  exists (length l). apply (grows_now rhs m); auto. apply built_good in B. apply B.
Qed.
Lemma C05_fixed g t0 y0 h m1 s1 fuel1 o1 fuel s :
  garbage_ok m g -> is_multistep m -> 1 < ms_order m -> is_fixed m1 = true -> built rhs m1 s1 ->
  now s1 = t0 -> state s1 = y0 -> hstep s1 = match h with Some x => x | None => one end ->
  init_ms m g rhs t0 y0 h (FSFixed (fun _ _ _ => Ret (solver_of m1 fuel1 o1 rhs PInf, s1))) fuel = Ret s ->
  ts (cache s) = map (grid t0 (hstep s)) (seq 0 (ms_order m)).
Proof. intros. eapply init_ms_fixed; eauto. now apply built_good. Qed.
Lemma init_ms_none_eq g t0 y0 h fuel s : garbage_ok m g ->
  init_ms m g rhs t0 y0 h FSNone fuel = Ret s ->
  ts (cache s) = repeat t0 (len_history m) /\ ys (cache s) = repeat y0 (len_history m).
Proof.
  intros G H. unfold init_ms in H. destruct (init_base m g rhs t0 y0 h) as [s2| |] eqn:ei; try discriminate.
  cbn [obind] in H. apply (init_base_spec m g rhs t0 y0 h s2 G) in ei as (_ & f & Hf & Hc & Hh).
  replace (if ms_order m =? 1 then _ else _) with
    (Ret (set_cache (iterate (len_history m - 1) (fun c => push c (buf_t c) (buf_y c) (buf_f c)) (cache s2)) s2)) in H
    by (now destruct (ms_order m =? 1)).
  injection H as <-.
  cbn [cache set_cache]. assert (K0 : exists n, len_history m = S n) by (destruct (len_history_pos m) as (n & Hn); eauto).
  destruct K0 as (n & Hn). rewrite Hc, Hn.
    rewrite (iterate_same n) by (repeat split; cbn [ts ys fs]; apply repeat_length).
    destruct (push_all_spec n (repeat (buf_t (mkbuf (repeat t0 (S n)) (repeat y0 (S n)) (repeat f (S n))),
       buf_y (mkbuf (repeat t0 (S n)) (repeat y0 (S n)) (repeat f (S n))),
       buf_f (mkbuf (repeat t0 (S n)) (repeat y0 (S n)) (repeat f (S n)))) (S n - 1))
      (mkbuf (repeat t0 (S n)) (repeat y0 (S n)) (repeat f (S n)))) as (P1 & P2 & _).
    { repeat split; cbn [ts ys fs]; apply repeat_length. }
    rewrite P1, P2, !map_repeat. cbn [ts ys]. unfold e_t, e_y. cbn [fst snd].
    replace (buf_t (mkbuf (repeat t0 (S n)) (repeat y0 (S n)) (repeat f (S n)))) with t0
      by (unfold buf_t; cbn [ts]; now rewrite last_repeat by lia).
    replace (buf_y (mkbuf (repeat t0 (S n)) (repeat y0 (S n)) (repeat f (S n)))) with y0
      by (unfold buf_y; cbn [ys]; now rewrite last_repeat by lia).
    rewrite <- !repeat_app. unfold lastn.
    assert (K : forall X (x : X) a c, c <= a -> skipn (a - c) (repeat x a) = repeat x c).
    { intros X x a c Hc'. replace a with ((a - c) + c) at 2 by lia. induction (a - c); cbn; auto. }
    rewrite !repeat_length, !K by lia. split; reflexivity.
Qed.
Lemma init_ms_none g t0 y0 h fuel s : garbage_ok m g ->
  init_ms m g rhs t0 y0 h FSNone fuel = Ret s -> Forall (fun x => x = t0) (ts (cache s)).
Proof.
  intros G H. destruct (init_ms_none_eq _ _ _ _ _ _ G H) as (-> & _). now apply Forall_repeat.
Qed.
Lemma C08_lemma {L : OrdLaws OT} fuel t t' evs s x : ordered t t' -> In x t ->
  leb (buf_t0 (cache s)) (buf_t0 (cache s)) = true ->
  ltb x (buf_t0 (cache s)) = true \/ gt_ext x tb = true ->
  run_events sv fuel t evs s = (Raise ValueError, s).
Proof. apply C08_run. Qed.
End A.

Section R.
Context {E : @Env Rops}.
Variable m : @meth Rops.
Variables (fuelc : nat) (o : @options Rops) (rhs : @rhs_t Rops) (tb : @ext Rops).
Let sv := solver_of m fuelc o rhs tb.

Lemma C04_var' fuel cs s0 : built rhs m s0 -> is_fixed m = false ->
  (0 <= min_factor o <= 1)%R -> (0 <= max_factor o)%R -> (safety_factor o <= 1)%R ->
  (0 <= hstep s0)%R -> gt_ext (now s0) tb = false ->
  gt_ext (now (session sv fuel cs s0)) tb = false.
Proof. intros. apply C04_var; auto; [now apply built_good | repeat split; lra]. Qed.

Lemma C06_times_var s fuel u rows s' : reachable rhs m fuelc o tb s -> is_fixed m = false ->
  (0 <= min_factor o <= 1)%R -> (0 <= max_factor o)%R -> (safety_factor o <= 1)%R -> (0 <= hstep s)%R ->
  step sv fuel None (Some u) s = (Ret (RMany rows), s') ->
  Forall (fun r => gt_ext (fst r) u = false) rows.
Proof.
  intros W%reachable_wf Hf H1 H2 H3 Hh H. destruct (ext_lt u (now s)) eqn:el.
  - rewrite (proj1 (C07_lemma sv fuel None u s el)) in H. injection H as <- <-. constructor.
  - rewrite (not_lt_upto sv u s el) in H. destruct (ext_gt u _); [discriminate|].
    destruct (steps_ sv fuel u s) as [[p| |] s1] eqn:en; try discriminate.
    injection H as <- <-. apply steps_spec in en. destruct en as (l & C & -> & _).
    eapply chain_bound_var; eauto. repeat split; lra.
Qed.

Lemma C10_R s fuel n u rows s' : reachable rhs m fuelc o tb s -> is_fixed m = true ->
  step sv fuel n u s = (Ret (RMany rows), s') ->
  map fst rows = map (fun k => now s + INR (S k) * hstep s)%R (seq 0 (length rows)) /\
  now s' = (now s + INR (length rows) * hstep s)%R.
Proof.
  intros W Hf H. destruct (C10_lemma m fuelc o rhs tb s fuel n u rows s' W Hf H) as (A & B & _).
  rewrite A, B, grid_R. split; auto. apply map_ext. intros k. apply grid_R.
Qed.

Lemma C11_step s x : reachable rhs m fuelc o tb s -> is_fixed m = true -> (0 < hstep s)%R ->
  (now s <= x)%R -> @gt_ext Rops x tb = false ->
  steps_return sv (@Fin Rops x) s ->
  exists n, (INR n * hstep s <= x - now s < INR (S n) * hstep s)%R /\
  exists rows s', length rows = n /\
  forall fuel, n < fuel -> step sv fuel None (Some (@Fin Rops x)) s = (Ret (RMany rows), s')
                        /\ skip sv fuel None (Some (@Fin Rops x)) s = (Ret tt, s').
Proof.
  intros W Hf Hh Hx Hb Hr.
  destruct (C11_lemma m fuelc o rhs tb s x (reachable_wf _ _ _ _ _ _ W) Hf Hh Hx Hb Hr) as (n & Hn & rows & s' & Hl & _ & K).
  exists n. split; auto. exists rows, s'. split; auto. intros fuel Hfu. specialize (K fuel Hfu). fold sv in K.
  split; auto. rewrite (C02_lemma sv) by discriminate. now rewrite K.
Qed.
Lemma explicit_returns b s : explicit m -> total rhs -> steps_return sv b s.
Proof. intros Hm Ht l x _. exact (core_total m fuelc o rhs x Ht Hm). Qed.
Lemma C11_run' s (ta : R) (tr : list R) : reachable rhs m fuelc o tb s -> explicit m -> total rhs -> (0 < hstep s)%R ->
  in_order s -> is_sorted (OT := Rops) (ta :: tr) = true ->
  (forall x, In x (ta :: tr) -> (buf_t0 (cache s) <= x)%R /\ @gt_ext Rops x tb = false) ->
  exists N n rows s', (forall fuel, N <= fuel -> run sv fuel (ta :: tr) s = (Ret rows, s')) /\
    now s' = (now s + INR n * hstep s)%R /\
    (n = 0 \/ (now s + INR (n - 1) * hstep s < last (ta :: tr) 0)%R) /\
    ((last (ta :: tr) 0 <= now s')%R \/ would_pass tb s').
Proof. intros W. apply C11_run. now apply reachable_wf in W. Qed.
Lemma C12_neg s x fuel rows s' : reachable rhs m fuelc o tb s -> is_fixed m = true -> (hstep s <= 0)%R ->
  (now s <= x)%R -> @gt_ext Rops x tb = false ->
  step sv fuel None (Some (@Fin Rops x)) s <> (Ret rows, s').
Proof.
  intros W Hf Hh Hx Hb. destruct (C12_lemma m fuelc o rhs tb s x fuel rows s' (reachable_wf _ _ _ _ _ _ W) Hf Hh Hx); auto.
  congruence.
Qed.
End R.

(** ** instances over the reals *)
Definition ER : @Env Rops := @env0 Rops true.
Definition r_rk4 (h : R) : @st Rops :=
  of_outcome (init_rk (RungeKutta4 (OT := Rops)) (garb RungeKutta4) rhs_exp (0%R : @T Rops) [1%R] (Some h)).
Lemma r_rk4_built h : built (OT := Rops) (E := ER) rhs_exp RungeKutta4 (r_rk4 h).
Proof.
  refine (built_rk (OT := Rops) (E := ER) _ RungeKutta4 (garb RungeKutta4) 0%R [1%R] (Some h) _ I (garb_ok _) _).
  apply of_outcome_ok. reflexivity.
Qed.
Lemma r_rk4_reach h fuelc o tb : reachable (OT := Rops) (E := ER) rhs_exp RungeKutta4 fuelc o tb (r_rk4 h).
Proof. exists (r_rk4 h), 0, []. split; [apply r_rk4_built | reflexivity]. Qed.
Definition r_rk23 (h : R) : @st Rops :=
  of_outcome (init_var (RungeKutta23 (OT := Rops)) (garb RungeKutta23) rhs_exp (0%R : @T Rops) [1%R] default_options
    (fun _ _ _ => Ret one) (Some h)).
Lemma r_rk23_built h : built (OT := Rops) (E := ER) rhs_exp RungeKutta23 (r_rk23 h).
Proof.
  refine (built_var (OT := Rops) (E := ER) _ RungeKutta23 (garb RungeKutta23) 0%R [1%R] default_options
    (fun _ _ _ => Ret one) (Some h) _ eq_refl (garb_ok _) _).
  apply of_outcome_ok. unfold init_var. cbn [obind init_base rhs_exp max_step default_options].
  assert (K : @ltb Rops (atol default_options) zero = false).
  { apply Rltb_false. rewrite zero_R. cbn [atol default_options]. rewrite lit_R. cbn. lra. }
  rewrite K. reflexivity.
Qed.
Lemma total_exp {OT : Ops} : total (@rhs_exp OT).
Proof. intros t y. now exists y. Qed.
Lemma total_one {OT : Ops} : total (@rhs_one OT).
Proof. intros t y. eexists. reflexivity. Qed.
