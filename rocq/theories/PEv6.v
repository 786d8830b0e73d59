(** C41 - C46, C48: the parts of [events_R]. *)
From Coq Require Import List ZArith Bool Arith Reals Lia Lra Sorted Ranalysis5.
From Verif Require Import Base Scalar Vec MBuffer MZeros MSteps MApi MDop853 MClasses Laws Spec SpecInst SpecRK SpecDense SpecEv
  PStep PKeeps PClean PCore PHist PBound PVecR PRun PRun2 PRun3 PFwd PInterp PRK PDim PDense PTop1 PEv1 PEv2 PEv3 PEv4 PEv5.
Import ListNotations.
Open Scope R_scope.

Lemma nth_combine {A B} (a : list A) (b : list B) j x y : nth_error a j = Some x -> nth_error b j = Some y -> In (x, y) (combine a b).
Proof. apply in_combine_nth. Qed.
Lemma ivt_gen (g : R -> R) a b : a < b -> (forall c, a <= c <= b -> continuity_pt g c) -> g a * g b < 0 ->
  exists z, a <= z <= b /\ g z = 0.
Proof.
  intros Hab Hc Hs. destruct (Rlt_dec (g a) 0) as [K|K].
  - destruct (IVT_interv g a b Hc Hab K) as (z & Hz & Hg); [nra|]. eauto.
  - assert (Ka : 0 < g a) by (destruct (Req_dec (g a) 0) as [e|e]; [rewrite e in Hs|]; lra).
    assert (Kb : g b < 0) by (apply Rnot_le_lt; intros Kb; assert (0 <= g a * g b) by (apply Rmult_le_pos; lra); lra).
    assert (Hc' : forall c, a <= c <= b -> continuity_pt (fun x => - g x) c) by (intros c Hcc; apply (continuity_pt_opp g); auto).
    destruct (IVT_interv (fun x => - g x) a b Hc' Hab) as (z & Hz & Hg); [lra|lra|]. exists z. split; auto. lra.
Qed.

Section R.
Context {E : @Env Rops}.
Notation now := (@now Rops).
Variables (m : @meth Rops) (fuelc : nat) (o : @options Rops) (rhs : @rhs_t Rops) (tb : @ext Rops).
Let sv := solver_of m fuelc o rhs tb.

Lemma ev_facts fuel t t' evs s r s' : ready m fuelc o rhs tb s -> ordered (OT := Rops) t t' -> evs <> [] ->
  run_events sv fuel t evs s = (Ret r, s') ->
  exists l s1, chain sv tb s l s1 /\ cache s' = cache s1 /\ hstep s' = hstep s1 /\
    length (rr_tev r) = length evs /\ length (rr_yev r) = length evs /\ went_forward s l /\
    (forall j ts, nth_error (rr_tev r) j = Some ts -> increasing ts) /\
    (forall j ts ys, nth_error (rr_tev r) j = Some ts -> nth_error (rr_yev r) j = Some ys -> length ts = length ys) /\
    (forall j u, nth_error evs j = Some u ->
       (forall x x1, step_of s l x x1 -> triggers u x x1 -> exists tau a, reports r j tau a /\ located sv u x x1 tau) /\
       (forall tau a, reports r j tau a ->
          exists x x1, step_of s l x x1 /\ triggers u x x1 /\ located sv u x x1 tau /\ sol_arr sv x1 tau = Ret a)).
Proof.
  intros Hr Ho He H. destruct (events_R m fuelc o rhs tb fuel t t' evs s r s' Hr Ho He H)
    as (l & s1 & H1 & H2 & H3 & H4 & H5 & H6 & H7 & _ & _ & H8 & _).
  assert (G : forall j ts, nth_error (rr_tev r) j = Some ts -> exists u, nth_error evs j = Some u).
  { intros j ts Hj. assert (j < length evs)%nat by (rewrite <- H6; apply nth_error_Some; congruence).
    apply nth_error_Some in H0. destruct (nth_error evs j); [eauto|congruence]. }
  exists l, s1. repeat (split; [assumption|]). split; [|split].
  - intros j ts Hj. destruct (G j ts Hj) as (u & Hu). destruct (H8 j u Hu) as (bs & ts' & ys & A & B & [C1 C2 C3 C4 C5]).
    rewrite A in Hj. injection Hj as <-. exact C2.
  - intros j ts ys Hj Hy. destruct (G j ts Hj) as (u & Hu). destruct (H8 j u Hu) as (bs & ts' & ys' & A & B & [C1 C2 C3 C4 C5]).
    rewrite A in Hj. rewrite B in Hy. injection Hj as <-. injection Hy as <-. exact C1.
  - intros j u Hu. destruct (H8 j u Hu) as (bs & ts & ys & A & B & [C1 C2 C3 C4 C5]). split.
    + intros x x1 Hs Ht. destruct (C3 x x1 Hs Ht) as (tau & D1 & D2).
      apply In_nth_error in D1 as (i & D1).
      assert (Hi : (i < length ys)%nat) by (rewrite <- C1; apply nth_error_Some; congruence).
      apply nth_error_Some in Hi. destruct (nth_error ys i) as [a|] eqn:ea; [|congruence].
      exists tau, a. split; auto. exists ts, ys, i. auto.
    + intros tau a (ts' & ys' & i & D1 & D2 & D3 & D4).
      rewrite A in D1. injection D1 as <-. rewrite B in D2. injection D2 as <-.
      apply C4. eapply nth_combine; eauto.
Qed.

Lemma C41_lemma fuel t t' evs s r s' : ready m fuelc o rhs tb s -> ordered (OT := Rops) t t' -> evs <> [] ->
  run_events sv fuel t evs s = (Ret r, s') ->
  exists l s1, chain sv tb s l s1 /\ cache s' = cache s1 /\ length (rr_tev r) = length evs /\
    forall j ts, nth_error (rr_tev r) j = Some ts -> increasing ts /\
      forall tau, In tau ts -> exists x x1, step_of s l x x1 /\ now x <= tau <= now x1.
Proof.
  intros Hr Ho He H. destruct (ev_facts fuel t t' evs s r s' Hr Ho He H) as (l & s1 & H1 & H2 & H3 & H4 & H5 & H6 & H7 & H8 & H9).
  exists l, s1. repeat (split; [assumption|]). intros j ts Hj. split; [eauto|]. intros tau Hin.
  assert (Hl : (j < length evs)%nat) by (rewrite <- H4; apply nth_error_Some; congruence).
  destruct (nth_error evs j) as [u|] eqn:eu; [|apply nth_error_None in eu; lia].
  destruct (nth_error (rr_yev r) j) as [ys|] eqn:ey; [|apply nth_error_None in ey; lia].
  pose proof (H8 j ts ys Hj ey) as Hlen. apply In_nth_error in Hin as (i & Hi).
  assert (Hil : (i < length ys)%nat) by (rewrite <- Hlen; apply nth_error_Some; congruence).
  destruct (nth_error ys i) as [a|] eqn:ea; [|apply nth_error_None in ea; lia].
  destruct (proj2 (H9 j u eu) tau a) as (x & x1 & A & B & C & D); [exists ts, ys, i; auto|].
  exists x, x1. split; auto. eapply located_in; eauto.
Qed.

Lemma C42_lemma fuel t t' evs s r s' : ready m fuelc o rhs tb s -> ordered (OT := Rops) t t' -> evs <> [] ->
  run_events sv fuel t evs s = (Ret r, s') ->
  exists l s1, chain sv tb s l s1 /\ cache s' = cache s1 /\
    forall j u, nth_error evs j = Some u ->
      (forall x x1, step_of s l x x1 -> triggers u x x1 -> exists tau a, reports r j tau a /\ located sv u x x1 tau) /\
      (forall tau a, reports r j tau a -> exists x x1, step_of s l x x1 /\ triggers u x x1 /\ located sv u x x1 tau).
Proof.
  intros Hr Ho He H. destruct (ev_facts fuel t t' evs s r s' Hr Ho He H) as (l & s1 & H1 & H2 & H3 & H4 & H5 & H6 & H7 & H8 & H9).
  exists l, s1. repeat (split; [assumption|]). intros j u Hu. destruct (H9 j u Hu) as (A & B). split; auto.
  intros tau a Hr0. destruct (B tau a Hr0) as (x & x1 & D1 & D2 & D3 & _). eauto.
Qed.

Lemma located_accurate u x x1 tau g : now x <= now x1 -> located sv u x x1 tau ->
  (forall c, now x <= c <= now x1 -> along sv u x1 c = Ret (g c) /\ continuity_pt g c) ->
  (tau = now x1 /\ value u x1 0) \/ Rabs (g tau) <= ev_tol \/
  exists z, now x <= z <= now x1 /\ g z = 0 /\ Rabs (tau - z) <= (now x1 - now x) / 2 ^ 50.
Proof.
  intros Hle [(A & ->)|(A & B & [(v & C1 & C2)|(a' & b' & va & vb & C1 & C2 & C3 & C4 & C5 & C6 & C7)])] Hg; [auto| |].
  - right. left. destruct (Hg tau B) as (G1 & _). rewrite C1 in G1. injection G1 as <-. exact C2.
  - right. right. assert (Ha : now x <= a' <= now x1) by lra. assert (Hb : now x <= b' <= now x1) by lra.
    destruct (Hg a' Ha) as (Ga & _). destruct (Hg b' Hb) as (Gb & _). rewrite C5 in Ga. rewrite C6 in Gb.
    injection Ga as ->. injection Gb as ->.
    destruct (ivt_gen g a' b') as (z & Z1 & Z2); [lra| |exact C7|].
    + intros c Hc. apply Hg. lra.
    + exists z. split; [lra|]. split; auto. rewrite <- C4. apply Rabs_le. lra.
Qed.
Lemma C43_lemma fuel t t' evs s r s' : ready m fuelc o rhs tb s -> ordered (OT := Rops) t t' -> evs <> [] ->
  run_events sv fuel t evs s = (Ret r, s') ->
  exists l s1, chain sv tb s l s1 /\ cache s' = cache s1 /\
    forall j u tau a, nth_error evs j = Some u -> reports r j tau a ->
    exists x x1, step_of s l x x1 /\ triggers u x x1 /\ now x <= tau <= now x1 /\ sol_arr sv x1 tau = Ret a /\
      forall g, (forall c, now x <= c <= now x1 -> along sv u x1 c = Ret (g c) /\ continuity_pt g c) ->
        (tau = now x1 /\ value u x1 0) \/ Rabs (g tau) <= ev_tol \/
        exists z, now x <= z <= now x1 /\ g z = 0 /\ Rabs (tau - z) <= (now x1 - now x) / 2 ^ 50.
Proof.
  intros Hr Ho He H. destruct (ev_facts fuel t t' evs s r s' Hr Ho He H) as (l & s1 & H1 & H2 & H3 & H4 & H5 & H6 & H7 & H8 & H9).
  exists l, s1. repeat (split; [assumption|]). intros j u tau a Hu Hra. destruct (proj2 (H9 j u Hu) tau a Hra) as (x & x1 & A & B & C & D).
  exists x, x1. split; auto. split; auto. split; [eapply located_in; eauto|]. split; auto.
  intros g Hg. eapply located_accurate; eauto.
Qed.

Lemma firstn_sampled fuel t' k vs s z tk : nth_error t' k = Some tk -> length vs = k -> run_eval_ sv fuel (firstn k t') s = (Ret vs, z) ->
  map fst (combine (firstn k t') vs) = firstn k t' /\ map snd (combine (firstn k t') vs) = vs /\ sampled sv s (firstn k t') vs z.
Proof.
  intros Hk Hl H. assert (Hlen : length (firstn k t') = k).
  { rewrite firstn_length. assert (k < length t')%nat by (apply nth_error_Some; congruence). lia. }
  split; [rewrite combine_fst, Hl; apply firstn_all2; lia|]. split; [apply combine_snd; lia|].
  apply run_eval_spec in H as (t1 & t2 & z1 & Ht & Hs & K). fold sv in Hs.
  pose proof (sampled_len _ _ _ _ _ _ _ _ _ Hs) as Hn.
  assert (t2 = []).
  { apply (f_equal (@length R)) in Ht. rewrite app_length in Ht. destruct t2; auto. cbn in Ht. change (@T Rops) with R in *. lia. }
  subst t2. rewrite app_nil_r in Ht. rewrite Ht. destruct K as [(_ & ->)|(tj & t3 & K & _)]; [auto|discriminate].
Qed.

(** the end of a call that a terminal event stopped *)
Definition stopped (fuel : nat) (t' : list R) (evs : list eventR) (s : stR) (r : @run_ret Rops) (l : list stR) (s1 : stR)
    (rows : list (R * list R)) : Prop :=
  exists x j u tau y rows0 z tk, last_step_of s l x s1 /\
    nth_error evs j = Some u /\ terminal u /\ triggers u x s1 /\ located sv u x s1 tau /\ sol sv s1 tau = Ret y /\
    (forall j' u', (j < j')%nat -> nth_error evs j' = Some u' -> terminal u' -> ~ triggers u' x s1) /\
    (forall u' x' x1, In u' evs -> terminal u' -> step_of s (removelast l) x' x1 -> ~ triggers u' x' x1) /\
    rows = rows0 ++ [(tau, y)] /\ map fst rows0 = firstn (length rows0) t' /\
    sampled sv s (map fst rows0) (map snd rows0) z /\ nth_error t' (length rows0) = Some tk /\ now x < tk.

Lemma stop_lemma fuel t t' evs s r s' : ready m fuelc o rhs tb s -> ordered (OT := Rops) t t' -> evs <> [] ->
  run_events sv fuel t evs s = (Ret r, s') ->
  exists l s1, chain sv tb s l s1 /\ cache s' = cache s1 /\ hstep s' = hstep s1 /\ went_forward s l /\
    (forall j u tau a, nth_error evs j = Some u -> reports r j tau a ->
          exists x x1, step_of s l x x1 /\ triggers u x x1 /\ located sv u x x1 tau) /\
    (((forall u x x1, In u evs -> terminal u -> step_of s l x x1 -> ~ triggers u x x1) /\
      exists z', run sv fuel t s = (Ret (rr_rows r), z') /\ cache z' = cache s1 /\ hstep z' = hstep s1)
     \/ exists rows, stopped fuel t' evs s r l s1 rows /\
        (if is_sorted (OT := Rops) t then rr_rows r = rows else fancy rows (inv_perm (@np_argsort Rops E t)) = Ret (rr_rows r))).
Proof.
  intros Hr Ho He H. destruct (events_R m fuelc o rhs tb fuel t t' evs s r s' Hr Ho He H)
    as (l & s1 & H1 & H2 & H3 & H4 & H5 & H6 & H7 & H7a & H7b & H8 & HC).
  exists l, s1. repeat (split; [assumption|]). split.
  { intros j u tau a Hu (ts & ys & i & D1 & D2 & D3 & D4). destruct (H8 j u Hu) as (bs & ts' & ys' & A & B & [C1 C2 C3 C4 C5]).
    rewrite A in D1. injection D1 as <-. rewrite B in D2. injection D2 as <-.
    destruct (C4 tau a) as (x & x1 & K1 & K2 & K3 & K4); [eapply nth_combine; eauto|eauto]. }
  destruct HC as [(A & z' & B1 & B2 & B3 & B4)|(l0 & tau & y & El & (u & a & j & ts & ys & F1 & F2 & F3 & F4 & F5 & F6 & F7 & F8 & F9 & F10)
    & G & k & vs & z & K1 & K2 & K3 & tk & K4 & K5)].
  - left. split; auto. exists z'. auto.
  - right. destruct (firstn_sampled fuel t' k vs s z tk K4 K1 K2) as (M1 & M2 & M3).
    exists (combine (firstn k t') vs ++ [(tau, y)]). split; [|exact K3].
    exists (last l0 s), j, u, tau, y, (combine (firstn k t') vs), z, tk.
    assert (Hlen : length (combine (firstn k t') vs) = k).
    { pose proof (f_equal (@length _) M2) as Q. rewrite map_length in Q. congruence. }
    split; [exists l0; auto|]. repeat (split; [assumption|]). split; [rewrite F6; now apply sol_of|].
    split; [assumption|]. split; [now rewrite El, removelast_last|].
    split; [reflexivity|]. split; [exact (eq_trans M1 (f_equal (fun n => firstn n t') (eq_sym Hlen)))|].
    split; [|split; [exact (eq_trans (f_equal (nth_error t') Hlen) K4)|exact K5]].
    refine (eq_ind_r (fun a => sampled sv s a _ z) (eq_ind_r (fun b => sampled sv s (firstn k t') b z) M3 M2) M1).
Qed.
End R.
