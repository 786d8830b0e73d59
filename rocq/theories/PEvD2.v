(** C93: the fixed step Runge-Kutta classes, RungeKutta23 and RungeKutta45. *)
From Coq Require Import List ZArith QArith Bool Arith Lia Reals Lra.
From Verif Require Import Base Scalar Vec MBuffer MZeros MSteps MApi MDop853 MClasses Laws Spec SpecInst SpecRK SpecDense SpecEv
  PStep PKeeps PClean PCore PHist PBound PVecR PTerm PRun PRun2 PRun3 PFwd PInterp PRK PDim PDense PC2 PTop1 PTop2 PMS7 PEv1 PEv2 PEv5 PEv6 PEv7 PEv9 PEv11
  SpecCtl SpecMS PMS PMS2 SpecOrder SpecConv SpecConv3 SpecLmm SpecLive PConv1 PConv9 PVar3 SpecVar SpecVL PVL3 PVL4 PVL5 SpecSolve PSolve1 PSolve2 PSolve3 PSolve4 SpecEvC PEvC1 PEvC2 PEvC3 SpecEvD PEvD1 SpecFive PFive3 PFive4.
Import ListNotations.
Open Scope R_scope.

Section S.
Context {E : @Env Rops}.
Variables (rhs : @rhs_t Rops) (n : nat) (L t0 te : R) (y : R -> list R).
Hypothesis HL : lipschitz n L rhs.
Hypothesis Hd : defined_on n rhs.
Hypothesis Hte : t0 <= te.
Let Hk : keeps_dim (OT := Rops) n rhs := proj1 (proj2 HL).

Lemma erk_core A B C fuelc o tb h x : let m := @Erk Rops A B C in shaped m -> 0 < h -> steady rhs n m h x -> ~ would_pass tb x ->
  exists x', core_of (E := E) m fuelc o rhs x = (Ret tt, x') /\ steady rhs n m h x' /\ now x' = now x + h /\ prev_t x' = now x /\ prev_y x' = state x.
Proof.
  intros m Sh Hh Sx Hw. destruct (explicit_core (E := E) rhs n Hk Hd m fuelc o x I Sh) as (x' & Hc); [apply Sx|apply Sx|].
  exists x'. split; [exact Hc|]. split; [eapply (steady_core (E := E) rhs n Hk m fuelc o tb); eauto; exact I|].
  assert (W : wf m x) by apply Sx. destruct Sx as (G & _ & _ & Hx).
  destruct (core_fixed_now m fuelc o rhs x x' W eq_refl Hc) as (N1 & _ & _). rewrite Hx in N1. split; [exact N1|].
  apply core_of_ok in Hc; [|apply wf_stages; exact W]. destruct Hc as (_ & _ & _ & t & v & f & (P1 & P2) & _).
  unfold prev_t, prev_y, now, state. rewrite P1. destruct W as (W & _). split; [apply (push_tp 0)|apply (push_yp 0)]; exact W.
Qed.
Lemma erk_interp A B C h x t : let m := @Erk Rops A B C in 0 < h -> steady rhs n m h x -> prev_t x <= t <= now x ->
  exists a x', interp_of (E := E) m rhs t x = (Ret a, x') /\ steady rhs n m h x' /\ cache x' = cache x /\
  (t = now x -> prev_t x < now x -> deref (cache x) a = state x) /\ (t = prev_t x -> prev_t x < now x -> deref (cache x) a = prev_y x).
Proof.
  intros m Hh Sx Ht. assert (W : wf m x) by apply Sx. pose proof W as ((L1 & L2 & L3) & _). cbn [len_history m] in L1, L2, L3.
  assert (D : dims n x) by apply Sx.
  assert (F : buf_t0 (cache x) = prev_t x /\ buf_y0 (cache x) = prev_y x /\ same_dim n (cache x)).
  { destruct D as (D1 & D2). unfold prev_t, prev_y, buf_tp, buf_yp, buf_t0, buf_y0, same_dim, buf_f0, buf_y, buf_f, buf_y0. destruct (cache x) as [a b c]. cbn [ts ys fs] in *.
    destruct a as [|a1 [|a2 [|]]]; try discriminate. destruct b as [|b1 [|b2 [|]]]; try discriminate. destruct c as [|c1 [|c2 [|]]]; try discriminate.
    inversion D1 as [|? ? D3 D4]; inversion D4; inversion D2 as [|? ? D5 D6]; inversion D6; subst. cbn. auto 10. }
  destruct F as (F1 & F2 & F3).
  assert (Hi : interp_of (E := E) m rhs t x = (hermite (OT := Rops) t (cache x), x)) by reflexivity.
  destruct (hermite_total t (cache x)) as (a & Ha); [rewrite F1; exact Ht|]. exists a, x. rewrite Hi, Ha. split; [reflexivity|]. split; [exact Sx|]. split; [reflexivity|].
  destruct (Req_dec t (buf_t0 (cache x))) as [e|e].
  - unfold hermite in Ha. replace (@eqb Rops t (buf_t0 (cache x))) with true in Ha by (symmetry; now apply Reqb_true). injection Ha as <-.
    split; intros Hx Hlt; [exfalso; rewrite Hx, F1 in e; lra|]. rewrite <- F2. cbn [deref]. unfold buf_y0. now destruct (ys (cache x)).
  - split; intros Hx Hlt; [|exfalso; apply e; rewrite F1; exact Hx].
    assert (Hlt' : buf_t0 (cache x) < buf_t (cache x)) by (rewrite F1; exact Hlt).
    assert (Hc : forall i, (i < n)%nat -> length (deref (cache x) a) = n /\ cmp i (deref (cache x) a) = cmp i (state x)).
    { intros i Hi'. destruct (hermite_cmp (cache x) n t i F3 Hi' Hlt' e) as (a' & Ha' & La & Hcm). cbn zeta in Hcm. rewrite Ha in Ha'. injection Ha' as <-. split; [exact La|].
      rewrite Hcm. replace ((t - buf_t0 (cache x)) / (buf_t (cache x) - buf_t0 (cache x))) with 1.
      - unfold Spec.state. match goal with |- @eq _ ?a ?b => change (@eq R a b) end. ring.
      - rewrite Hx. unfold Spec.now. field. lra. }
    destruct n as [|k] eqn:en.
    + destruct F3 as (Y0 & Y & _). apply length_zero_iff_nil in Y0, Y. pose proof (hermite_eval (cache x) t e Hlt') as He. cbn zeta in He. rewrite Ha in He. injection He as ->. cbn [deref].
      unfold Spec.state. rewrite Y0, Y. reflexivity.
    + apply (vec_ext n); rewrite en; [apply (Hc 0%nat); lia|apply F3|]. intros i Hi'. now apply Hc.
Qed.

Lemma erk_first A B C h x : steady rhs n (@Erk Rops A B C) h x -> buf_t0 (cache x) = prev_t x /\ prev_t x <= now x.
Proof.
  intros Sx. assert (W : wf (@Erk Rops A B C) x) by apply Sx. destruct W as ((L1 & _) & _). cbn [len_history] in L1. destruct Sx as (_ & _ & (O & _) & _).
  unfold prev_t, buf_tp, buf_t0, now, buf_t. destruct (ts (cache x)) as [|a1 [|a2 [|]]]; try discriminate. cbn [length Nat.sub nth last hd]. split; [reflexivity|].
  destruct (sorted_cons _ _ O) as (_ & S2). inversion S2 as [|? ? S3 _]; subst. now apply Rleb_true in S3.
Qed.
Lemma two_first m (x : stR) : len_history m = 2%nat -> wf m x -> in_order x -> buf_t0 (cache x) <= now x.
Proof.
  intros Hl ((L1 & _) & _) (O & _). rewrite Hl in L1. unfold buf_t0, now, buf_t. destruct (ts (cache x)) as [|a1 [|a2 [|]]]; try discriminate. cbn [last hd].
  destruct (sorted_cons _ _ O) as (_ & S2). inversion S2 as [|? ? S3 _]; subst. now apply Rleb_true in S3.
Qed.
Lemma rk_events_return m p fuelc o tb h s b t evs : In (m, p) rk_table -> 0 < h -> steady rhs n m h s -> @gt_ext Rops b tb = false -> event_call s b t evs ->
  exists N r s', forall fuel, (N <= fuel)%nat -> run_events (E := E) (solver_of (E := E) m fuelc o rhs tb) fuel t evs s = (Ret r, s').
Proof.
  intros Hm Hh Ss Hb (T1 & T2 & T3 & T4 & T5). destruct (rk_table_explicit m p Hm) as (Er & He & Sh & Fx). destruct m as [| |A B C| |]; try contradiction.
  destruct t as [|ta tr]; [congruence|].
  apply (events_return (E := E) (@Erk Rops A B C) fuelc o rhs tb (steady rhs n (@Erk Rops A B C) h) h b Hh); auto.
  - intros x Sx Hw _. destruct (erk_core A B C fuelc o tb h x Sh Hh Sx Hw) as (x' & C1 & C2 & C3 & C4 & C5). exists x'. split; [exact C1|]. split; [exact C2|]. split; [lra|]. auto.
  - intros q x Sx Hq. apply (erk_interp A B C h x q Hh Sx Hq).
  - intros x Sx. exact (erk_first A B C h x Sx).
  - intros x Hx. specialize (T3 x Hx). split; [exact T3|]. apply (gt_mono x b); auto. apply T3.
Qed.
Lemma last_in (t : list R) : t <> [] -> In (last t 0) t.
Proof. intros H. destruct (exists_last H) as (l & a & ->). rewrite last_last. apply in_or_app. right. now left. Qed.

Lemma C93_fixed m p : Ck_solution 5 rhs n t0 te y -> smooth_along rhs n t0 te y -> In (m, p) rk_table ->
  exists K, 0 <= K /\ forall h g, 0 < h <= 1 -> garbage_ok m g -> exists s0, init_rk m g rhs t0 (y t0) (Some h) = Ret s0 /\ now s0 = t0 /\
    forall fuelc o tb fuel cs s t evs, s = session (E := E) (solver_of (E := E) m fuelc o rhs tb) fuel cs s0 -> @gt_ext Rops te tb = false -> event_call s (te - h) t evs ->
    (forall j u G Lg sg mu del z, (forall u, In u evs -> ~ terminal u) -> nth_error evs j = Some u ->
       visible_zero n y u G Lg sg mu del z (now s) (last t 0) (K * h ^ p) h ->
       finds (E := E) (solver_of (E := E) m fuelc o rhs tb) s t evs j y z (K * h ^ p) ((Lg * (K * h ^ p) + ev_tol) / mu + h / 2 ^ 50)) /\
    (forall u G Lg Lt sg mu del z, evs = [u] -> terminal u -> visible_zero n y u G Lg sg mu del z (now s) (last t 0) (K * h ^ p) h ->
       first_zero y G Lg Lt del z (now s) te (K * h ^ p) h ->
       stops_at (E := E) (solver_of (E := E) m fuelc o rhs tb) s t u z ((Lg * (K * h ^ p) + ev_tol + Lt * (h / 2 ^ 50)) / mu)).
Proof.
  intros HC HJ Hm. destruct (C84_lemma (E := E) rhs n L t0 te y HL Hte m p HC HJ Hm) as (K & HK & H). exists K. split; [exact HK|]. intros h g Hh Hg.
  destruct (rk_table_explicit m p Hm) as (Er & He & Sh & Fx).
  destruct (init_rk_steady rhs n Hk Hd m g t0 (y t0) h Hg (Ck_dim _ _ _ _ _ _ HC Hte)) as (s0 & Hi & S0 & Hn0).
  exists s0. split; [exact Hi|]. split; [exact Hn0|]. intros fuelc o tb fuel cs s t evs Es Hg' Hc.
  assert (Sd : solver_dim (E := E) m) by (destruct m; try contradiction; exact I).
  assert (Ss : steady rhs n m h s). { rewrite Es. apply (steady_session (E := E) rhs n Hk); auto. lra. }
  destruct (H h g s0 fuelc o tb fuel cs s Hh Hg Hi Es) as (Het & Hst).
  assert (Hgb : @gt_ext Rops (te - h) tb = false) by (apply (gt_mono _ te); auto; lra).
  pose proof (rk_events_return m p fuelc o tb h s (te - h) t evs Hm (proj1 Hh) Ss Hgb Hc) as Hret. pose proof Hc as (T1 & T2 & T3 & T4 & T5).
  assert (Hnow : now s <= te) by (specialize (T3 _ (last_in t T1)); lra).
  assert (As : askable s (te - h) t).
  { split; [exact T1|]. split; [exact T2|]. intros x Hx. specialize (T3 x Hx). split; [|apply T3]. destruct m as [| |A B C| |]; try contradiction.
    pose proof (erk_first A B C h s Ss). lra. }
  destruct (explicit_solves (E := E) rhs n L te HL Hd m fuelc o tb h s t He Sh Fx (proj1 Hh) Ss Hnow Hg' As) as (N & rows & s' & R1 & R2 & R3).
  assert (Hrun : exists N rows s', (forall fuel, (N <= fuel)%nat -> run (E := E) (solver_of (E := E) m fuelc o rhs tb) fuel t s = (Ret rows, s')) /\ (map fst rows = t \/ (fun _ : stR => False) s') /\ now s' <= te)
    by (exists N, rows, s'; auto).
  assert (Rd : ready (E := E) m fuelc o rhs tb s).
  { left. split; [exact Fx|]. split; [|destruct Ss as (_ & _ & _ & ->); lra]. exists s0, fuel, cs. split; [|exact Es]. exact (built_rk rhs m g t0 (y t0) (Some h) s0 Er Hg Hi). }
  split.
  - intros j u G Lg sg mu del z Hnt Hj Hv.
    destruct (finds_or (E := E) m fuelc o rhs tb (fun _ => False) (fun _ _ _ _ f => f) n te y (K * h ^ p) h s t evs Rd T2 T1 T4 Hret Hrun Het Hnt j u G Lg sg mu del z Hj Hv) as [F|(? & ? & ? & _ & F)]; [exact F|destruct F].
  - intros u G Lg Lt sg mu del z Ee Hu Hv Hf.
    destruct (stops_or (E := E) m fuelc o rhs tb (fun _ => False) (fun _ _ _ _ f => f) n te y (K * h ^ p) h s t evs Rd T2 T1 T4 Hret Hrun Het u Ee Hu Hst) with (G := G) (Lg := Lg) (Lt := Lt) (sg := sg) (mu := mu) (del := del) (z := z)
      as [F|(? & ? & ? & _ & F)]; auto; [|apply Rmult_le_pos; [exact HK|apply pow_le; lra]|lra|destruct F].
    intros l x x1 tk Hch (Hw & Hcc) Hin Hlt. specialize (T3 tk Hin).
    assert (Sx : steady rhs n m h x).
    { clear - Hch Ss Hk Hd Sh Fx Sd Hh. induction Hch as [|q q1 l q2 (Qw & Qc) _ IH]; [exact Ss|]. apply IH. eapply (steady_core (E := E) rhs n Hk m fuelc o tb); eauto. lra. }
    destruct (core_fixed_now m fuelc o rhs x x1 (proj1 (proj1 Sx)) Fx Hcc) as (N1 & _). destruct Sx as (_ & _ & _ & Hx). rewrite Hx in N1. cbn in N1. rewrite N1. lra.
Qed.

(** an event theorem for a class with step size control *)
Definition events_within (m : @meth Rops) (eps : R -> R) : Prop := forall H g o sel first s0 fuelc tb fuel cs s, 0 < H <= 1 -> sane o -> garbage_ok m g ->
    init_var m g rhs t0 (y t0) o sel first = Ret s0 -> 0 <= hstep s0 ->
    steps_at_most H te (solver_of (E := E) m fuelc o rhs tb) s0 ->
    returns (E := E) (solver_of (E := E) m fuelc o rhs tb) fuel cs s0 s ->
    event_times (E := E) n te y (solver_of (E := E) m fuelc o rhs tb) s (eps H) H /\
    event_stops (E := E) n te y (solver_of (E := E) m fuelc o rhs tb) s (eps H) H.
Lemma var_events k m eps : (1 <= k)%nat -> Ck_solution k rhs n t0 te y -> In m pairs -> (1 <= n)%nat -> (forall H, 0 < H -> 0 <= eps H) -> events_within m eps ->
  forall (o : @options Rops) h0, tolerances o -> shrinking o -> (forall x : R, max_step o = @Fin Rops x -> 0 < x) -> 0 < h0 ->
  exists N, forall g sel, garbage_ok m g -> exists s0, init_var m g rhs t0 (y t0) o sel (Some h0) = Ret s0 /\ now s0 = t0 /\
    forall H fuelc fuel cs s t evs, let sv := solver_of (E := E) m fuelc o rhs (@Fin Rops te) in 0 < H <= 1 -> (N <= fuelc)%nat ->
    steps_at_most H te sv s0 -> returns (E := E) sv fuel cs s0 s -> event_call s te t evs ->
    (forall j u G Lg sg mu del z, (forall u, In u evs -> ~ terminal u) -> nth_error evs j = Some u ->
       visible_zero n y u G Lg sg mu del z (now s) (last t 0) (eps H) H ->
       finds (E := E) sv s t evs j y z (eps H) ((Lg * eps H + ev_tol) / mu + H / 2 ^ 50) \/ cut_short (E := E) sv s t evs) /\
    (forall u G Lg Lt sg mu del z, evs = [u] -> terminal u -> visible_zero n y u G Lg sg mu del z (now s) (last t 0) (eps H) H ->
       first_zero y G Lg Lt del z (now s) te (eps H) H ->
       stops_at (E := E) sv s t u z ((Lg * eps H + ev_tol + Lt * (H / 2 ^ 50)) / mu) \/ cut_short (E := E) sv s t evs).
Proof.
  intros Hk1 HC Hm' Hn1 HK HE o h0 Ho Hs Hmx Hh0.
  assert (Hin : In m [@RungeKutta23 Rops; @RungeKutta45 Rops; @DOP853 Rops]) by (destruct Hm' as [<-|[<-|[]]]; cbn; auto).
  assert (Fx : is_fixed m = false) by (destruct Hm' as [<-|[<-|[]]]; reflexivity).
  destruct (solution_bounds k rhs n L t0 te y Hk1 HL Hd Hte HC) as (M & HM). pose proof (Ck_dim _ _ _ _ _ _ HC Hte) as Hy0.
  destruct (C49_variable_lemma (E := E) rhs n L M t0 te (@Fin Rops te) m o (y t0) h0 HL Hd HM Hte Hn1 Hm' Ho Hs Hy0 Hh0) as (N1 & HN1).
  destruct (var_solves (E := E) rhs n L t0 te y HL Hd Hte k m o h0 Hk1 HC Hn1 Hm' Ho Hs Hh0) as (N2 & HN2).
  exists (Nat.max N1 N2). intros g sel Hg.
  destruct (init_pair rhs n t0 y Hd m g o sel h0 Hm' Hy0 Ho Hmx Hg) as (s0 & Hi & Hh1 & Hn0 & Hb0). exists s0. split; [exact Hi|]. split; [exact Hn0|].
  intros H fuelc fuel cs s t evs sv HH Hfu Hst Hret Hc. pose proof Hc as (T1 & T2 & T3 & T4 & T5).
  assert (So : sane o) by now apply shrinking_sane.
  destruct (HE H g o sel (Some h0) s0 fuelc (@Fin Rops te) fuel cs s HH So Hg Hi ltac:(rewrite Hh1; lra) Hst Hret) as (Het & Hev).
  pose proof (returns_session _ _ _ _ _ Hret) as Es. symmetry in Es.
  assert (Hb : built (E := E) rhs m s0) by (eapply built_var; eauto; destruct Hm' as [<-|[<-|[]]]; reflexivity).
  assert (Rd : ready (E := E) m fuelc o rhs (@Fin Rops te) s).
  { right. split; [exact Hin|]. split; [exact So|]. exists fuel, cs, s0. split; [exact Hb|]. split; [|split; [rewrite Hh1; lra|exact Hret]].
    destruct (init_var_fresh _ g rhs t0 (y t0) o sel (Some h0) s0 Hg Fx Hi) as (_ & Ex & _). intros q v f Hv Hf. assert (Hsl : length (state s0) = n) by (rewrite Ex; exact Hy0). rewrite Hsl in *. exact (Hk q v f Hv Hf). }
  assert (Hnow : now s <= te) by (specialize (T3 _ (last_in t T1)); lra).
  assert (Hr1 : exists N r s', forall fuel, (N <= fuel)%nat -> run_events (E := E) sv fuel t evs s = (Ret r, s')).
  { apply (HN1 g sel (Some h0) s0 fuelc fuel cs s Hg Hi Hh1 ltac:(lia) Es t evs T1 T2); auto. intros x Hx. specialize (T3 x Hx). split; [exact T3|]. cbn. apply Rltb_false. apply T3. }
  assert (Re : reachable (E := E) rhs m fuelc o (@Fin Rops te) s) by (exists s0, fuel, cs; auto). pose proof (reachable_wf _ _ _ _ _ _ Re) as Ws.
  assert (W0 : wf m s0) by (apply (built_good (E := E)) in Hb; apply Hb). assert (P0 : 0 <= hstep s0) by (rewrite Hh1; lra).
  assert (Os : in_order s /\ 0 <= hstep s).
  { rewrite Es. apply (order_var (E := E) m fuelc o rhs (@Fin Rops te)); auto. apply (built_order (E := E) m fuelc o rhs (@Fin Rops te)); auto. }
  assert (Hl2 : len_history m = 2%nat) by (destruct Hm' as [<-|[<-|[]]]; reflexivity).
  assert (As : askable s te t). { split; [exact T1|]. split; [exact T2|]. intros x Hx. specialize (T3 x Hx). pose proof (two_first m s Hl2 Ws (proj1 Os)). lra. }
  destruct (HN2 g sel (Some h0) s0 fuelc fuel cs s t Hg Hi Hh1 ltac:(lia) Es Hnow As) as (N' & rows & s' & R1 & R2 & R3).
  assert (Hrun : exists N rows s', (forall fuel, (N <= fuel)%nat -> run (E := E) sv fuel t s = (Ret rows, s')) /\ (map fst rows = t \/ would_pass (@Fin Rops te) s' /\ now s' < last t 0) /\ now s' <= te)
    by (exists N', rows, s'; auto).
  assert (HW : forall x x' : stR, cache x' = cache x -> hstep x' = hstep x -> would_pass (@Fin Rops te) x /\ now x < last t 0 -> would_pass (@Fin Rops te) x' /\ now x' < last t 0).
  { intros x x' E1 E2. unfold would_pass, now. now rewrite E1, E2. }
  split.
  - intros j u G Lg sg mu del z Hnt Hj Hv.
    exact (finds_or (E := E) m fuelc o rhs (@Fin Rops te) (fun x => would_pass (@Fin Rops te) x /\ now x < last t 0) HW n te y (eps H) H s t evs Rd T2 T1 T4 Hr1 Hrun Het Hnt j u G Lg sg mu del z Hj Hv).
  - intros u G Lg Lt sg mu del z Ee Hu Hv Hf.
    apply (stops_or (E := E) m fuelc o rhs (@Fin Rops te) (fun x => would_pass (@Fin Rops te) x /\ now x < last t 0) HW n te y (eps H) H s t evs Rd T2 T1 T4 Hr1 Hrun Het u Ee Hu Hev) with (G := G) (Lg := Lg) (Lt := Lt) (sg := sg) (mu := mu) (del := del) (z := z); auto;
      [|apply HK; lra|lra].
    intros l x x1 tk Hch Hcc Hi1 Hlt.
    assert (Hch2 : chain (OT := Rops) sv (@Fin Rops te) s (l ++ [x1]) x1) by (eapply PStep.chain_app; [exact Hch|]; eapply chain_cons; [exact Hcc|apply chain_nil]).
    pose proof (chain_bound_var (E := E) m fuelc o rhs (@Fin Rops te) (@Fin Rops te) s _ x1 Ws Fx So (proj2 Os) Hch2) as Q. rewrite map_app in Q. apply Forall_app in Q as (_ & Q).
    inversion Q as [|? ? Q1 _]; subst. cbn in Q1. apply Rltb_false in Q1. exact Q1.
Qed.

Definition var_finds (m : @meth Rops) (eps : R -> R) : Prop :=
  forall (o : @options Rops) h0, tolerances o -> shrinking o -> (forall x : R, max_step o = @Fin Rops x -> 0 < x) -> 0 < h0 ->
  exists N, forall g sel, garbage_ok m g -> exists s0, init_var m g rhs t0 (y t0) o sel (Some h0) = Ret s0 /\ now s0 = t0 /\
    forall H fuelc fuel cs s t evs, let sv := solver_of (E := E) m fuelc o rhs (@Fin Rops te) in 0 < H <= 1 -> (N <= fuelc)%nat ->
    steps_at_most H te sv s0 -> returns (E := E) sv fuel cs s0 s -> event_call s te t evs ->
    (forall j u G Lg sg mu del z, (forall u, In u evs -> ~ terminal u) -> nth_error evs j = Some u ->
       visible_zero n y u G Lg sg mu del z (now s) (last t 0) (eps H) H ->
       finds (E := E) sv s t evs j y z (eps H) ((Lg * eps H + ev_tol) / mu + H / 2 ^ 50) \/ cut_short (E := E) sv s t evs) /\
    (forall u G Lg Lt sg mu del z, evs = [u] -> terminal u -> visible_zero n y u G Lg sg mu del z (now s) (last t 0) (eps H) H ->
       first_zero y G Lg Lt del z (now s) te (eps H) H ->
       stops_at (E := E) sv s t u z ((Lg * eps H + ev_tol + Lt * (H / 2 ^ 50)) / mu) \/ cut_short (E := E) sv s t evs).
Lemma C93_var m p : Ck_solution 5 rhs n t0 te y -> smooth_along rhs n t0 te y -> In (m, p) var_table -> (1 <= n)%nat ->
  exists K, 0 <= K /\ var_finds m (fun H => K * H ^ p).
Proof.
  intros HC HJ Hm Hn1. destruct (C84_var_lemma (E := E) rhs n L t0 te y HL Hte HC HJ m p Hm) as (K & HK & HE). exists K. split; [exact HK|].
  refine (var_events 5 m (fun H => K * H ^ p) ltac:(lia) HC _ Hn1 _ HE); [destruct Hm as [[= <- _]|[[= <- _]|[]]]; cbn; auto|]. intros H HH. apply Rmult_le_pos; [exact HK|apply pow_le; lra].
Qed.
Lemma C93_five_lemma : Ck_solution 6 rhs n t0 te y -> smooth_along3 rhs n t0 te y -> (1 <= n)%nat ->
  exists K, 0 <= K /\ var_finds RungeKutta45 (fun H => K * H ^ 5).
Proof.
  intros HC HJ Hn1. destruct (C84_five_lemma (E := E) rhs n L t0 te y HL Hte HC HJ) as (K & HK & HE). exists K. split; [exact HK|].
  refine (var_events 6 _ (fun H => K * H ^ 5) ltac:(lia) HC _ Hn1 _ HE); [cbn; auto|]. intros H HH. apply Rmult_le_pos; [exact HK|apply pow_le; lra].
Qed.
End S.
