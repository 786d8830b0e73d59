(** C85 for RungeKutta23 and RungeKutta45. *)
From Coq Require Import List ZArith Bool Arith Lia Reals Lra.
From Verif Require Import Base Scalar Vec MBuffer MZeros MSteps MApi MDop853 MClasses Laws Spec SpecInst
  PStep PKeeps PCore PHist PBound PVecR SpecRK PMS PDense SpecCtl SpecMS SpecConv PConv1 SpecLive SpecVL PVar1 PVL1 PVL2 PVL3 PVL4.
Import ListNotations.
Open Scope R_scope.

Lemma pairs_tab m : In m pairs -> exists A B C Ew order P, m = @Fsal Rops A B C Ew order P /\ length C = length A /\ A <> [] /\
  Forall (fun c => 0 <= c <= 1) (skipn 1 C) /\ (0 <= order)%Z.
Proof.
  intros [<-|[<-|[]]].
  - do 6 eexists. split; [reflexivity|]. split; [reflexivity|]. split; [discriminate|]. split; [|lia].
    rewrite ?Rops_lits. cbn [map skipn QArith_base.Qnum QArith_base.Qden]. repeat (apply Forall_cons; [lra|]). apply Forall_nil.
  - do 6 eexists. split; [reflexivity|]. split; [reflexivity|]. split; [discriminate|]. split; [|lia].
    rewrite ?Rops_lits. cbn [map skipn QArith_base.Qnum QArith_base.Qden]. repeat (apply Forall_cons; [lra|]). apply Forall_nil.
Qed.

Section C85.
Context {E : @Env Rops}.
Lemma live_all rhs n L M t0 te tb m o y0 h0 : lipschitz n L rhs -> defined_on n rhs -> bounded_at_zero n M t0 tb rhs -> t0 <= te -> (1 <= n)%nat ->
  In m pairs -> tolerances o -> shrinking o -> length y0 = n -> 0 < h0 ->
  exists fl N (I : nat -> @st Rops -> Prop), 0 < fl /\ forall fuelc, (N <= fuelc)%nat -> let sv := solver_of (E := E) m fuelc o rhs tb in
    (forall g sel first s0, garbage_ok m g -> init_var m g rhs t0 y0 o sel first = Ret s0 -> hstep s0 = h0 -> I fuelc s0) /\
    (forall fuel cs s, I fuelc s -> I fuelc (session (E := E) sv fuel cs s)) /\
    (forall x, I fuelc x -> now x <= te -> fl <= hstep x) /\
    (forall x, I fuelc x -> now x <= te -> ~ would_pass tb x -> exists x', took_step sv x x' /\ now x + fl <= now x') /\
    (forall x, I fuelc x -> ~ would_pass tb x -> now x <= te ->
      exists x', core_of (E := E) m fuelc o rhs x = (Ret tt, x') /\ I fuelc x' /\ buf_t0 (cache x') <= now x /\ now x + fl <= now x' <= now x + hstep x) /\
    (forall t x, I fuelc x -> buf_t0 (cache x) <= t <= now x -> exists a x', interp_of (E := E) m rhs t x = (Ret a, x') /\ I fuelc x' /\ cache x' = cache x).
Proof.
  intros HL Hdef HB Hte Hn Hm Ho Hs Hy Hh.
  assert (HM : bounded_at_zero n (Rmax M 0) t0 tb rhs).
  { intros t Ht Hg. destruct (HB t Ht Hg) as (f & H1 & H2). exists f. split; auto. intros i Hi. eapply Rle_trans; [now apply H2|apply Rmax_l]. }
  destruct (pairs_tab m Hm) as (A & B & C & Ew & order & P & -> & HC & HA & Hcs & Hord).
  destruct (vb_ex n y0 Hy) as (a0 & Ha0 & By).
  destruct (live_core (E := E) rhs n L (Rmax M 0) t0 te tb HL Hdef (Rmax_r _ _) HM Hte Hn A B C Ew order P o HC HA Hcs Hord Ho Hs a0 h0 Ha0 Hh) as (Ct & del & k & HCt & Hdel & Hlc).
  assert (Hfl : 0 < floor_h o h0 del) by (unfold floor_h; apply Rmin_glb_lt; [exact Hh|apply Rmult_lt_0_compat; [apply Hs|exact Hdel]]).
  exists (floor_h o h0 del), (S k), (fun _ => vlive rhs n t0 te A B C Ew order P o a0 h0 Ct del). split; [exact Hfl|].
  intros fuelc Hfu. cbv zeta.
  pose proof (fun x => Hlc fuelc x Hfu) as Hlc'. clear Hlc.
  split; [intros; eapply live_init; eauto|].
  split. { intros fuel cs s Hx. eapply live_session; eauto. }
  split; [intros x (_ & _ & _ & Hx) Hnow; apply (Hx Hnow)|].
  split. { intros x Hv Hx Hw. eapply live_took; eauto. }
  split.
  - intros x Hv Hw Hx. destruct (Hlc' x Hv Hw Hx) as (x' & H1 & H2 & H3 & H4). exists x'. split; auto. split; auto. split; auto.
    rewrite <- (prev_is_first A B C Ew order P x') by apply H2. right. exact H3.
  - intros t x Hv Ht. eapply interp_total; eauto.
Qed.
Lemma C85_lemma rhs n L M t0 te tb m o y0 h0 : lipschitz n L rhs -> defined_on n rhs -> bounded_at_zero n M t0 tb rhs -> t0 <= te -> (1 <= n)%nat ->
  In m pairs -> tolerances o -> shrinking o -> length y0 = n -> 0 < h0 ->
  exists hmin N, 0 < hmin /\ forall g sel first s0 fuelc fuel cs s, garbage_ok m g -> init_var m g rhs t0 y0 o sel first = Ret s0 -> hstep s0 = h0 -> (N <= fuelc)%nat ->
    s = session (E := E) (solver_of (E := E) m fuelc o rhs tb) fuel cs s0 -> now s <= te ->
    hmin <= hstep s /\ (~ would_pass tb s -> exists s', took_step (solver_of (E := E) m fuelc o rhs tb) s s' /\ now s + hmin <= now s').
Proof.
  intros HL Hdef HB Hte Hn Hm Ho Hs Hy Hh. destruct (live_all rhs n L M t0 te tb m o y0 h0 HL Hdef HB Hte Hn Hm Ho Hs Hy Hh) as (fl & N & I & Hfl & H).
  exists fl, N. split; [exact Hfl|]. intros g sel first s0 fuelc fuel cs s Hg Hi Hh0 Hfu -> Hnow.
  destruct (H fuelc Hfu) as (H1 & H2 & H3 & H4 & _). pose proof (H2 fuel cs s0 (H1 _ _ _ _ Hg Hi Hh0)) as Is. split; [now apply H3|]. intros Hw. now apply H4.
Qed.
Lemma C85_calls_lemma rhs n L M t0 te tb m o y0 h0 : lipschitz n L rhs -> defined_on n rhs -> bounded_at_zero n M t0 tb rhs -> t0 <= te -> (1 <= n)%nat ->
  In m pairs -> tolerances o -> shrinking o -> length y0 = n -> 0 < h0 ->
  exists N, forall g sel first s0 fuelc fuel cs s, garbage_ok m g -> init_var m g rhs t0 y0 o sel first = Ret s0 -> hstep s0 = h0 -> (N <= fuelc)%nat ->
    let sv := solver_of (E := E) m fuelc o rhs tb in s = session (E := E) sv fuel cs s0 ->
    (forall x, now s <= x <= te -> @gt_ext Rops x tb = false -> exists N' rows (s' : @st Rops), now s' <= x < now s' + hstep s' /\ forall fuel', (N' <= fuel')%nat ->
       step sv fuel' None (Some (@Fin Rops x)) s = (Ret (RMany rows), s') /\ skip sv fuel' None (Some (@Fin Rops x)) s = (Ret tt, s')) /\
    (forall t : list R, t <> [] -> is_sorted (OT := Rops) t = true -> (forall x, In x t -> buf_t0 (cache s) <= x <= te /\ @gt_ext Rops x tb = false) ->
       exists N' rows s', (map fst rows = t \/ would_pass tb s') /\ forall fuel', (N' <= fuel')%nat -> run (E := E) sv fuel' t s = (Ret rows, s')).
Proof.
  intros HL Hdef HB Hte Hn Hm Ho Hs Hy Hh. destruct (live_all rhs n L M t0 te tb m o y0 h0 HL Hdef HB Hte Hn Hm Ho Hs Hy Hh) as (fl & N & I & Hfl & H).
  exists N. intros g sel first s0 fuelc fuel cs s Hg Hi Hh0 Hfu sv ->.
  destruct (H fuelc Hfu) as (H1 & H2 & _ & _ & H5 & H6). pose proof (H2 fuel cs s0 (H1 _ _ _ _ Hg Hi Hh0)) as Is.
  split.
  - intros x Hx Hb. destruct (step_returns (E := E) m fuelc o rhs tb (I fuelc) fl te Hfl H5 _ x Is Hx Hb) as (N' & rows & s' & Q1 & Q2). exists N', rows, s'. auto.
  - intros t Ht Hso Hr. destruct (run_returns (E := E) m fuelc o rhs tb (I fuelc) fl te Hfl H5 H6 _ t Is Ht Hso Hr) as (N' & rows & s' & Q1 & _ & Q2). exists N', rows, s'. split; [destruct Q2 as [Q2|[Q2 _]]; auto|auto].
Qed.
End C85.
