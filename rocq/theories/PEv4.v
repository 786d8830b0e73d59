(** Events: the instances that satisfy the hypotheses of PEv1-PEv3. *)
From Coq Require Import List ZArith QArith Bool Arith Lia Reals Lra Sorted.
From Verif Require Import Base Scalar Vec MBuffer MZeros MSteps MApi MDop853 MClasses Laws Spec SpecInst SpecRK SpecDense SpecEv
  PStep PKeeps PClean PCore PHist PBound PVecR PRun PRun2 PRun3 PFwd PInterp PRK PDim PDense PTop1 PEv1 PEv2 PEv3.
Import ListNotations.
Open Scope R_scope.

Section R.
Context {E : @Env Rops}.
Notation now := (@now Rops).
Notation prev_t := (@prev_t Rops).

Record steady (m : @meth Rops) (fuelc : nat) (o : @options Rops) (rhs : @rhs_t Rops) (tb : @ext Rops)
    (J : stR -> Prop) (inr : stR -> R -> Prop) : Prop := mksteady {
  sy_core : forall s s', J s -> core_of m fuelc o rhs s = (Ret tt, s') -> J s';
  sy_interp : forall t s, J s -> J (snd (interp_of m rhs t s));
  sy_agree : forall t x s, J x -> J s -> sim x s -> inr s t -> fst (interp_of m rhs t x) = fst (interp_of m rhs t s);
  sy_conv : forall s a b t, inr s a -> inr s b -> a <= t <= b -> inr s t;
  sy_ends : forall s s', J s -> core_of m fuelc o rhs s = (Ret tt, s') -> inr s' (now s) /\ inr s' (now s');
  sy_target : forall s s' t, J s -> core_of m fuelc o rhs s = (Ret tt, s') -> now s < t -> t <= now s' -> inr s' t;
  sy_later : forall s t t', inr s t -> t <= t' -> t' <= now s -> inr s t' }.

Lemma steady_fixed m fuelc o rhs tb : is_fixed m = true ->
  steady m fuelc o rhs tb (fun _ => True) (fun _ _ => True).
Proof.
  intros Hf. constructor; auto. intros t x s _ _ S _. apply sim_iff in S as (S & _).
  destruct m; try discriminate; cbn [interp_of]; unfold interp_default; cbn [fst]; now rewrite S.
Qed.

Lemma steady_rk A B C Ew order P fuelc o rhs tb n : length C = length A /\ A <> [] -> keeps_dim n rhs -> sane o ->
  steady (@Fsal Rops A B C Ew order P) fuelc o rhs tb (tidy A B C Ew order P rhs n) (fun s t => prev_t s <= t <= now s).
Proof.
  intros Hsh Hk Ho.
  assert (PT : forall s s', tidy A B C Ew order P rhs n s -> core_of (@Fsal Rops A B C Ew order P) fuelc o rhs s = (Ret tt, s') ->
    tidy A B C Ew order P rhs n s' /\ prev_t s' = now s).
  { intros s s' Hs H. split; [eapply tidy_core; eauto; apply Hs|]. destruct Hs as ((W & _) & _). destruct W as (Hb & Hst).
    cbn [len_history] in Hb. cbn [n_stages_of] in Hst. cbn [core_of] in H.
    destruct (core_last_step _ _ _ _ _ _ _ _ _ _ _ Hb ltac:(now rewrite Hst, Nat.add_1_r) (proj1 Hsh) (proj2 Hsh) H)
      as (h & K & _ & _ & _ & Hpt). exact Hpt. }
  constructor.
  - intros s s' Hs H. now apply (PT s s').
  - intros t s Hs. apply tidy_interp. exact Hs.
  - intros t x s Hx Hs S Ht. cbn [interp_of]. rewrite !interp_rk_cases. pose proof S as S0. apply sim_iff in S0 as (S1 & S2 & S3).
    assert (En : now x = now s) by (unfold Spec.now; now rewrite S1).
    assert (Ep : prev_t x = prev_t s) by (unfold SpecDense.prev_t; now rewrite S1).
    assert (Ey : prev_y x = prev_y s) by (unfold prev_y; now rewrite S1).
    rewrite En, Ep, Ey, S1.
    destruct (Reqb t (now s)) eqn:e1; [reflexivity|]. destruct (Reqb t (prev_t s)) eqn:e2; [reflexivity|].
    apply Reqb_false in e1, e2. cbn zeta.
    assert (Q : forall z, tidy A B C Ew order P rhs n z -> prev_t z < t ->
       iQ (interp (if Rltb t (iupd (interp z)) then z else @set_interp Rops (@mkitp Rops (rk_cols P z) (iF (interp z)) (now z)) z)) = rk_cols P z).
    { intros z (_ & _ & HQ) Hz. destruct (Rltb t _) eqn:e; auto. apply Rltb_true in e. destruct HQ as [HQ|HQ]; auto. lra. }
    pose proof (Q x Hx ltac:(rewrite Ep; lra)) as Qx. pose proof (Q s Hs ltac:(lra)) as Qs. rewrite En in Qx.
    assert (Ec : rk_cols P x = rk_cols P s) by (unfold rk_cols; now rewrite S1, S3).
    destruct (sdiv _ _); cbn [fst]; auto. rewrite Qx, Qs, Ec. reflexivity.
  - intros s a b t Ha Hb Ht. lra.
  - intros s s' Hs H. destruct (PT s s' Hs H) as (((_ & _ & _ & _ & Hp) & _) & Hpt). rewrite Hpt in *. lra.
  - intros s s' t Hs H H1 H2. destruct (PT s s' Hs H) as (_ & ->). lra.
  - intros s t t' H1 H2 H3. lra.
Qed.

Lemma steady_dop A B C E5 E3 order D Af Cf fuelc o rhs tb n : length C = length A /\ A <> [] -> keeps_dim n rhs -> sane o ->
  length A = dop_n_stages -> length Cf = length Af ->
  steady (@Dop Rops A B C E5 E3 order D Af Cf) fuelc o rhs tb (dtidy A B C E5 E3 order D Af Cf rhs n) (fun s t => prev_t s <= t <= now s).
Proof.
  intros Hsh Hk Ho HA HCf.
  assert (PT : forall s s', dtidy A B C E5 E3 order D Af Cf rhs n s -> core_of (@Dop Rops A B C E5 E3 order D Af Cf) fuelc o rhs s = (Ret tt, s') ->
    dtidy A B C E5 E3 order D Af Cf rhs n s' /\ prev_t s' = now s).
  { intros s s' Hs H. split; [eapply dtidy_core; eauto; apply Hs|]. destruct Hs as ((W & _) & _). destruct W as (Hb & Hst).
    cbn [len_history] in Hb. cbn [n_stages_of] in Hst. cbn [core_of] in H.
    destruct (core_last_step _ _ _ _ _ _ _ _ _ _ _ Hb ltac:(now rewrite Hst, Nat.add_1_r) (proj1 Hsh) (proj2 Hsh) H)
      as (h & K & _ & _ & _ & Hpt). exact Hpt. }
  constructor.
  - intros s s' Hs H. now apply (PT s s').
  - intros t s Hs. apply dtidy_interp; auto.
  - intros t x s Hx Hs S Ht. cbn [interp_of]. rewrite !interp_dop_cases. pose proof S as S0. apply sim_iff in S0 as (S1 & S2 & S3).
    assert (En : now x = now s) by (unfold Spec.now; now rewrite S1).
    assert (Ep : prev_t x = prev_t s) by (unfold SpecDense.prev_t; now rewrite S1).
    assert (Ey : prev_y x = prev_y s) by (unfold prev_y; now rewrite S1).
    rewrite En, Ep, Ey, S1.
    destruct (Reqb t (now s)) eqn:e1; [reflexivity|]. destruct (Reqb t (prev_t s)) eqn:e2; [reflexivity|].
    apply Reqb_false in e1, e2.
    assert (Ea : forall K, all_stages Af Cf rhs x K <-> all_stages Af Cf rhs s K).
    { intros K. unfold all_stages. rewrite En, Ep, Ey, S3. tauto. }
    assert (EF : forall K, dop_F D x K = dop_F D s K).
    { intros K. unfold dop_F. rewrite En, Ep, Ey. unfold state, deriv. now rewrite S1. }
    set (ux := if Rltb t (iupd (interp x)) then (Ret tt, x) else @dop_update Rops dop_n_stages D Af Cf rhs x).
    set (us := if Rltb t (iupd (interp s)) then (Ret tt, s) else @dop_update Rops dop_n_stages D Af Cf rhs s).
    assert (Q : forall z, dtidy A B C E5 E3 order D Af Cf rhs n z -> prev_t z < t ->
       let u := if Rltb t (iupd (interp z)) then (Ret tt, z) else @dop_update Rops dop_n_stages D Af Cf rhs z in
       (forall K, all_stages Af Cf rhs z K -> fst u = Ret tt /\ iF (interp (snd u)) = dop_F D z K) /\
       (fst u = Ret tt -> exists K, all_stages Af Cf rhs z K) /\
       ((forall K, ~ all_stages Af Cf rhs z K) -> u = @dop_update Rops dop_n_stages D Af Cf rhs z)).
    { intros z (Hc & _ & HQ) Hz u. destruct Hc as (W & _).
      destruct (dop_update_R A B C E5 E3 order D Af Cf rhs HA HCf z W) as (U1 & U2 & _ & U4).
      subst u. destruct (Rltb t (iupd (interp z))) eqn:e.
      - apply Rltb_true in e. destruct HQ as [HQ|(K0 & K1 & K2)]; [lra|]. split; [|split].
        + intros K HK. split; auto. cbn [snd]. rewrite K2. pose proof (U1 K HK) as V. rewrite (U1 K0 K1) in V.
          exact (f_equal (fun p => iF (interp (snd p))) V).
        + intros _. now exists K0.
        + intros V. exfalso. exact (V K0 K1).
      - split; [|split; [|reflexivity]].
        + intros K HK. rewrite (U1 K HK). split; reflexivity.
        + intros V. destruct (dop_update _ _ _ _ _ z) as [r z'] eqn:ez. cbn [fst] in V. subst r. eapply U2. reflexivity. }
    destruct (Q x Hx ltac:(rewrite Ep; lra)) as (X1 & X2 & X3). destruct (Q s Hs ltac:(lra)) as (Y1 & Y2 & Y3). clear Q.
    fold ux in X1, X2, X3. fold us in Y1, Y2, Y3.
    assert (DEC : fst ux = Ret tt \/ fst ux <> Ret tt) by (destruct (fst ux) as [[]| |]; [now left | now right | now right]).
    destruct DEC as [HX|HX].
    + destruct (X2 HX) as (K & HK). destruct (X1 K HK) as (_ & FX). apply Ea in HK. destruct (Y1 K HK) as (HY & FY).
      destruct ux as [rx x1]. destruct us as [rs s1]. cbn [fst snd] in *. subst rx rs.
      destruct (sdiv _ _); cbn [fst]; auto. rewrite FX, FY, EF. reflexivity.
    + assert (NX : forall K, ~ all_stages Af Cf rhs x K) by (intros K HK; apply HX; now apply (X1 K)).
      assert (NS : forall K, ~ all_stages Af Cf rhs s K) by (intros K HK; apply Ea in HK; exact (NX K HK)).
      rewrite (X3 NX), (Y3 NS) in *. clear X1 X2 X3 Y1 Y2 Y3 ux us.
      assert (HS : fst (@dop_update Rops dop_n_stages D Af Cf rhs s) <> Ret tt).
      { intros V. destruct Hs as ((W & _) & _).
        destruct (dop_update_R A B C E5 E3 order D Af Cf rhs HA HCf s W) as (_ & U2 & _ & _).
        destruct (dop_update _ _ _ _ _ s) as [r z'] eqn:ez. cbn [fst] in V. subst r.
        destruct (U2 z' eq_refl) as (K & HK). exact (NS K HK). }
      unfold dop_update in HX, HS |- *. rewrite S1, S3 in *. unfold bind, lift, ret in *.
      destruct (dop_extra _ _ _ _ _ _ _) as [K0| |] eqn:e; cbn [fst] in *; auto. exfalso. now apply HS.
  - intros s a b t Ha Hb Ht. lra.
  - intros s s' Hs H. destruct (PT s s' Hs H) as (((_ & _ & _ & _ & Hp) & _) & Hpt). rewrite Hpt in *. lra.
  - intros s s' t Hs H H1 H2. destruct (PT s s' Hs H) as (_ & ->). lra.
  - intros s t t' H1 H2 H3. lra.
Qed.

Definition steady_at m fuelc o rhs tb s : Prop :=
  forward (solver_of m fuelc o rhs tb) s /\ exists J inr, steady m fuelc o rhs tb J inr /\ J s.
Lemma ready_fsal A B C Ew order P fuelc o rhs tb fuel cs s0 s : length C = length A /\ A <> [] -> sane o ->
  let m := @Fsal Rops A B C Ew order P in
  built rhs m s0 -> keeps_dim (length (state s0)) rhs -> 0 <= hstep s0 ->
  returns (solver_of m fuelc o rhs tb) fuel cs s0 s -> steady_at m fuelc o rhs tb s.
Proof.
  intros Hsh Ho m Hb Hk Hh Hr.
  assert (Ht := rk_clean_tidy A B C Ew order P fuelc o rhs tb _ Hsh Hk Ho fuel cs s0 s Hb eq_refl Hh Hr).
  split; [|eexists; eexists; split; [apply steady_rk; [exact Hsh|exact Hk|exact Ho]|exact Ht]].
  destruct Ht as ((W & _ & Hh' & _) & _). now apply forward_var.
Qed.
Lemma ready_dop A B C E5 E3 order D Af Cf fuelc o rhs tb fuel cs s0 s : length C = length A /\ A <> [] -> sane o ->
  length A = dop_n_stages -> length Cf = length Af ->
  let m := @Dop Rops A B C E5 E3 order D Af Cf in
  built rhs m s0 -> keeps_dim (length (state s0)) rhs -> 0 <= hstep s0 ->
  returns (solver_of m fuelc o rhs tb) fuel cs s0 s -> steady_at m fuelc o rhs tb s.
Proof.
  intros Hsh Ho HA HCf m Hb Hk Hh Hr.
  assert (Ht := dop_clean_tidy A B C E5 E3 order D Af Cf fuelc o rhs tb _ Hsh Hk Ho HA HCf fuel cs s0 s Hb eq_refl Hh Hr).
  split; [|eexists; eexists; split; [apply steady_dop; [exact Hsh|exact Hk|exact Ho|exact HA|exact HCf]|exact Ht]].
  destruct Ht as ((W & _ & Hh' & _) & _). now apply forward_var.
Qed.
Lemma ready_steady m fuelc o rhs tb s : ready m fuelc o rhs tb s -> steady_at m fuelc o rhs tb s.
Proof.
  intros [(Hf & Hr & Hh) | (Hm & Ho & fuel & cs & s0 & Hb & Hk & Hh & Hr)].
  - split.
    + apply forward_fixed; auto. eapply reachable_wf; eauto.
      * change (@leb Rops zero (hstep s)) with (Rleb (@zero Rops) (hstep s)). rewrite zero_R. now apply Rleb_true.
      * exists (now s - 1). apply Rltb_true. lra.
    + exists (fun _ => True), (fun _ _ => True). split; auto. now apply steady_fixed.
  - destruct Hm as [<-|[<-|[<-|[]]]].
    + refine (ready_fsal _ _ _ _ _ _ fuelc o rhs tb fuel cs s0 s _ Ho Hb Hk Hh Hr). split; [reflexivity|discriminate].
    + refine (ready_fsal _ _ _ _ _ _ fuelc o rhs tb fuel cs s0 s _ Ho Hb Hk Hh Hr). split; [reflexivity|discriminate].
    + assert (HA : length (@map (list R) (list R) (firstn 12) (firstn 12 (@litm Rops dop_A))) = dop_n_stages) by (vm_compute; reflexivity).
      refine (ready_dop _ _ _ _ _ _ _ _ _ fuelc o rhs tb fuel cs s0 s _ Ho HA _ Hb Hk Hh Hr).
      * split; [vm_compute; reflexivity|]. intros e. rewrite e in HA. discriminate.
      * vm_compute. reflexivity.
Qed.

(** ** the call *)
Lemma sol_of m fuelc o rhs tb s t a : sol_arr (solver_of m fuelc o rhs tb) s t = Ret a ->
  sol (solver_of m fuelc o rhs tb) s t = Ret (deref (cache s) a).
Proof.
  unfold sol_arr, sol. cbn [s_interp solver_of]. pose proof (interp_sim m rhs t s) as K.
  destruct (interp_of m rhs t s) as [r s'] eqn:e. cbn [fst]. intros ->. specialize (K _ _ eq_refl).
  apply sim_iff in K as (-> & _). reflexivity.
Qed.
Lemma in_combine_nth {A B} (a : list A) (b : list B) x y j : nth_error a j = Some x -> nth_error b j = Some y -> In (x, y) (combine a b).
Proof.
  revert b j; induction a as [|p a IH]; intros [|q b] [|j] H1 H2; cbn in *; try discriminate.
  - left. congruence.
  - right. eauto.
Qed.
Lemma combine_snoc {A B} (a : list A) (b : list B) x y : length a = length b -> combine (a ++ [x]) (b ++ [y]) = combine a b ++ [(x, y)].
Proof. revert b; induction a as [|p a IH]; intros [|q b] H; cbn in *; try discriminate; auto. now rewrite IH by lia. Qed.
Lemma last_fired_some bs : forall es last p, last_fired (OT := Rops) bs es last = Some p ->
  (last = Some p /\ forall j e, nth_error bs j = Some true -> nth_error es j = Some e -> ev_last e = None) \/
  exists j e, nth_error bs j = Some true /\ nth_error es j = Some e /\ ev_last e = Some p /\
    forall j' e', (j < j')%nat -> nth_error bs j' = Some true -> nth_error es j' = Some e' -> ev_last e' = None.
Proof.
  induction bs as [|b bs IH]; intros [|e es] last p H; cbn [last_fired] in H.
  1-3: left; split; [auto|]; intros [|j] ? ? ?; discriminate.
  apply IH in H as [(H & HN)|(j & e' & A1 & A2 & A3 & A4)].
  - assert (K : (b = false \/ ev_last e = None) /\ last = Some p \/ b = true /\ ev_last e = Some p).
    { destruct b; auto. destruct (ev_last e) as [[t y]|] eqn:el; auto.
      assert (Ht : @leb Rops t t = true) by (apply Rleb_true; lra). rewrite Ht in H. auto. }
    destruct K as [(K & Hl)|(Hb & He)].
    + left. split; auto. intros [|j] e0 B1 B2; cbn in B1, B2; [|eauto]. destruct K as [K|K]; congruence.
    + right. exists 0%nat, e. subst b. repeat split; auto. intros [|j'] e' Hj B1 B2; [lia|]. cbn in B1, B2. eauto.
  - right. exists (S j), e'. repeat split; auto. intros [|j'] e0 Hj B1 B2; [lia|]. apply (A4 j' e0); auto. lia.
Qed.
Lemma Forall2_repeat_false {A} (P : A -> bool -> Prop) l k b : Forall2 P l (repeat false k ++ [b]) ->
  forall x, In x l -> P x false \/ exists l0, l = l0 ++ [x] /\ P x b.
Proof.
  revert k; induction l as [|a l IH]; intros k H x Hx; [destruct Hx|].
  destruct k as [|k]; cbn [repeat app] in H; inversion H; subst.
  - match goal with H : Forall2 P l [] |- _ => inversion H; subst end. destruct Hx as [<-|[]]. right. exists []. auto.
  - destruct Hx as [<-|Hx]; auto. destruct (IH k H5 x Hx) as [K|(l0 & -> & K)]; auto. right. exists (a :: l0). auto.
Qed.
Lemma combine_shift {A} (s : A) l0 x1 : combine (s :: l0 ++ [x1]) (l0 ++ [x1]) = combine (s :: l0) l0 ++ [(last l0 s, x1)].
Proof.
  revert s; induction l0 as [|a l0 IH]; intros s; [reflexivity|].
  change (combine (s :: (a :: l0) ++ [x1]) ((a :: l0) ++ [x1])) with ((s, a) :: combine (a :: l0 ++ [x1]) (l0 ++ [x1])).
  rewrite IH, (last_cons_d a s l0). reflexivity.
Qed.
End R.
