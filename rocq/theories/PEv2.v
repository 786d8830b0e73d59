(** Events over the reals: what is recorded. *)
From Coq Require Import List ZArith QArith Bool Arith Lia Reals Lra Sorted.
From Verif Require Import Base Scalar Vec MBuffer MZeros MSteps MApi MClasses Laws Spec SpecInst SpecZeros SpecEv
  PStep PKeeps PCore PHist PBound PRun PZeros PEv1.
Import ListNotations.
Open Scope R_scope.

(** ** bisect, for functions that may raise *)
Section Bis.
Context {St : Type} (Inv : St -> Prop) (fn : R -> M St R) (g : R -> outcome R) (l r : R).
Hypothesis EV : forall t s, l <= t <= r -> Inv s -> fst (fn t s) = g t /\ Inv (snd (fn t s)).

Lemma bisect_loop_out (tol rtol : R) n : 0 <= tol -> forall a b va vb mid s m s', Inv s ->
  l <= a < b -> b <= r -> g a = Ret va -> g b = Ret vb -> va * vb < 0 ->
  (mid = Some a \/ mid = Some b \/ mid = None) ->
  @bisect_loop Rops St fn tol rtol n a b va mid s = (Ret m, s') -> bis_out g tol n a b m.
Proof.
  intros Ht. induction n as [|n IH]; intros a b va vb mid s m s' Is Hab Hbr Ga Gb Hs Hm H; cbn [bisect_loop] in H.
  - destruct Hm as [->|[->| ->]]; [| |discriminate]; injection H as <- <-; (split; [lra|right]); exists a, b, va, vb; repeat split; auto; try lra; cbn; lra.
  - unfold bind in H. replace (@div Rops (@add Rops a b) two) with ((a + b) / 2) in H by
      (change ((a + b) / 2 = (a + b) / @two Rops); now rewrite two_R).
    assert (Hm2 : a < (a + b) / 2 < b) by lra. set (mm := (a + b) / 2) in *.
    destruct (EV mm s) as (G1 & G2); [lra|auto|]. destruct (fn mm s) as [[v| |] s1]; try discriminate.
    cbn [fst snd] in G1, G2. symmetry in G1.
    destruct (@isclose Rops v zero tol rtol) eqn:ec.
    + apply isclose_zero in ec. inv H. split; [lra|]. left. exists v. auto.
    + apply isclose_zero_false in ec. assert (Hn0 : v <> 0) by (intros e; rewrite e, Rabs_R0 in ec; lra).
      assert (Hga : va <> 0) by nra.
      destruct (@same_sign Rops v va) eqn:es.
      * apply same_sign_R in es; auto.
        apply (IH mm b v vb) in H as (Hb & K); auto; try lra.
        2:{ destruct (Rtotal_order va 0) as [|[|]]; nra. }
        split; [lra|]. destruct K as [K|(a' & b' & wa & wb & K1 & K2 & K3 & K4 & K5)]; [now left|right].
        exists a', b', wa, wb. repeat split; try lra; try tauto. rewrite K4. unfold mm. cbn [pow]. field. apply pow_nonzero; lra.
      * assert (es' : ~ 0 < v * va) by (intros c; apply same_sign_R in c; auto; congruence).
        apply (IH a mm va v) in H as (Hb & K); auto; try lra.
        2:{ destruct (Rtotal_order va 0) as [|[|]]; try contradiction;
            destruct (Rtotal_order v 0) as [|[|]]; try contradiction; nra. }
        split; [lra|]. destruct K as [K|(a' & b' & wa & wb & K1 & K2 & K3 & K4 & K5)]; [now left|right].
        exists a', b', wa, wb. repeat split; try lra; try tauto. rewrite K4. unfold mm. cbn [pow]. field. apply pow_nonzero; lra.
Qed.
Lemma bisect_out (tol rtol : R) n s m s' : 0 <= tol -> Inv s ->
  @bisect Rops St fn l r tol rtol n s = (Ret m, s') -> bis_out g tol n l r m.
Proof.
  intros Ht Is H. unfold bisect in H. change (@ltb Rops l r) with (Rltb l r) in H.
  destruct (Rltb l r) eqn:elr; cbn [negb] in H; [|discriminate]. apply Rltb_true in elr. unfold bind in H.
  destruct (EV l s) as (G1 & I1); [lra|auto|]. destruct (fn l s) as [[vl| |] s1]; try discriminate.
  cbn [fst snd] in G1, I1. symmetry in G1.
  change (@eqb Rops) with Reqb in H. change (@ltb Rops) with Rltb in H. change (@mul Rops) with Rmult in H.
  replace (@zero Rops) with 0 in H by (symmetry; apply zero_R).
  destruct (Reqb vl 0) eqn:e0.
  { apply Reqb_true in e0. inv H. split; [lra|]. left. exists 0. split; auto. rewrite Rabs_R0. lra. }
  destruct (EV r s1) as (G2 & I2); [lra|auto|]. destruct (fn r s1) as [[vr| |] s2]; try discriminate.
  cbn [fst snd] in G2, I2. symmetry in G2.
  destruct (Reqb vr 0) eqn:e1.
  { apply Reqb_true in e1. inv H. split; [lra|]. left. exists 0. split; auto. rewrite Rabs_R0. lra. }
  destruct (Rltb (vl * vr) 0) eqn:e2; cbn [negb] in H; [|discriminate]. apply Rltb_true in e2.
  eapply bisect_loop_out in H; eauto; lra.
Qed.
End Bis.

(** ** the trace of one event *)
Section Tr.
Context {OT : Ops} {E : Env}.
Variables (m : meth) (fuelc : nat) (o : options) (rhs : rhs_t) (tb : ext).
Notation evolves1 := (evolves1 m fuelc o rhs tb).
Notation evolves1s := (evolves1s m fuelc o rhs tb).
Notation evolves := (evolves m fuelc o rhs tb).
Notation ended := (ended m fuelc o rhs tb).
Inductive grows : event -> list st -> list bool -> event -> Prop :=
| gr_nil e : grows e [] [] e
| gr_cons e s1 b e1 l bs e' : evolves1 s1 e b e1 -> grows e1 l bs e' -> grows e (s1 :: l) (b :: bs) e'.
Lemma grows_snoc e l bs e1 s1 b e' : grows e l bs e1 -> evolves1 s1 e1 b e' -> grows e (l ++ [s1]) (bs ++ [b]) e'.
Proof. induction 1; cbn; intros. econstructor; eauto. constructor. econstructor; eauto. Qed.
Lemma evolves1s_nth s es bs es' : evolves1s s es bs es' -> forall j e, nth_error es j = Some e ->
  exists b e', nth_error bs j = Some b /\ nth_error es' j = Some e' /\ evolves1 s e b e'.
Proof. induction 1; intros [|j] x Hx; try discriminate; cbn in *; [inv Hx; eauto | eauto]. Qed.
Lemma existsb_false_nth bs j b : existsb (fun b : bool => b) bs = false -> nth_error bs j = Some b -> b = false.
Proof.
  revert j; induction bs as [|[] bs IH]; intros [|j]; cbn; intros H Hj; try discriminate; auto.
  now inv Hj. eauto.
Qed.
Lemma evolves_nth es l es' : evolves es l es' -> forall j e, nth_error es j = Some e ->
  exists e', nth_error es' j = Some e' /\ grows e l (repeat false (length l)) e'.
Proof.
  induction 1; intros j e Hj.
  - exists e. split; auto. constructor.
  - eapply evolves1s_nth in Hj as (b & e1 & A & B & C); eauto.
    rewrite (existsb_false_nth _ _ _ H0 A) in C.
    destruct (IHevolves j e1 B) as (e' & D1 & D2). exists e'. split; auto. cbn. econstructor; eauto.
Qed.
Lemma ended_nth es l s1 es' ty : ended es l s1 es' ty -> forall j e, nth_error es j = Some e ->
  exists b e', nth_error es' j = Some e' /\ grows e l (repeat false (pred (length l)) ++ [b]) e'.
Proof.
  intros (l0 & es0 & bs & a & -> & A & B & _) j e Hj.
  destruct (evolves_nth _ _ _ A j e Hj) as (e0 & C1 & C2).
  destruct (evolves1s_nth _ _ _ _ B j e0 C1) as (b & e' & D1 & D2 & D3).
  exists b, e'. split; auto. rewrite app_length, Nat.add_1_r. cbn [pred]. eapply grows_snoc; eauto.
Qed.
End Tr.

Section R.
Context {E : @Env Rops}.
Variables (m : @meth Rops) (fuelc : nat) (o : @options Rops) (rhs : @rhs_t Rops) (tb : @ext Rops).
Let sv := solver_of m fuelc o rhs tb.
Variables (J : stR -> Prop) (inr : stR -> R -> Prop).
Hypothesis J_core : forall s s', J s -> s_core sv s = (Ret tt, s') -> J s'.
Hypothesis J_interp : forall t s, J s -> J (snd (s_interp sv t s)).
Hypothesis agree : forall t x s, J x -> J s -> sim x s -> inr s t ->
  fst (s_interp sv t x) = fst (s_interp sv t s).
Hypothesis inr_conv : forall s a b t, inr s a -> inr s b -> a <= t <= b -> inr s t.
Hypothesis inr_ends : forall s s', J s -> s_core sv s = (Ret tt, s') -> inr s' (@now Rops s) /\ inr s' (@now Rops s').

Notation evolves1 := (evolves1 m fuelc o rhs tb).
Notation grows := (grows m fuelc o rhs tb).
Notation fa := (follows_at J).
Notation event := (@event Rops).
Notation ev_last_t := (@ev_last_t Rops).
Notation ev_last_v := (@ev_last_v Rops).
Notation now := (@now Rops).
Notation ev_ts := (@ev_ts Rops).
Notation last_opt := (@last_opt R).

Definition of_user (u : eventR) (e : event) : Prop :=
  ev_fun e = ue_fun u /\ (ev_term e = true <-> terminal u) /\ dir_of (ue_direction u) = Ret (ev_dir e).
Lemma build_of u t y e : build_event (OT := Rops) t y u = Ret e ->
  of_user u e /\ ev_last_t e = t /\ ue_fun u t y = Ret (ev_last_v e) /\ ev_ts e = [] /\ ev_ys e = [].
Proof.
  unfold build_event. destruct (dir_of _) as [d| |] eqn:ed; cbn [obind]; try discriminate.
  destruct (ue_fun u t y) as [v| |] eqn:ev; cbn [obind]; try discriminate. intros H. injection H as <-.
  cbn. repeat split; auto; unfold terminal; destruct (ue_terminal u) as [[]|]; auto; discriminate.
Qed.
Lemma of_user_keeps u s e b e' : of_user u e -> evolves1 s e b e' -> of_user u e'.
Proof.
  intros (A & B & C) H. apply evolves1_keeps in H as (K1 & K2 & K3 & _). unfold of_user. rewrite K1, K2, K3. auto.
Qed.
Lemma trig_R d u v v' : dir_of (ue_direction u) = Ret d ->
  (@ev_trigger Rops d v v' = true <-> crossing (ue_dir u) v v').
Proof.
  intros Hd. unfold ev_trigger, crossing. change (@leb Rops) with Rleb. rewrite zero_R.
  rewrite !orb_true_iff, !andb_true_iff, !orb_true_iff, !andb_true_iff, !Rleb_true, !Z.ltb_lt, Z.eqb_eq.
  unfold ue_dir. unfold dir_of in Hd. destruct (ue_direction u) as [x|].
  - change (@ltb Rops) with Rltb in Hd. change (@eqb Rops) with Reqb in Hd. rewrite zero_R in Hd.
    destruct (Rltb 0 x) eqn:e1; [injection Hd as <-; apply Rltb_true in e1; split; intros; intuition (try lia; try lra)|].
    apply Rltb_false in e1.
    destruct (Rltb x 0) eqn:e2; [injection Hd as <-; apply Rltb_true in e2; split; intros; intuition (try lia; try lra)|].
    apply Rltb_false in e2.
    destruct (Reqb x 0) eqn:e3; [|discriminate]. injection Hd as <-. split; intros; intuition (try lia; try lra).
  - injection Hd as <-. split; intros; intuition (try lia; try lra).
Qed.

Lemma sol_copy s t : sol sv s t = fst (interp_copy (s_interp sv) t s).
Proof. unfold sol, interp_copy, bind, get, ret. destruct (s_interp sv t s) as [[]]; reflexivity. Qed.
Lemma along_at u s t : along sv u s t = fst (event_at_sol sv (ue_fun u) t s).
Proof.
  unfold along, event_at_sol, bind, lift. rewrite sol_copy. now destruct (interp_copy _ _ _) as [[]].
Qed.
Lemma tol_R : @default_tol Rops = ev_tol.
Proof. unfold default_tol, ev_tol. rewrite lit_R. unfold Q2R. cbn. lra. Qed.
Lemma tol_ge : 0 <= @default_tol Rops.
Proof. rewrite tol_R. unfold ev_tol. lra. Qed.

Lemma step_R u e s1 b e' v : J s1 -> inr s1 (ev_last_t e) -> inr s1 (now s1) -> of_user u e -> ev_last_v e = v ->
  evolves1 s1 e b e' ->
  exists v1, value u s1 v1 /\ ev_last_v e' = v1 /\ ev_last_t e' = now s1 /\
    (b = true <-> crossing (ue_dir u) v v1 /\ terminal u) /\
    ((~ crossing (ue_dir u) v v1 /\ ev_ts e' = ev_ts e /\ ev_ys e' = ev_ys e) \/
     (crossing (ue_dir u) v v1 /\ exists r,
       ((v1 = 0 /\ r = now s1) \/ (v1 <> 0 /\ bis_out (along sv u s1) ev_tol 50 (ev_last_t e) (now s1) r)) /\
       ((last_opt (ev_ts e) = Some r /\ ev_ts e' = ev_ts e /\ ev_ys e' = ev_ys e) \/
        (last_opt (ev_ts e) <> Some r /\ exists a, sol_arr sv s1 r = Ret a /\
          ev_ts e' = ev_ts e ++ [r] /\ ev_ys e' = ev_ys e ++ [a])))).
Proof.
  intros Js Hl Hn (Hf & Ht & Hd) Hv H. unfold evolves1, PEv1.evolves1, ev_evaluate in H. fold sv in H.
  fold (now s1) (state s1) in H. unfold bind at 1 in H. unfold lift in H. rewrite Hf in H.
  destruct (ue_fun u (now s1) (state s1)) as [v1| |] eqn:ev; try discriminate. exists v1.
  split; [exact ev|]. rewrite Hv in H.
  pose proof (trig_R (ev_dir e) u v v1 Hd) as HT.
  unfold bind at 1 in H.
  assert (Hb : forall r : bool, (b = (r && ev_term e)%bool) -> (r = true <-> crossing (ue_dir u) v v1) ->
     (b = true <-> crossing (ue_dir u) v v1 /\ terminal u)).
  { intros r -> Hr. rewrite andb_true_iff, Hr, Ht. tauto. }
  destruct (ev_trigger (ev_dir e) v v1) eqn:et.
  2:{ unfold ret in H. cbn [fst snd] in H. injection H as <- <-. cbn [ev_last_v ev_last_t ev_ts ev_ys].
      split; auto. split; auto. split. apply (Hb false); auto. left. split; auto. rewrite <- HT. discriminate. }
  unfold bind at 1 in H. change (@eqb Rops) with Reqb in H. rewrite zero_R in H.
  set (fr := if Reqb v1 0 then ret (now s1) else bisect (event_at_sol sv (ue_fun u)) (ev_last_t e) (now s1) default_tol 0 50) in H.
  assert (Hroot : forall r z', fr s1 = (Ret r, z') -> inr s1 r /\ J z' /\ sim z' s1 /\
    ((v1 = 0 /\ r = now s1) \/ (v1 <> 0 /\ bis_out (along sv u s1) ev_tol 50 (ev_last_t e) (now s1) r))).
  { intros r z' Hfr. unfold fr in Hfr. destruct (Reqb v1 0) eqn:e0.
    - apply Reqb_true in e0. unfold ret in Hfr. injection Hfr as <- <-. repeat (split; auto). apply sim_refl.
    - apply Reqb_false in e0.
      assert (EVV : forall t x, ev_last_t e <= t <= now s1 -> (J x /\ sim x s1) ->
         fst (event_at_sol sv (ue_fun u) t x) = along sv u s1 t /\ (J (snd (event_at_sol sv (ue_fun u) t x)) /\ sim (snd (event_at_sol sv (ue_fun u) t x)) s1)).
      { intros t x Htt (Jx & Sx). rewrite along_at.
        destruct (fa_at_sol m fuelc o rhs tb J inr J_interp agree (ue_fun u) t s1 Js) with (x := x) as (A1 & A2 & A3); auto.
        eapply inr_conv; [exact Hl | exact Hn | lra]. }
      pose proof (bisect_out (fun x => J x /\ sim x s1) _ _ _ _ EVV (@default_tol Rops) 0 50 s1 r z' tol_ge (conj Js (sim_refl s1)) Hfr) as B.
      assert (Hlr : ev_last_t e < now s1).
      { unfold bisect in Hfr. destruct (@ltb Rops _ _) eqn:elt in Hfr; [now apply Rltb_true in elt | discriminate]. }
      destruct (fa_bisect m fuelc o rhs tb J inr J_interp agree) with
        (f := ue_fun u) (tol := @default_tol Rops) (rtol := 0) (n := 50%nat) (s := s1) (a := ev_last_t e) (b := now s1) (x := s1) as (_ & A2 & A3); auto.
      { intros s a b' Ha Hb'. change (@div Rops (@add Rops a b') two) with ((a + b') / @two Rops). rewrite two_R.
        destruct (Rle_dec a b'); [apply (inr_conv s a b') | apply (inr_conv s b' a)]; auto; lra. }
      { apply sim_refl. }
      fold sv in A2, A3. rewrite Hfr in A2, A3. cbn [snd] in A2, A3.
      rewrite tol_R in B. split; [|auto]. eapply inr_conv; [exact Hl | exact Hn | apply B]. }
  clearbody fr. destruct (fr s1) as [[r| |] z] eqn:efr; try discriminate.
  destruct (Hroot r z eq_refl) as (Ir & Jz & Sz & Hr). clear Hroot.
  match type of H with context [if ?c then ret _ else _] => set (cc := c) in H end.
  assert (Hlast : cc = true <-> last_opt (ev_ts e) = Some r).
  { subst cc. change (@Base.last_opt (@T Rops)) with (@Base.last_opt R). destruct (last_opt (ev_ts e)) as [r0|]; [|split; discriminate].
    rewrite Reqb_true. split; [intros ->; reflexivity | intros c; injection c as ->; reflexivity]. }
  clearbody cc. destruct cc.
  - unfold ret in H. cbn [fst snd] in H. injection H as <- <-. cbn [ev_last_v ev_last_t ev_ts ev_ys].
    split; auto. split; auto. split; [apply (Hb true); auto|]. right. split; [now apply HT|]. exists r. split; auto.
    left. split; auto. now apply Hlast.
  - unfold bind in H. pose proof (agree r z s1 Jz Js Sz Ir) as Ag.
    destruct (s_interp sv r z) as [[a| |] z1]; try discriminate. cbn [fst] in Ag.
    unfold ret in H. cbn [fst snd] in H. injection H as <- <-. cbn [ev_last_v ev_last_t ev_ts ev_ys].
    split; auto. split; auto. split; [apply (Hb true); auto|]. right. split; [now apply HT|]. exists r. split; auto.
    right. split. intros c. apply Hlast in c. discriminate. exists a. split; [|auto]. now symmetry.
Qed.

(** within the step *)
Lemma located_in u x x1 r : now x <= now x1 -> located sv u x x1 r -> now x <= r <= now x1.
Proof. intros H [(_ & ->)|(_ & B & _)]; lra. Qed.

Lemma last_opt_app {A} (l : list A) a : Base.last_opt (l ++ [a]) = Some a.
Proof. unfold Base.last_opt. rewrite rev_app_distr. reflexivity. Qed.
Lemma last_opt_snoc {A} (l : list A) : l = [] \/ exists l' a, l = l' ++ [a] /\ Base.last_opt l = Some a.
Proof.
  destruct l as [|x l]; [now left|right]. destruct (exists_last (l := x :: l)) as (l' & a & ->); [discriminate|].
  exists l', a. split; auto. apply last_opt_app.
Qed.
Lemma increasing_snoc (l : list R) r : increasing l -> Forall (fun x => x < r) l -> increasing (l ++ [r]).
Proof.
  unfold increasing. induction 1; intros F; cbn; [repeat constructor|]. inversion F; subst. constructor; auto.
  apply Forall_app. split; auto.
Qed.

Definition went_forward (s : stR) (l : list stR) : Prop := forall x x1, step_of s l x x1 -> now x <= now x1.

Record log_ok (u : eventR) (s : stR) (l : list stR) (s1 : stR) (e e' : event) (bs : list bool)
    (new : list R) (newy : list (@arr Rops)) : Prop := mklog {
  lo_ts : ev_ts e' = ev_ts e ++ new;
  lo_ys : ev_ys e' = ev_ys e ++ newy;
  lo_len : length new = length newy;
  lo_inc : increasing (ev_ts e');
  lo_le : Forall (fun r => r <= now s1) (ev_ts e');
  lo_complete : forall x x1, step_of s l x x1 -> triggers u x x1 -> exists r, In r (ev_ts e') /\ located sv u x x1 r;
  lo_sound : forall r a, In (r, a) (combine new newy) ->
    exists x x1, step_of s l x x1 /\ triggers u x x1 /\ located sv u x x1 r /\ sol_arr sv x1 r = Ret a;
  lo_fired : Forall2 (fun xx b => b = true <-> triggers u (fst xx) (snd xx) /\ terminal u) (combine (s :: l) l) bs;
  lo_val : value u s1 (ev_last_v e') }.

Lemma grows_log u : forall e l bs e', grows e l bs e' -> forall s s1, J s -> chain sv tb s l s1 -> went_forward s l ->
  of_user u e -> ev_last_t e = now s -> value u s (ev_last_v e) ->
  increasing (ev_ts e) -> Forall (fun r => r <= now s) (ev_ts e) ->
  exists new newy, log_ok u s l s1 e e' bs new newy.
Proof.
  induction 1 as [e|e s1 b e1 l bs e' H1 H2 IH]; intros s s2 Js C W Hu Ht Hv Hi Hl.
  - inversion C; subst. exists [], []. constructor; auto; try (now rewrite app_nil_r); try (intros ? ? []); try constructor.
  - inversion C as [|? ? ? ? Hc C']; subst. destruct Hc as (_ & Hc). fold sv in Hc.
    pose proof (J_core _ _ Js Hc) as Js1. destruct (inr_ends _ _ Js Hc) as (I1 & I2).
    assert (Hle : now s <= now s1) by (apply W; left; reflexivity).
    assert (W' : went_forward s1 l) by (intros x x1 Hx; apply W; right; exact Hx).
    rewrite <- Ht in I1.
    destruct (step_R u e s1 b e1 (ev_last_v e) Js1 I1 I2 Hu eq_refl H1) as (v1 & V1 & V2 & V3 & Hb & HL).
    pose proof (of_user_keeps _ _ _ _ _ Hu H1) as Hu1. rewrite <- V2 in V1.
    assert (TR : triggers u s s1 <-> crossing (ue_dir u) (ev_last_v e) v1).
    { split.
      - intros (v & v' & A1 & A2 & A3). unfold value in *. rewrite A1 in Hv. rewrite A2 in V1. 
        injection Hv as ->. injection V1 as ->. now rewrite V2 in A3.
      - intros K. exists (ev_last_v e), v1. split; auto. split; [now rewrite <- V2|auto]. }
    assert (LO : forall r, ((v1 = 0 /\ r = now s1) \/ (v1 <> 0 /\ bis_out (along sv u s1) ev_tol 50 (ev_last_t e) (now s1) r)) ->
       located sv u s s1 r).
    { intros r [(A & B)|(A & B)]; [left|right].
      - split; auto. rewrite <- A. now rewrite <- V2.
      - rewrite <- Ht. split; auto. unfold value in *. rewrite V1, V2. intros c. injection c as c. contradiction. }
    assert (STEP : exists n1 y1, ev_ts e1 = ev_ts e ++ n1 /\ ev_ys e1 = ev_ys e ++ y1 /\ length n1 = length y1 /\
       increasing (ev_ts e1) /\ Forall (fun r => r <= now s1) (ev_ts e1) /\
       (triggers u s s1 -> exists r, In r (ev_ts e1) /\ located sv u s s1 r) /\
       (forall r a, In (r, a) (combine n1 y1) -> triggers u s s1 /\ located sv u s s1 r /\ sol_arr sv s1 r = Ret a)).
    { assert (Hl1 : Forall (fun r => r <= now s1) (ev_ts e)) by (eapply Forall_impl; [|exact Hl]; cbn; intros; lra).
      destruct HL as [(A & B1 & B2)|(A & r & B & [(D & B1 & B2)|(D & a & D1 & B1 & B2)])].
      - exists [], []. rewrite !app_nil_r. split; auto. split; auto. split; auto. rewrite B1. split; auto. split; auto.
        split; [intros K; apply TR in K; contradiction | intros ? ? []].
      - exists [], []. rewrite !app_nil_r. split; auto. split; auto. split; auto. rewrite B1. split; auto. split; auto.
        split; [|intros ? ? []]. intros _. exists r. split; [|now apply LO].
        destruct (last_opt_snoc (A := R) (ev_ts e)) as [K|(l' & z & K1 & K2)].
        + rewrite K in D. discriminate.
        + rewrite K2 in D. injection D as <-. rewrite K1. apply in_app_iff. right. now left.
      - pose proof (located_in u s s1 r Hle (LO r B)) as Hr.
        exists [r], [a]. split; auto. split; auto. split; auto. rewrite B1. split; [|split; [|split]].
        + apply increasing_snoc; auto. clear - D Hl Hr Hi. destruct (last_opt_snoc (A := R) (ev_ts e)) as [K|(l' & z & K1 & K2)].
          * rewrite K. constructor.
          * rewrite K2 in D. rewrite K1 in *. apply Forall_app in Hl as (L1 & L2). inversion L2; subst.
            assert (z < r). { destruct (Req_dec z r) as [->|]; [exfalso; apply D; reflexivity|lra]. }
            apply Forall_app. split; [|constructor; auto].
            clear - Hi H. induction l' as [|y l' IH]; constructor.
            -- inversion Hi; subst. apply Forall_app in H3 as (_ & H3). inversion H3; subst. lra.
            -- inversion Hi; subst. auto.
        + apply Forall_app. split; auto. constructor; [lra|constructor].
        + intros _. exists r. split; [apply in_app_iff; right; now left | auto].
        + intros r0 a0 [K|[]]. injection K as <- <-. split; [now apply TR|]. split; auto. }
    destruct STEP as (n1 & y1 & S1 & S2 & S3 & S4 & S5 & S6 & S7).
    destruct (IH s1 s2 Js1 C' W' Hu1 V3 V1 S4 S5) as (n2 & y2 & [L1 L2 L3 L4 L5 L6 L7 L8 L9]).
    exists (n1 ++ n2), (y1 ++ y2). constructor; auto.
    + rewrite L1, S1. now rewrite app_assoc.
    + rewrite L2, S2. now rewrite app_assoc.
    + etransitivity; [apply app_length|]. etransitivity; [|symmetry; apply app_length]. exact (f_equal2 Nat.add S3 L3).
    + intros x x1 [K|K] Tx.
      * injection K as <- <-. destruct (S6 Tx) as (r & R1 & R2). exists r. split; auto. rewrite L1. apply in_app_iff. now left.
      * apply L6; auto.
    + intros r a K. assert (K' : In (r, a) (combine n1 y1) \/ In (r, a) (combine n2 y2)).
      { clear - K S3. revert y1 S3 K. induction n1 as [|p n1 IH]; intros [|q y1] S3 K; cbn in *; try discriminate; auto.
        destruct K as [K|K]; auto. destruct (IH y1) as [K'|K']; auto. }
      destruct K' as [K'|K'].
      * exists s, s1. split; [left; reflexivity|]. apply S7; auto.
      * destruct (L7 r a K') as (x & x1 & M1 & M2). exists x, x1. split; [right; exact M1 | exact M2].
    + constructor; auto. cbn [fst snd]. rewrite Hb, TR. tauto.
Qed.
End R.
