(** The solver registry. *)
From Coq Require Import List ZArith Bool Arith Ascii String Lia Permutation Sorted.
From Verif Require Import Base MRegistry SpecDict PDict SpecReg.
Import ListNotations.
Local Open Scope list_scope.

Lemma od_get_set {K V} (keqb : K -> K -> bool) (KE : forall a b, keqb a b = true <-> a = b) (d : @cid K V) lk kv lk' :
  od_get keqb (od_set keqb d lk kv) lk' = if keqb lk lk' then Some kv else od_get keqb d lk'.
Proof.
  induction d as [|[k v] d IH]; cbn; auto. destruct (keqb k lk) eqn:e; cbn.
  - apply KE in e. subst k. now destruct (keqb lk lk').
  - rewrite IH. destruct (keqb k lk') eqn:e2; auto. apply KE in e2. subst k.
    destruct (keqb lk lk') eqn:e3; auto. apply KE in e3. subst. rewrite (proj2 (KE lk' lk')) in e; congruence.
Qed.
Definition solver_at (r : registry) (lk : string) : option (string * cls) := od_get String.eqb (r_solvers r) lk.

Lemma sget_at r s : sget (r_solvers r) s = match solver_at r (lower s) with Some (_, c) => Ret c | None => Raise KeyError end.
Proof. unfold sget, cid_get, solver_at. destruct (od_get _ _ _) as [[? ?]|]; auto. Qed.
Lemma smem_at r s : smem (r_solvers r) s = match solver_at r (lower s) with Some _ => true | None => false end.
Proof. unfold smem, cid_mem, cid_get, solver_at. destruct (od_get _ _ _) as [[? ?]|]; auto. Qed.
Lemma sset_at r s c lk : solver_at (mkreg (sset (r_solvers r) s c) (r_groups r)) lk = if String.eqb (lower s) lk then Some (s, c) else solver_at r lk.
Proof. unfold solver_at, sset, cid_set. cbn [r_solvers]. now rewrite (od_get_set _ String.eqb_eq). Qed.

Lemma register_names_spec c names : forall r o r', register_names c names r = (o, r') ->
  r_groups r' = r_groups r /\
  (forall lk x, solver_at r lk = Some x -> solver_at r' lk = Some x) /\
  (forall lk n c', solver_at r' lk = Some (n, c') -> solver_at r lk = Some (n, c') \/ (c' = c /\ In n names /\ lk = lower n)) /\
  (o = Ret tt -> (forall n, In n names -> solver_at r (lower n) = None /\ solver_at r' (lower n) = Some (n, c)) /\
     cid_items (r_solvers r') = cid_items (r_solvers r) ++ map (fun n => (n, c)) names) /\
  (o = Ret tt \/ o = Raise DuplicateName).
Proof.
  induction names as [|n names IH]; intros r o r' H; cbn [register_names] in H.
  - injection H as <- <-. repeat split; auto; try (intros; contradiction). now rewrite app_nil_r.
  - rewrite smem_at in H. destruct (solver_at r (lower n)) eqn:e.
    + injection H as <- <-. repeat split; auto; discriminate.
    + apply IH in H as (H1 & H2 & H3 & H4 & H5). cbn [r_groups] in H1. split; auto.
      split; [|split; [|split]]; auto.
      * intros lk x Hx. apply H2. rewrite sset_at. destruct (String.eqb (lower n) lk) eqn:e2; auto.
        apply String.eqb_eq in e2. subst. congruence.
      * intros lk n' c' Hx. apply H3 in Hx as [Hx|(-> & I1 & I2)]; [|right; cbn; auto].
        rewrite sset_at in Hx. destruct (String.eqb (lower n) lk) eqn:e2; auto. apply String.eqb_eq in e2.
        injection Hx as <- <-. right. cbn. auto.
      * intros E. destruct (H4 E) as (H4a & H4b). split.
        -- intros n' [<-|Hn].
           ++ split; auto. apply H2. rewrite sset_at. now rewrite String.eqb_refl.
           ++ destruct (H4a n' Hn) as (K1 & K2). rewrite sset_at in K1.
              destruct (String.eqb (lower n) (lower n')); [discriminate|]. auto.
        -- rewrite H4b. cbn [r_solvers map]. unfold sset, cid_set. rewrite (set_new String.eqb lower String.eqb_eq).
           ++ unfold cid_items. rewrite map_app. cbn. now rewrite <- app_assoc.
           ++ intros c0. apply (od_get_in String.eqb lower String.eqb_eq) in c0. apply c0. exact e.
Qed.

(** the groups: an association from lowered group name to (spelling, classes) *)
Definition group_at (r : registry) (lk : string) : option (string * list cls) := od_get String.eqb (r_groups r) lk.
Lemma gget_at r g : gget (r_groups r) g = match group_at r (lower g) with Some (_, l) => Ret l | None => Raise KeyError end.
Proof. unfold gget, cid_get, group_at. destruct (od_get _ _ _) as [[? ?]|]; auto. Qed.
Lemma map_upd (d : @cid string (list cls)) lg l c lk : od_get String.eqb d lg = Some l ->
  od_get String.eqb (map (fun e => if String.eqb (fst e) lg then (fst e, (fst (snd e), snd l ++ [c])) else e) d) lk =
  if String.eqb lg lk then Some (fst l, snd l ++ [c]) else od_get String.eqb d lk.
Proof.
  induction d as [|[k [sp v]] d IH]; cbn; [discriminate|]. destruct (String.eqb k lg) eqn:e; intros H; cbn.
  - apply String.eqb_eq in e. subst k. injection H as <-. cbn.
    destruct (String.eqb lg lk) eqn:e; auto.
    clear IH. induction d as [|[k1 v1] d IHd]; cbn; auto. destruct (String.eqb k1 lg) eqn:e2; cbn.
    + apply String.eqb_eq in e2. subst. now rewrite e.
    + now rewrite IHd.
  - rewrite IH by auto. destruct (String.eqb k lk) eqn:e2; auto. apply String.eqb_eq in e2. subst.
    destruct (String.eqb lg lk) eqn:e3; auto. apply String.eqb_eq in e3. subst. now rewrite String.eqb_refl in e.
Qed.
Lemma map_upd_keys (d : @cid string (list cls)) lg l : cid_keys (map (fun e => if String.eqb (fst e) lg then (fst e, (fst (snd e), l)) else e) d) = cid_keys d
  /\ map fst (map (fun e => if String.eqb (fst e) lg then (fst e, (fst (snd e), l)) else e) d) = map fst d.
Proof.
  unfold cid_keys. rewrite !map_map. split; apply map_ext; intros [k [s v]]; cbn; now destruct (String.eqb k lg).
Qed.

(** a class statement *)
Lemma init_subclass_spec c r o r' : init_subclass false c r = (o, r') ->
  match o with
  | Ret _ | Raise _ =>
    (r' = r /\ o = Raise ValueError /\ (c_len c = None \/ exists n, c_len c = Some n /\ (n < 2)%Z)) \/
    ((exists n, c_len c = Some n /\ (2 <= n)%Z) /\
     ((o = Raise DuplicateName /\ register_names c (names_of c) r = (Raise DuplicateName, r')) \/
      o = match c_builder c with None => Ret tt | Some e => Raise e end /\
      exists r1, register_names c (names_of c) r = (Ret tt, r1) /\ r_solvers r' = r_solvers r1 /\
        (forall lk, group_at r' lk = if String.eqb (lower (c_group c)) lk
           then Some (match group_at r lk with Some (sp, l) => (sp, l ++ [c]) | None => (c_group c, [c]) end)
           else group_at r lk) /\
        cid_keys (r_groups r') = cid_keys (r_groups r) ++ match group_at r (lower (c_group c)) with Some _ => [] | None => [c_group c] end /\
        map fst (r_groups r') = map fst (r_groups r) ++ match group_at r (lower (c_group c)) with Some _ => [] | None => [lower (c_group c)] end))
  | Loop => False
  end.
Proof.
  unfold init_subclass. destruct (c_len c) as [n|] eqn:el.
  2:{ intros H. injection H as <- <-. left. auto. }
  destruct (n <? 2)%Z eqn:en.
  { intros H. injection H as <- <-. left. apply Z.ltb_lt in en. repeat split; auto. right. exists n. auto. }
  apply Z.ltb_ge in en. unfold bind. change (c_name c :: c_aliases c) with (names_of c).
  destruct (register_names c (names_of c) r) as [o1 r1] eqn:er.
  pose proof (register_names_spec _ _ _ _ _ er) as (G1 & _ & _ & _ & [-> | ->]).
  2:{ intros H. injection H as <- <-. right. split; [eauto|]. left. auto. }
  intros H.
  set (lg := lower (c_group c)) in *.
  assert (KEY : exists g0, (if gmem (r_groups r1) (c_group c) then r_groups r1 else gset (r_groups r1) (c_group c) []) = g0 /\
     exists sp l, od_get String.eqb g0 lg = Some (sp, l) /\
       (match group_at r lg with Some x => x = (sp, l) | None => (sp, l) = (c_group c, []) end) /\
       (forall lk, String.eqb lg lk = false -> od_get String.eqb g0 lk = group_at r lk) /\
       cid_keys g0 = cid_keys (r_groups r) ++ (match group_at r lg with Some _ => [] | None => [c_group c] end) /\
       map fst g0 = map fst (r_groups r) ++ (match group_at r lg with Some _ => [] | None => [lg] end)).
  { rewrite G1. unfold gmem, cid_mem, cid_get. fold lg. change (od_get String.eqb (r_groups r) lg) with (group_at r lg).
    destruct (group_at r lg) as [[sp l]|] eqn:eg; eexists; (split; [reflexivity|]).
    - exists sp, l. rewrite !app_nil_r. repeat split; auto.
    - exists (c_group c), []. unfold gset, cid_set. fold lg. rewrite (od_get_set _ String.eqb_eq), String.eqb_refl. repeat split; auto.
      + intros lk Hlk. rewrite (od_get_set _ String.eqb_eq), Hlk. reflexivity.
      + rewrite (set_new String.eqb lower String.eqb_eq) by (intros c0; apply (od_get_in String.eqb lower String.eqb_eq) in c0; apply c0; exact eg).
        unfold cid_keys. now rewrite map_app.
      + rewrite (set_new String.eqb lower String.eqb_eq) by (intros c0; apply (od_get_in String.eqb lower String.eqb_eq) in c0; apply c0; exact eg).
        now rewrite map_app. }
  destruct KEY as (g0 & EG & sp & l & K1 & K2 & K3 & K4 & K5). rewrite EG in H.
  unfold gget, cid_get in H. fold lg in H. rewrite K1 in H. injection H as <- <-.
  assert (PF : (exists n0, Some n = Some n0 /\ (2 <= n0)%Z)) by eauto.
  assert (Q : exists r2, register_names c (names_of c) r = (Ret tt, r2) /\ r_solvers r1 = r_solvers r2 /\
        (forall lk, od_get String.eqb (map (fun e => if String.eqb (fst e) lg then (fst e, (fst (snd e), l ++ [c])) else e) g0) lk = if String.eqb lg lk
           then Some (match group_at r lk with Some (sp, l) => (sp, l ++ [c]) | None => (c_group c, [c]) end)
           else group_at r lk) /\
        cid_keys (map (fun e => if String.eqb (fst e) lg then (fst e, (fst (snd e), l ++ [c])) else e) g0) = cid_keys (r_groups r) ++ match group_at r lg with Some _ => [] | None => [c_group c] end /\
        map fst (map (fun e => if String.eqb (fst e) lg then (fst e, (fst (snd e), l ++ [c])) else e) g0) = map fst (r_groups r) ++ match group_at r lg with Some _ => [] | None => [lg] end).
  { exists r1. split; auto. split; auto. destruct (map_upd_keys g0 lg (l ++ [c])) as (M1 & M2). split; [|split; congruence].
    intros lk. pose proof (map_upd g0 lg (sp, l) c lk K1) as MU. cbn [fst snd] in MU. rewrite MU. destruct (String.eqb lg lk) eqn:e.
    - apply String.eqb_eq in e. subst lk. destruct (group_at r lg) as [[sp' l']|]; [now injection K2 as -> ->|]. injection K2 as -> ->. reflexivity.
    - now apply K3. }
  destruct (c_builder c) as [e|]; (right; split; [auto|right; split; [reflexivity|]]; destruct Q as (r2 & Q1 & Q2 & Q3 & Q4 & Q5); exists r2; rewrite er in Q1; split; [exact Q1|]; split; [exact Q2|]; split; [exact Q3|]; split; [exact Q4|exact Q5]).
Qed.

(** ** histories in which every class statement succeeds *)
Definition in_group (lk : string) (c : cls) : bool := String.eqb (lower (c_group c)) lk.
Definition inv (cs : list cls) (r : registry) : Prop :=
  (forall lk n c, solver_at r lk = Some (n, c) -> In c cs /\ In n (names_of c) /\ lk = lower n) /\
  (forall c n, In c cs -> In n (names_of c) -> solver_at r (lower n) = Some (n, c)) /\
  cid_items (r_solvers r) = flat_map (fun c => map (fun n => (n, c)) (names_of c)) cs /\
  (forall lk, group_at r lk = match filter (in_group lk) cs with [] => None | c :: l => Some (c_group c, c :: l) end) /\
  cid_keys (r_groups r) = groups_in_order cs [] /\
  NoDup (map fst (r_groups r)) /\
  NoDup (map c_name cs).

Lemma inv_empty : inv [] empty_registry.
Proof. repeat split; cbn; auto; try discriminate; try constructor; intros; contradiction. Qed.

Lemma groups_snoc cs c : forall seen, groups_in_order (cs ++ [c]) seen = groups_in_order cs seen ++
  if existsb (ci_eqb (c_group c)) (seen ++ map c_group cs) then [] else [c_group c].
Proof.
  induction cs as [|x cs IH]; intros seen; cbn.
  - rewrite app_nil_r. now destruct (existsb _ seen).
  - destruct (existsb (ci_eqb (c_group x)) seen) eqn:e.
    + rewrite IH. f_equal. rewrite !existsb_app. cbn. destruct (existsb (ci_eqb (c_group c)) seen) eqn:e1; auto. cbn.
      destruct (ci_eqb (c_group c) (c_group x)) eqn:e2; auto. exfalso.
      unfold ci_eqb in e2. apply String.eqb_eq in e2. apply existsb_exists in e as (y & Hy & e). unfold ci_eqb in e. apply String.eqb_eq in e.
      assert (existsb (ci_eqb (c_group c)) seen = true); [|congruence]. apply existsb_exists. exists y. split; auto.
      unfold ci_eqb. apply String.eqb_eq. congruence.
    + rewrite IH. cbn. f_equal. f_equal. rewrite !existsb_app. cbn.
      destruct (ci_eqb (c_group c) (c_group x)), (existsb (ci_eqb (c_group c)) seen), (existsb (ci_eqb (c_group c)) (map c_group cs)); reflexivity.
Qed.
Lemma existsb_group c cs : existsb (ci_eqb (c_group c)) (map c_group cs) = match filter (in_group (lower (c_group c))) cs with [] => false | _ => true end.
Proof.
  induction cs as [|x cs IH]; cbn; auto. unfold in_group at 1. unfold ci_eqb at 1. rewrite String.eqb_sym.
  destruct (String.eqb (lower (c_group x)) (lower (c_group c))); auto.
Qed.

Lemma inv_step cs r c r' : inv cs r -> init_subclass false c r = (Ret tt, r') -> inv (cs ++ [c]) r'.
Proof.
  intros (I1 & I2 & I3 & I4 & I5 & I6 & I7) H. apply init_subclass_spec in H.
  destruct H as [(_ & H & _)|(_ & [(H & _)|(_ & r1 & R1 & S1 & G1 & G2 & G3)])]; try discriminate.
  pose proof (register_names_spec _ _ _ _ _ R1) as (_ & P1 & P2 & P3 & _). destruct (P3 eq_refl) as (P4 & P5).
  assert (SA : forall lk, solver_at r' lk = solver_at r1 lk) by (intros; unfold solver_at; now rewrite S1).
  split; [|split; [|split; [|split; [|split; [|split]]]]].
  - intros lk n c0 H. rewrite SA in H. apply P2 in H as [H|(-> & H1 & H2)].
    + apply I1 in H as (H1 & H2 & H3). repeat split; auto. apply in_or_app. auto.
    + repeat split; auto. apply in_or_app. cbn. auto.
  - intros c0 n Hc Hn. rewrite SA. apply in_app_or in Hc as [Hc|[<-|[]]].
    + apply P1. auto.
    + apply P4. auto.
  - rewrite S1, P5, I3, flat_map_app. cbn. now rewrite app_nil_r.
  - intros lk. rewrite G1, filter_app, I4. cbn [filter]. change (in_group lk c) with (String.eqb (lower (c_group c)) lk).
    destruct (String.eqb (lower (c_group c)) lk) eqn:e.
    + destruct (filter (in_group lk) cs); reflexivity.
    + rewrite app_nil_r. reflexivity.
  - rewrite G2, I5, groups_snoc. cbn [app]. f_equal. rewrite existsb_group, I4.
    destruct (filter (in_group (lower (c_group c))) cs); reflexivity.
  - rewrite G3. destruct (group_at r (lower (c_group c))) eqn:e.
    + now rewrite app_nil_r.
    + rewrite <- (rev_involutive (map fst (r_groups r) ++ _)). apply NoDup_rev. rewrite rev_app_distr. cbn.
      constructor; [|now apply NoDup_rev]. rewrite <- in_rev. intros c0.
      apply (od_get_in String.eqb lower String.eqb_eq) in c0. apply c0. exact e.
  - rewrite map_app. cbn. rewrite <- (rev_involutive (map c_name cs ++ _)). apply NoDup_rev. rewrite rev_app_distr. cbn.
    constructor; [|now apply NoDup_rev]. rewrite <- in_rev. intros c0. apply in_map_iff in c0 as (x & e & Hx).
    destruct (P4 (c_name c)) as (N & _); [cbn; auto|]. rewrite <- e in N. rewrite (I2 x (c_name x)) in N; [discriminate|auto|cbn; auto].
Qed.
Lemma inv_attempts l : forall cs r os r', inv cs r -> attempts l r = (os, r') -> succeeded os -> inv (cs ++ concrete l) r'.
Proof.
  induction l as [|[a c] l IH]; intros cs r os r' I H S; cbn in H.
  - injection H as <- <-. cbn. now rewrite app_nil_r.
  - destruct (init_subclass a c r) as [o r1] eqn:e1. destruct (attempts l r1) as [os1 r2] eqn:e2. injection H as <- <-.
    inversion S; subst. destruct a.
    + cbn in e1. injection e1 as <-. cbn. eapply IH; eauto.
    + change (concrete ((false, c) :: l)) with (c :: concrete l).
      replace (cs ++ c :: concrete l) with ((cs ++ [c]) ++ concrete l) by (now rewrite <- app_assoc).
      eapply IH; eauto. eapply inv_step; eauto.
Qed.
Lemma registered_inv cs r : registered cs r -> inv cs r.
Proof. intros (l & os & H & S & <-). apply (inv_attempts l [] _ _ _ inv_empty H S). Qed.

Lemma C53_lemma cs r : registered cs r -> forall cached s,
  (forall c, fst (get_solver r cached s) = Ret c <-> In c cs /\ exists n, In n (names_of c) /\ same_ci n s) /\
  ((forall c n, In c cs -> In n (names_of c) -> ~ same_ci n s) -> fst (get_solver r cached s) = Raise ValueError).
Proof.
  intros R cached s. apply registered_inv in R as (I1 & I2 & _). unfold get_solver. rewrite sget_at.
  destruct (solver_at r (lower s)) as [[n c]|] eqn:e; cbn.
  - destruct (I1 _ _ _ e) as (H1 & H2 & H3). split.
    + intros c0. split.
      * intros H. injection H as <-. split; auto. exists n. split; auto. now symmetry.
      * intros (K1 & n' & K2 & K3). pose proof (I2 _ _ K1 K2) as K. unfold same_ci in K3. rewrite K3, e in K. now injection K as _ ->.
    + intros H. exfalso. apply (H c n); auto. now symmetry.
  - split; auto. intros c. split; [discriminate|]. intros (K1 & n' & K2 & K3). pose proof (I2 _ _ K1 K2) as K.
    unfold same_ci in K3. rewrite K3, e in K. discriminate.
Qed.

(** any history, failures included: names are never rebound and answers are
    classes that were defined with that name *)
Lemma attempts_any l : forall r os r', attempts l r = (os, r') ->
  (forall lk x, solver_at r lk = Some x -> solver_at r' lk = Some x) /\
  (forall lk n c, solver_at r' lk = Some (n, c) -> solver_at r lk = Some (n, c) \/ (In c (concrete l) /\ In n (names_of c) /\ lk = lower n)).
Proof.
  induction l as [|[a c] l IH]; intros r os r' H; cbn in H.
  - injection H as <- <-. auto.
  - destruct (init_subclass a c r) as [o r1] eqn:e1. destruct (attempts l r1) as [os1 r2] eqn:e2. injection H as <- <-.
    destruct (IH _ _ _ e2) as (J1 & J2).
    assert (ST : (forall lk x, solver_at r lk = Some x -> solver_at r1 lk = Some x) /\
      (forall lk n c', solver_at r1 lk = Some (n, c') -> solver_at r lk = Some (n, c') \/ (a = false /\ c' = c /\ In n (names_of c') /\ lk = lower n))).
    { destruct a. { cbn in e1. injection e1 as _ <-. auto. }
      pose proof (init_subclass_spec _ _ _ _ e1) as H.
      assert (Q : r1 = r \/ exists o' r3, register_names c (names_of c) r = (o', r3) /\ r_solvers r1 = r_solvers r3).
      { destruct o; try contradiction; (destruct H as [(H & _)|(_ & [(_ & H)|(_ & r3 & H & H' & _)])]; [auto|right; eauto|right; eauto]). }
      destruct Q as [->|(o' & r3 & Q1 & Q2)]; [split; auto|].
      assert (SA : forall lk, solver_at r1 lk = solver_at r3 lk) by (intros; unfold solver_at; now rewrite Q2).
      pose proof (register_names_spec _ _ _ _ _ Q1) as (_ & P1 & P2 & _). split; intros; rewrite SA in *; auto.
      destruct (P2 _ _ _ H0) as [?|(-> & ? & ?)]; auto. }
    destruct ST as (S1 & S2). split; auto. intros lk n c0 H. apply J2 in H as [H|(H1 & H2 & H3)].
    + apply S2 in H as [H|(-> & -> & H2 & H3)]; auto. right. cbn. auto.
    + right. destruct a; cbn; auto.
Qed.
Lemma C53_any l os r : attempts l empty_registry = (os, r) -> forall cached s c,
  fst (get_solver r cached s) = Ret c -> In c (concrete l) /\ exists n, In n (names_of c) /\ same_ci n s.
Proof.
  intros H cached s c. unfold get_solver. rewrite sget_at. destruct (solver_at r (lower s)) as [[n c0]|] eqn:e; [|discriminate].
  cbn. intros E. injection E as ->. apply (attempts_any _ _ _ _ H) in e as [e|(e1 & e2 & e3)]; [discriminate|].
  split; auto. exists n. split; auto. now symmetry.
Qed.
Lemma C53_stable l r os r' cached cached' s c : attempts l r = (os, r') ->
  fst (get_solver r cached s) = Ret c -> fst (get_solver r' cached' s) = Ret c.
Proof.
  intros H. unfold get_solver. rewrite !sget_at. destruct (solver_at r (lower s)) as [[n c0]|] eqn:e; [|discriminate].
  apply (proj1 (attempts_any _ _ _ _ H)) in e. rewrite e. auto.
Qed.

(** ** C54 *)
Lemma C54_len c r : (c_len c = None \/ exists n, c_len c = Some n /\ (n < 2)%Z) ->
  init_subclass false c r = (Raise ValueError, r).
Proof.
  unfold init_subclass. intros [->|(n & -> & Hn)]; auto. apply Z.ltb_lt in Hn. now rewrite Hn.
Qed.
Lemma C54_dup_name c r r' o : init_subclass false c r = (o, r') -> (exists n, c_len c = Some n /\ (2 <= n)%Z) ->
  (exists c', fst (get_solver r None (c_name c)) = Ret c') -> o = Raise DuplicateName /\ r' = r.
Proof.
  intros H (n & L & Hn) (c' & G). unfold init_subclass in H. rewrite L in H. rewrite (proj2 (Z.ltb_ge n 2) Hn) in H. cbn in H.
  unfold get_solver in G. rewrite sget_at in G. unfold bind in H. rewrite smem_at in H.
  destruct (solver_at r (lower (c_name c))) as [[? ?]|]; [|discriminate]. now injection H as <- <-.
Qed.
Lemma C54_groups c r r' : init_subclass false c r = (Raise DuplicateName, r') -> c_builder c = None ->
  forall gs i f rk ms, get_solvers r' gs i f rk ms = get_solvers r gs i f rk ms.
Proof.
  intros H B. apply init_subclass_spec in H. rewrite B in H. destruct H as [(_ & H & _)|(_ & [(_ & H)|(H & _)])]; try discriminate.
  apply register_names_spec in H as (H & _). intros. unfold get_solvers. now rewrite H.
Qed.
