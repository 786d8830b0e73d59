(** get_solvers, list_solvers and the module attributes. *)
From Coq Require Import List ZArith QArith Bool Arith Ascii String Lia Permutation.
From Verif Require Import Base Scalar Vec MBuffer MZeros MSteps MApi MDop853 MClasses MRegistry MShipped SpecInst SpecDict PDict SpecReg PReg.
Import ListNotations.
Local Open Scope nat_scope.
Local Open Scope list_scope.

Lemma check_passes c i f k m : check c i f k m = passes i f k m c.
Proof. unfold check, passes, opt_ok. destruct i, f, k, m; reflexivity. Qed.

(** ** C55 *)
Lemma gs_known cs r i f k m : inv cs r -> forall gs,
  (forall g, In g gs -> exists c, In c cs /\ same_ci (c_group c) g) ->
  omapM (fun g => let! l := gget (r_groups r) g in Ret (filter (fun c => check c i f k m) l)) gs
  = Ret (map (fun g => filter (passes i f k m) (filter (fun c => ci_eqb (c_group c) g) cs)) gs).
Proof.
  intros (_ & _ & _ & I4 & _). induction gs as [|g gs IH]; intros H; auto.
  cbn [omapM]. rewrite gget_at, I4. change (filter (in_group (lower g)) cs) with (filter (fun c => ci_eqb (c_group c) g) cs).
  destruct (filter (fun c => ci_eqb (c_group c) g) cs) as [|c0 l] eqn:e.
  - exfalso. destruct (H g) as (c & H1 & H2); [cbn; auto|].
    assert (In c []); [|contradiction]. rewrite <- e. apply filter_In. split; auto. apply String.eqb_eq. exact H2.
  - cbn [obind]. rewrite IH by (intros; apply H; cbn; auto). cbn [obind map]. rewrite e. reflexivity.
Qed.
Lemma gs_unknown cs r i f k m : inv cs r -> forall gs g, In g gs -> (forall c, In c cs -> ~ same_ci (c_group c) g) ->
  omapM (fun g => let! l := gget (r_groups r) g in Ret (filter (fun c => check c i f k m) l)) gs = Raise KeyError.
Proof.
  intros (_ & _ & _ & I4 & _). induction gs as [|g0 gs IH]; intros g Hg H; [contradiction|].
  cbn [omapM]. rewrite gget_at, I4. destruct (filter (in_group (lower g0)) cs) as [|c0 l] eqn:e; auto.
  cbn [obind]. destruct Hg as [->|Hg].
  - exfalso. assert (Hc : In c0 (filter (in_group (lower g)) cs)) by (rewrite e; cbn; auto).
    apply filter_In in Hc as (Hc & E). apply (H _ Hc). now apply String.eqb_eq in E.
  - rewrite (IH _ Hg H). reflexivity.
Qed.
Lemma groups_in c cs : forall seen, In c cs -> existsb (ci_eqb (c_group c)) seen = false ->
  exists g, In g (groups_in_order cs seen) /\ same_ci (c_group c) g.
Proof.
  induction cs as [|x cs IH]; intros seen Hc E; [contradiction|]. cbn.
  destruct Hc as [->|Hc].
  - rewrite E. exists (c_group c). split; [cbn; auto|reflexivity].
  - destruct (existsb (ci_eqb (c_group x)) seen) eqn:ex; [auto|].
    destruct (ci_eqb (c_group c) (c_group x)) eqn:e2.
    + exists (c_group x). split; [cbn; auto|]. now apply String.eqb_eq in e2.
    + destruct (IH (c_group x :: seen) Hc) as (g & G1 & G2); [cbn; now rewrite e2, E|]. exists g. split; auto. now right.
Qed.
Lemma groups_from cs : forall seen g, In g (groups_in_order cs seen) ->
  (exists c, In c cs /\ c_group c = g) /\ existsb (ci_eqb g) seen = false.
Proof.
  induction cs as [|x cs IH]; intros seen g H; [contradiction|]. cbn in H.
  destruct (existsb (ci_eqb (c_group x)) seen) eqn:ex.
  - destruct (IH _ _ H) as ((c & H1 & H2) & H3). split; auto. exists c. cbn. auto.
  - destruct H as [<-|H].
    + split; auto. exists x. cbn. auto.
    + destruct (IH _ _ H) as ((c & H1 & H2) & H3). cbn in H3. apply orb_false_iff in H3 as (_ & H3). split; auto. exists c. cbn. auto.
Qed.
Lemma groups_distinct cs : forall seen, NoDup (map lower (groups_in_order cs seen)).
Proof.
  induction cs as [|x cs IH]; intros seen; cbn; [constructor|].
  destruct (existsb (ci_eqb (c_group x)) seen) eqn:ex; auto. cbn. constructor; auto.
  intros H. apply in_map_iff in H as (g & E & Hg). apply groups_from in Hg as (_ & Hg). cbn in Hg.
  apply orb_false_iff in Hg as (Hg & _). unfold ci_eqb in Hg. rewrite E, String.eqb_refl in Hg. discriminate.
Qed.
Lemma split_filter {A} (p : A -> bool) (l : list A) : Permutation (filter p l ++ filter (fun x => negb (p x)) l) l.
Proof.
  induction l as [|a l IH]; cbn; auto. destruct (p a); cbn.
  - now constructor.
  - rewrite <- Permutation_middle. now constructor.
Qed.
Lemma filter_comm {A} (p q : A -> bool) l : filter p (filter q l) = filter q (filter p l).
Proof. induction l as [|a l IH]; cbn; auto. destruct (p a) eqn:e1, (q a) eqn:e2; cbn; rewrite ?e1, ?e2, ?IH; auto. Qed.
Lemma filter_none {A} (p : A -> bool) l : (forall x, In x l -> p x = false) -> filter p l = [].
Proof. induction l as [|a l IH]; intros H; cbn; auto. rewrite (H a) by (cbn; auto). apply IH. intros. apply H. cbn. auto. Qed.
Lemma filter_all {A} (p : A -> bool) l : (forall x, In x l -> p x = true) -> filter p l = l.
Proof. induction l as [|a l IH]; intros H; cbn; auto. rewrite (H a) by (cbn; auto). f_equal. apply IH. intros. apply H. cbn. auto. Qed.
Lemma partition_groups (gs : list string) : NoDup (map lower gs) -> forall cs,
  (forall c, In c cs -> exists g, In g gs /\ same_ci (c_group c) g) ->
  Permutation (flat_map (fun g => filter (fun c => ci_eqb (c_group c) g) cs) gs) cs.
Proof.
  induction gs as [|g gs IH]; intros ND cs H; cbn.
  - destruct cs as [|c cs]; auto. destruct (H c) as (? & [] & _). cbn; auto.
  - inversion ND as [|? ? N1 N2]; subst.
    transitivity (filter (fun c => ci_eqb (c_group c) g) cs ++ filter (fun x => negb (ci_eqb (c_group x) g)) cs);
      [|apply (split_filter (fun c => ci_eqb (c_group c) g))]. apply Permutation_app_head.
    rewrite <- (IH N2 (filter (fun x => negb (ci_eqb (c_group x) g)) cs)).
    + assert (E : forall gs', ~ In (lower g) (map lower gs') -> flat_map (fun g0 => filter (fun c => ci_eqb (c_group c) g0) cs) gs' =
         flat_map (fun g0 => filter (fun c => ci_eqb (c_group c) g0) (filter (fun x => negb (ci_eqb (c_group x) g)) cs)) gs').
      { induction gs' as [|h gs' IH']; intros N; cbn; auto. rewrite IH' by (intros ?; apply N; cbn; auto). f_equal.
        rewrite filter_comm. symmetry. apply filter_all. intros c Hc. apply filter_In in Hc as (_ & Hc). unfold ci_eqb in *.
        apply String.eqb_eq in Hc. apply negb_true_iff. apply String.eqb_neq. intros E. apply N. cbn. left. congruence. }
      rewrite (E gs N1). reflexivity.
    + intros c Hc. apply filter_In in Hc as (H1 & H2). destruct (H c H1) as (g' & [<-|G1] & G2); eauto.
      exfalso. unfold ci_eqb in H2. rewrite G2, String.eqb_refl in H2. discriminate.
Qed.

Lemma C55_groups_lemma cs r : registered cs r -> forall g gs i f k m,
  ((forall x, In x (g :: gs) -> exists c, In c cs /\ same_ci (c_group c) x) ->
     get_solvers r (g :: gs) i f k m = Ret (flat_map (fun x => filter (fun c => ci_eqb (c_group c) x && passes i f k m c) cs) (g :: gs))) /\
  ((exists x, In x (g :: gs) /\ forall c, In c cs -> ~ same_ci (c_group c) x) -> get_solvers r (g :: gs) i f k m = Raise KeyError).
Proof.
  intros R g gs i f k m. apply registered_inv in R. split.
  - intros H. unfold get_solvers. rewrite (gs_known _ _ i f k m R _ H). cbn [obind]. f_equal.
    rewrite flat_map_concat_map. f_equal. apply map_ext. intros x. clear.
    induction cs as [|a l IH]; cbn; auto. destruct (ci_eqb (c_group a) x); cbn; auto. destruct (passes i f k m a); cbn; now rewrite IH.
  - intros (x & H1 & H2). unfold get_solvers. now rewrite (gs_unknown _ _ i f k m R _ _ H1 H2).
Qed.
Lemma C55_all_lemma cs r : registered cs r -> forall i f k m,
  exists l, get_solvers r [] i f k m = Ret l /\ Permutation l (filter (passes i f k m) cs) /\ NoDup l /\
    l = flat_map (fun g => filter (fun c => ci_eqb (c_group c) g && passes i f k m c) cs) (groups_in_order cs []).
Proof.
  intros R i f k m. apply registered_inv in R. pose proof R as (_ & _ & _ & I4 & I5 & _ & I7).
  assert (K : forall g, In g (groups_in_order cs []) -> exists c, In c cs /\ same_ci (c_group c) g).
  { intros g H. apply groups_from in H as ((c & H1 & H2) & _). exists c. split; auto. now rewrite <- H2. }
  eexists. split; [unfold get_solvers; rewrite I5, (gs_known _ _ i f k m R _ K); reflexivity|].
  set (l := List.concat _).
  assert (E : l = flat_map (fun g => filter (fun c => ci_eqb (c_group c) g) (filter (passes i f k m) cs)) (groups_in_order cs [])).
  { unfold l. rewrite flat_map_concat_map. f_equal. apply map_ext. intros. apply filter_comm. }
  assert (P : Permutation l (filter (passes i f k m) cs)).
  { rewrite E. apply partition_groups; [apply groups_distinct|]. intros c Hc. apply filter_In in Hc as (Hc & _).
    apply groups_in; auto. }
  split; [exact P|]. split.
  - eapply Permutation_NoDup; [symmetry; exact P|]. apply NoDup_filter. eapply NoDup_map_inv. exact I7.
  - unfold l. rewrite flat_map_concat_map. f_equal. apply map_ext. intros x. clear.
    induction cs as [|a l IH]; cbn; auto. destruct (ci_eqb (c_group a) x); cbn; auto. destruct (passes i f k m a); cbn; now rewrite IH.
Qed.

(** ** C57 *)
Lemma gs_filter (r : registry) gs i f k m : get_solvers r gs i f k m =
  let! l := get_solvers r gs None None None None in Ret (filter (passes i f k m) l).
Proof.
  unfold get_solvers. set (g := match gs with [] => _ | _ => _ end). clearbody g.
  assert (H : omapM (fun g => let! l := gget (r_groups r) g in Ret (filter (fun c => check c i f k m) l)) g =
    let! ls := omapM (fun g => let! l := gget (r_groups r) g in Ret (filter (fun c => check c None None None None) l)) g in
    Ret (map (filter (passes i f k m)) ls)).
  { induction g as [|a g IH]; auto. cbn [omapM]. destruct (gget (r_groups r) a); cbn [obind]; auto. rewrite IH.
    clear IH. match goal with |- context [omapM ?F g] => destruct (omapM F g) end; cbn [obind]; auto. cbn [map]. f_equal. f_equal. rewrite (filter_all (fun c => check c None None None None)) by auto.
    apply filter_ext. intros. apply check_passes. }
  rewrite H. clear H. match goal with |- context [omapM ?F g] => destruct (omapM F g) as [ls| |] end; cbn [obind]; auto. f_equal.
  induction ls as [|x a IH]; cbn; auto. now rewrite filter_app, IH.
Qed.
Lemma part_gen (p q s : cls -> bool) l : (forall c, q c = p c && s c) ->
  exists la lb, filter q l = la /\ filter (fun c => p c && negb (s c)) l = lb /\ Permutation (la ++ lb) (filter p l) /\
   (forall c, In c la -> s c = true) /\ (forall c, In c lb -> s c = false).
Proof.
  intros H. eexists; eexists. split; [reflexivity|]. split; [reflexivity|]. split; [|split].
  - rewrite <- (split_filter s (filter p l)). apply Permutation_app.
    + assert (E : filter q l = filter s (filter p l)); [|now rewrite E].
      induction l as [|a l IH]; cbn; auto. rewrite H. destruct (p a); cbn; auto. destruct (s a); cbn; now rewrite IH.
    + assert (E : filter (fun c => p c && negb (s c)) l = filter (fun x => negb (s x)) (filter p l)); [|now rewrite E].
      induction l as [|a l IH]; cbn; auto. destruct (p a); cbn; auto. destruct (s a); cbn; now rewrite IH.
  - intros c Hc. apply filter_In in Hc as (_ & Hc). rewrite H in Hc. now apply andb_true_iff in Hc.
  - intros c Hc. apply filter_In in Hc as (_ & Hc). apply andb_true_iff in Hc as (_ & Hc). now apply negb_true_iff.
Qed.
(** [a] and [b] split [u] according to the flag *)
Lemma C57_lemma (r : registry) gs i f k m :
  (forall u, get_solvers r gs None f k m = Ret u -> exists a b, get_solvers r gs (Some true) f k m = Ret a /\
     get_solvers r gs (Some false) f k m = Ret b /\ splits c_implicit u a b) /\
  (forall u, get_solvers r gs i None k m = Ret u -> exists a b, get_solvers r gs i (Some true) k m = Ret a /\
     get_solvers r gs i (Some false) k m = Ret b /\ splits c_fixed u a b) /\
  (forall u, get_solvers r gs i f None m = Ret u -> exists a b, get_solvers r gs i f (Some true) m = Ret a /\
     get_solvers r gs i f (Some false) m = Ret b /\ splits c_rk u a b) /\
  (forall u, get_solvers r gs i f k None = Ret u -> exists a b, get_solvers r gs i f k (Some true) = Ret a /\
     get_solvers r gs i f k (Some false) = Ret b /\ splits c_ms u a b).
Proof.
  assert (G : forall s i0 f0 k0 m0 i1 f1 k1 m1 i2 f2 k2 m2,
    (forall c, passes i1 f1 k1 m1 c = passes i0 f0 k0 m0 c && s c) ->
    (forall c, passes i2 f2 k2 m2 c = passes i0 f0 k0 m0 c && negb (s c)) ->
    forall u, get_solvers r gs i0 f0 k0 m0 = Ret u -> exists a b, get_solvers r gs i1 f1 k1 m1 = Ret a /\
     get_solvers r gs i2 f2 k2 m2 = Ret b /\ splits s u a b).
  { intros s i0 f0 k0 m0 i1 f1 k1 m1 i2 f2 k2 m2 H1 H2 u Hu. rewrite gs_filter in Hu. rewrite (gs_filter r gs i1), (gs_filter r gs i2).
    destruct (get_solvers r gs None None None None) as [l| |]; cbn [obind] in *; try discriminate. injection Hu as <-.
    destruct (part_gen _ _ _ l H1) as (la & lb & E1 & E2 & P).
    exists la, lb. rewrite E1. split; auto. split; [|exact P]. f_equal. rewrite <- E2. apply filter_ext. exact H2. }
  assert (B : forall x y, Bool.eqb x y = true <-> x = y) by apply Bool.eqb_true_iff.
  repeat split; apply G; intros c; unfold passes; destruct i as [[|]|], f as [[|]|], k as [[|]|], m as [[|]|];
    destruct (c_implicit c), (c_fixed c), (c_rk c), (c_ms c); reflexivity.
Qed.

(** ** names of one class are distinct *)
Lemma register_nodup c names : forall r r', register_names c names r = (Ret tt, r') -> NoDup (map lower names).
Proof.
  induction names as [|n names IH]; intros r r' H; cbn [register_names map] in *; [constructor|].
  rewrite smem_at in H. destruct (solver_at r (lower n)) eqn:e; [discriminate|].
  constructor; [|eapply IH; eauto]. intros Hn. apply in_map_iff in Hn as (x & E & Hx).
  apply register_names_spec in H as (_ & _ & _ & H & _). destruct (proj1 (H eq_refl) x Hx) as (N & _).
  rewrite E, sset_at, String.eqb_refl in N. discriminate.
Qed.
Lemma init_nodup c r r' : init_subclass false c r = (Ret tt, r') -> NoDup (map lower (names_of c)).
Proof.
  intros H. apply init_subclass_spec in H. destruct H as [(_ & H & _)|(_ & [(H & _)|(_ & r1 & R1 & _)])]; try discriminate.
  eapply register_nodup; eauto.
Qed.
Lemma attempts_nodup l : forall r os r', attempts l r = (os, r') -> succeeded os -> forall c, In c (concrete l) -> NoDup (map lower (names_of c)).
Proof.
  induction l as [|[a c0] l IH]; intros r os r' H S c Hc; cbn in H; [contradiction|].
  destruct (init_subclass a c0 r) as [o r1] eqn:e1. destruct (attempts l r1) as [os1 r2] eqn:e2. injection H as <- <-.
  inversion S; subst. destruct a; [eapply IH; eauto|]. destruct Hc as [<-|Hc]; [eapply init_nodup; eauto|eapply IH; eauto].
Qed.
Lemma registered_nodup cs r : registered cs r -> forall c, In c cs -> NoDup (map lower (names_of c)).
Proof. intros (l & os & H & S & <-). eapply attempts_nodup; eauto. Qed.

Lemma list_names cs r : registered cs r -> list_solvers false r = map c_name cs.
Proof.
  intros R. pose proof (registered_nodup _ _ R) as ND. apply registered_inv in R as (_ & _ & I3 & _).
  unfold list_solvers, list_solvers_gen. rewrite I3. clear I3. induction cs as [|c cs IH]; auto.
  cbn [flat_map]. rewrite flat_map_app, IH by (intros; apply ND; cbn; auto). cbn [map].
  assert (E : flat_map (fun kv : string * cls => let '(k, v) := kv in if String.eqb k (c_name v) then [c_name v] else [])
    (map (fun n => (n, c)) (names_of c)) = [c_name c]); [|rewrite E; reflexivity].
  unfold names_of. cbn. rewrite String.eqb_refl. cbn. f_equal.
  specialize (ND c (or_introl eq_refl)). inversion ND as [|? ? N _]; subst. clear - N.
  induction (c_aliases c) as [|a l IH]; auto. cbn in *. destruct (String.eqb_spec a (c_name c)) as [->|_].
  - exfalso. auto.
  - cbn. apply IH. auto.
Qed.

Lemma insert_perm x l : Permutation (insert_str x l) (x :: l).
Proof.
  induction l as [|y l IH]; cbn; auto. destruct (string_leb x y); auto.
  rewrite IH. constructor.
Qed.
Lemma sort_perm l : Permutation (sort_str l) l.
Proof. induction l as [|x l IH]; auto. cbn. rewrite insert_perm. now constructor. Qed.

Lemma C58_dir_lemma cs r : registered cs r -> Permutation (fst (mod_dir r None)) (["get_groups"; "get_solvers"; "get_solver"; "test"]%string ++ map c_name cs).
Proof.
  intros R. unfold mod_dir. cbn [fst]. rewrite (list_names _ _ R). apply sort_perm.
Qed.
Lemma C58_listing_lemma cs r : registered cs r -> list_solvers false r = map c_name cs /\
  list_solvers true r = flat_map (fun c => c_name c :: map (fun a => (a ++ " (alias of " ++ c_name c ++ ")")%string) (c_aliases c)) cs.
Proof.
  intros R. split; [now apply list_names|]. pose proof (registered_nodup _ _ R) as ND. apply registered_inv in R as (_ & _ & I3 & _).
  unfold list_solvers, list_solvers_gen. rewrite I3. clear I3. induction cs as [|c cs IH]; auto.
  cbn [flat_map]. rewrite flat_map_app, IH by (intros; apply ND; cbn; auto). f_equal.
  unfold names_of. cbn [map flat_map]. rewrite String.eqb_refl. cbn [app]. f_equal.
  specialize (ND c (or_introl eq_refl)). inversion ND as [|? ? N _]; subst. clear - N.
  induction (c_aliases c) as [|a l IH]; auto. cbn [map flat_map In] in *. destruct (String.eqb_spec a (c_name c)) as [->|_].
  - exfalso. auto.
  - cbn [app]. f_equal. apply IH. auto.
Qed.

Lemma lower_exact_shipped n c cs r : registered (shipped ++ cs) r -> In n ["DOP853"; "RungeKutta23"; "RungeKutta45"]%string ->
  fst (get_solver r None n) = Ret c -> c_name c = n.
Proof.
  intros R Hn H. destruct (C53_lemma _ _ R None n) as (F & _).
  assert (X : forall c', In c' shipped -> c_name c' = n -> c_name c = n).
  { intros c' H1 H2. assert (E : fst (get_solver r None n) = Ret c').
    { apply F. split; [apply in_or_app; auto|]. exists n. split; [left; auto|reflexivity]. }
    rewrite E in H. injection H as <-. auto. }
  destruct Hn as [<-|[<-|[<-|[]]]].
  - eapply (X (rk_cls "DOP853" false)); [do 25 right; left; reflexivity|reflexivity].
  - eapply (X (rk_cls "RungeKutta23" false)); [do 23 right; left; reflexivity|reflexivity].
  - eapply (X (rk_cls "RungeKutta45" false)); [do 24 right; left; reflexivity|reflexivity].
Qed.
Lemma C58_attr_lemma cs r : registered (shipped ++ cs) r -> forall name, ~ In name mod_globals ->
  (forall c w, mod_attr r name = Ret (ASolver c w) <->
     In c (shipped ++ cs) /\ (exists n, In n (names_of c) /\ same_ci n name) /\ (w = true <-> c_name c <> name)) /\
  ((forall c n, In c (shipped ++ cs) -> In n (names_of c) -> ~ same_ci n name) -> mod_attr r name = Raise AttributeError).
Proof.
  intros R name NG. destruct (C53_lemma _ _ R None name) as (F1 & F2).
  assert (W : forall c, Bool.reflect (c_name c <> name) (negb (String.eqb (c_name c) name))).
  { intros c. destruct (String.eqb_spec (c_name c) name); cbn; constructor; auto. }
  assert (E : mod_attr r name = match fst (get_solver r None name) with
     | Ret c => Ret (ASolver c (negb (String.eqb (c_name c) name))) | _ => Raise AttributeError end).
  { unfold mod_attr. destruct (existsb (String.eqb name) mod_globals) eqn:e.
    { exfalso. apply NG. apply existsb_exists in e as (x & Hx & e). apply String.eqb_eq in e. now subst. }
    destruct (existsb (String.eqb name) ["DOP853"; "RungeKutta23"; "RungeKutta45"]%string) eqn:e2.
    - apply existsb_exists in e2 as (x & Hx & e2). apply String.eqb_eq in e2. subst x.
      pose proof (fun c => lower_exact_shipped name c cs r R Hx) as L. revert L. unfold get_solver.
      destruct (sget (r_solvers r) name); cbn; auto. intros L. rewrite (L a eq_refl), String.eqb_refl. reflexivity.
    - unfold mod_getattr. destruct (fst (get_solver r None name)); reflexivity. }
  rewrite E. split.
  - intros c w. destruct (fst (get_solver r None name)) as [c0| |] eqn:g.
    + split.
      * intros H. injection H as <- <-. destruct (proj1 (F1 c0) eq_refl) as (H1 & H2). repeat split; auto; destruct (W c0); auto; discriminate.
      * intros (H1 & H2 & H3). pose proof (proj2 (F1 c) (conj H1 H2)) as H. injection H as ->. f_equal. f_equal.
        destruct (W c) as [n|n]; [symmetry; now apply H3|]. destruct w; auto. exfalso. apply n. now apply H3.
    + split; [discriminate|]. intros (H1 & H2 & _). discriminate (proj2 (F1 c) (conj H1 H2)).
    + split; [discriminate|]. intros (H1 & H2 & _). discriminate (proj2 (F1 c) (conj H1 H2)).
  - intros H. rewrite (F2 H). reflexivity.
Qed.

(** ** the shipped registry *)
Definition nb : registry := snd nbkode_registry.
Lemma nb_registered : registered shipped nb.
Proof.
  exists (map (pair false) shipped), (map (fun _ => Ret tt) shipped).
  split; [vm_compute; reflexivity|]. split; [|vm_compute; reflexivity].
  unfold succeeded. apply Forall_forall. intros o H. apply in_map_iff in H as (x & <- & _). reflexivity.
Qed.
(** a class with a fresh name and an alias already taken *)
Definition c_dup : cls := mkcls "MySolver"%string ["Euler"%string] "Mine"%string (Some 2%Z) false true false false None.
Lemma C54_alias_lemma : exists cs r c r' c0, registered cs r /\ init_subclass false c r = (Raise DuplicateName, r') /\
  fst (get_solver r None (c_name c)) = Raise ValueError /\ fst (get_solver r' None (c_name c)) = Ret c0.
Proof.
  exists shipped, nb, c_dup, (snd (init_subclass false c_dup nb)), c_dup. split; [exact nb_registered|].
  split; [|split; vm_compute; reflexivity].
  assert (E : fst (init_subclass false c_dup nb) = Raise DuplicateName) by (vm_compute; reflexivity).
  destruct (init_subclass false c_dup nb). cbn in *. now rewrite E.
Qed.
(** a class whose step builder raises *)
Definition c_bad : cls := mkcls "MySolver"%string [] "Mine"%string (Some 2%Z) false true false false (Some ValueError).
Lemma C54_builder_lemma : exists cs r c r' c0 e, registered cs r /\ init_subclass false c r = (Raise e, r') /\
  fst (get_solver r None (c_name c)) = Raise ValueError /\ fst (get_solver r' None (c_name c)) = Ret c0 /\
  get_solvers r ["Mine"%string] None None None None = Raise KeyError /\
  get_solvers r' ["Mine"%string] None None None None = Ret [c0].
Proof.
  exists shipped, nb, c_bad, (snd (init_subclass false c_bad nb)), c_bad, ValueError. split; [exact nb_registered|].
  split; [|repeat split; vm_compute; reflexivity].
  assert (E : fst (init_subclass false c_bad nb) = Raise ValueError) by (vm_compute; reflexivity).
  destruct (init_subclass false c_bad nb). cbn in *. now rewrite E.
Qed.

(** ** C56 *)
Lemma C56_all_lemma : exists l, get_solvers nb [] (Some true) None None None = Ret l /\
  map c_name l = ["AdamsBashforth1"; "AdamsBashforth2"; "AdamsBashforth3"; "AdamsBashforth4"; "AdamsBashforth5"; "ForwardEuler"]%string.
Proof. eexists. split; vm_compute; reflexivity. Qed.

Definition is_expl {OT : Ops} (m : meth) : bool := match m with ExplMS _ _ => true | _ => false end.
Lemma C56_inverted_lemma {OT : Ops} : exists l, get_solvers nb [] (Some true) None None None = Ret l /\
  (forall c m, In c shipped -> In (c_name c, m) shipped_methods -> (In c l <-> exists A B, m = ExplMS A B)).
Proof.
  destruct (C55_all_lemma _ _ nb_registered (Some true) None None None) as (l & H1 & H2 & _). exists l. split; auto.
  intros c m Hc Hm.
  assert (K : forallb (fun c => forallb (fun p => if String.eqb (fst p) (c_name c) then Bool.eqb (c_implicit c) (is_expl (snd p)) else true)
     shipped_methods) shipped = true) by (lazy; reflexivity).
  rewrite forallb_forall in K. specialize (K c Hc). rewrite forallb_forall in K. specialize (K _ Hm). cbn [fst snd] in K.
  rewrite String.eqb_refl in K. apply Bool.eqb_prop in K.
  assert (F : In c l <-> c_implicit c = true).
  { split; intros H.
    - apply (Permutation_in _ H2) in H. apply filter_In in H as (_ & H). unfold passes in H. destruct (c_implicit c); auto.
    - apply (Permutation_in _ (Permutation_sym H2)). apply filter_In. split; auto. unfold passes. rewrite H. reflexivity. }
  rewrite F, K. clear. destruct m; cbn [is_expl]; split; intros H; try discriminate; eauto; destruct H as (A' & B' & E); discriminate.
Qed.
Lemma C56_refuted_lemma {OT : Ops} : exists l c m c' m', get_solvers nb [] (Some true) None None None = Ret l /\
  In c shipped /\ In (c_name c, m) shipped_methods /\ (exists A B, m = ExplMS A B) /\ In c l /\
  In c' shipped /\ In (c_name c', m') shipped_methods /\ (exists A B Bn, m' = ImplMS A B Bn) /\ ~ In c' l.
Proof.
  destruct (C56_inverted_lemma (OT := OT)) as (l & H1 & H2).
  exists l, (ms_cls "AdamsBashforth1" [] "Adams-Bashforth" 1 true)%string, AB1, (ms_cls "BDF1" [] "BDF" 1 false)%string, BDF1.
  assert (M1 : In ("AdamsBashforth1"%string, AB1) shipped_methods) by (left; reflexivity).
  assert (M2 : In ("BDF1"%string, BDF1) shipped_methods) by (do 12 right; left; reflexivity).
  assert (S1 : In (ms_cls "AdamsBashforth1" [] "Adams-Bashforth" 1 true)%string shipped) by (left; reflexivity).
  assert (S2 : In (ms_cls "BDF1" [] "BDF" 1 false)%string shipped) by (do 12 right; left; reflexivity).
  repeat split; auto.
  - do 2 eexists; reflexivity.
  - apply (H2 _ _ S1 M1). do 2 eexists; reflexivity.
  - do 3 eexists; reflexivity.
  - intros H. apply (H2 _ _ S2 M2) in H as (A & B & E). discriminate.
Qed.

(** ** C58: dir after a later definition *)
Definition c_new : cls := mkcls "MySolver"%string [] "Mine"%string (Some 2%Z) false true false false None.
Lemma notin_b x l : existsb (String.eqb x) l = false -> ~ In x l.
Proof. intros E H. assert (existsb (String.eqb x) l = true); [|congruence]. apply existsb_exists. exists x. split; auto. apply String.eqb_refl. Qed.
Lemma C58_stale_lemma : exists cs r c r', registered cs r /\ init_subclass false c r = (Ret tt, r') /\
  fst (get_solver r' None (c_name c)) = Ret c /\
  ~ In (c_name c) (fst (mod_dir r' (snd (mod_dir r None)))).
Proof.
  exists shipped, nb, c_new, (snd (init_subclass false c_new nb)). split; [exact nb_registered|].
  split; [|split; [vm_compute; reflexivity|]].
  - assert (E : fst (init_subclass false c_new nb) = Ret tt) by (vm_compute; reflexivity).
    destruct (init_subclass false c_new nb). cbn in *. now rewrite E.
  - apply notin_b. vm_compute. reflexivity.
Qed.
Lemma C58_euler_lemma : exists c, fst (get_solver nb None "euler"%string) = Ret c /\ forall w, mod_attr nb "euler"%string <> Ret (ASolver c w).
Proof. eexists. split; [vm_compute; reflexivity|]. intros w H. vm_compute in H. discriminate. Qed.
