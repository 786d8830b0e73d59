(** The names listed by a failed get_solver. *)
From Coq Require Import List ZArith QArith Bool Arith Ascii String Lia Permutation.
From Verif Require Import Base Scalar Vec MBuffer MZeros MSteps MApi MDop853 MClasses MRegistry MShipped SpecInst SpecDict PDict SpecReg PReg PReg2 SpecNames.
Import ListNotations.
Local Open Scope nat_scope.
Local Open Scope list_scope.

Lemma leb_le a : forall b, string_leb a b = true -> str_le a b.
Proof.
  induction a as [|x a IH]; intros b H.
  - exists EmptyString, EmptyString, b. auto.
  - destruct b as [|y b]; cbn [string_leb] in H; [discriminate|].
    destruct (Nat.ltb_spec (nat_of_ascii x) (nat_of_ascii y)) as [L|L].
    + exists EmptyString, (String x a), (String y b). auto.
    + destruct (Nat.ltb_spec (nat_of_ascii y) (nat_of_ascii x)) as [L2|L2]; [discriminate|].
      assert (x = y) as <-. { rewrite <- (ascii_nat_embedding x), <- (ascii_nat_embedding y). f_equal. lia. }
      destruct (IH _ H) as (p & u & v & -> & -> & K). exists (String x p), u, v. auto.
Qed.
Lemma le_leb p : forall x y, match x, y with
    | EmptyString, _ => True
    | String c _, String d _ => (nat_of_ascii c < nat_of_ascii d)%nat
    | String _ _, EmptyString => False
    end -> string_leb (p ++ x)%string (p ++ y)%string = true.
Proof.
  induction p as [|c p IH]; intros x y H; cbn [append].
  - destruct x as [|a x]; auto. destruct y as [|b y]; [easy|]. cbn [string_leb]. destruct (Nat.ltb_spec (nat_of_ascii a) (nat_of_ascii b)); auto. lia.
  - cbn [string_leb]. rewrite Nat.ltb_irrefl. auto.
Qed.
Lemma leb_spec a b : string_leb a b = true <-> str_le a b.
Proof. split; [apply leb_le|]. intros (p & x & y & -> & -> & H). now apply le_leb. Qed.
Lemma leb_total a : forall b, string_leb a b = false -> string_leb b a = true.
Proof.
  induction a as [|x a IH]; intros b H; [discriminate|]. destruct b as [|y b]; auto. cbn [string_leb] in *.
  destruct (Nat.ltb_spec (nat_of_ascii x) (nat_of_ascii y)); [discriminate|].
  destruct (Nat.ltb_spec (nat_of_ascii y) (nat_of_ascii x)); auto.
Qed.
Lemma leb_trans a : forall b c, string_leb a b = true -> string_leb b c = true -> string_leb a c = true.
Proof.
  induction a as [|x a IH]; intros b c H K; auto. destruct b as [|y b]; [discriminate|]. destruct c as [|z c]; [discriminate|]. cbn [string_leb] in *.
  destruct (Nat.ltb_spec (nat_of_ascii x) (nat_of_ascii y)), (Nat.ltb_spec (nat_of_ascii y) (nat_of_ascii x)),
    (Nat.ltb_spec (nat_of_ascii y) (nat_of_ascii z)), (Nat.ltb_spec (nat_of_ascii z) (nat_of_ascii y)),
    (Nat.ltb_spec (nat_of_ascii x) (nat_of_ascii z)), (Nat.ltb_spec (nat_of_ascii z) (nat_of_ascii x)); try discriminate; try lia; auto.
  eapply IH; eauto.
Qed.
Lemma insert_ordered x l : ordered l -> ordered (insert_str x l).
Proof.
  induction 1 as [|y l H O IH]; cbn; [constructor; [easy|constructor]|].
  destruct (string_leb x y) eqn:e.
  - constructor; [|now constructor]. intros z [<-|Hz]; [now apply leb_spec|].
    apply leb_spec. eapply leb_trans; [exact e|]. now apply leb_spec, H.
  - constructor; auto. intros z Hz. apply (Permutation_in z (insert_perm x l)) in Hz as [<-|Hz]; auto.
    now apply leb_spec, leb_total.
Qed.
Lemma sort_ordered l : ordered (sort_str l).
Proof. induction l; [constructor|]. cbn. now apply insert_ordered. Qed.

Lemma listing_of cs r : registered cs r -> listing cs (sort_str (list_solvers true r)).
Proof.
  intros R. split; [apply sort_ordered|]. rewrite sort_perm. destruct (C58_listing_lemma _ _ R) as (_ & ->). apply Permutation_refl.
Qed.

Lemma acts_kept l : forall r m, Forall (fun x => (exists c, x = (Ret c, Some m)) \/ fails_listing x m) (fst (acts l r (Some m))).
Proof.
  induction l as [|[a c|s] l IH]; intros r m; [constructor|apply IH|]. cbn [acts]. unfold get_solver.
  destruct (sget (r_solvers r) s) as [c| |]; cbn;
    specialize (IH r m); destruct (acts l r (Some m)) as [os z]; cbn in *; constructor; auto; unfold fails_listing; eauto.
Qed.

Lemma get_unknown cs r k s : registered cs r -> unknown cs s -> get_solver r k s =
  (Raise ValueError, Some match k with Some m => m | None => sort_str (list_solvers true r) end).
Proof.
  intros R U. pose proof (C53_lemma _ _ R k s) as H. unfold get_solver in *.
  destruct (sget (r_solvers r) s) as [c|e|] eqn:e1; cbn in *.
  - exfalso. destruct H as (H & _). specialize (H c). destruct H as (H & _). destruct (H eq_refl) as (H1 & n & H2 & H3). exact (U _ _ H1 H2 H3).
  - now destruct k.
  - now destruct k.
Qed.

Lemma C80_lemma cs r s : registered cs r -> unknown cs s -> exists m, listing cs m /\ fails_listing (get_solver r None s) m /\
  forall l, Forall (fun x => (exists c, x = (Ret c, Some m)) \/ fails_listing x m) (fst (acts l r (snd (get_solver r None s)))).
Proof.
  intros R U. exists (sort_str (list_solvers true r)). split; [now apply listing_of|]. rewrite (get_unknown _ _ _ _ R U).
  split; [reflexivity|]. intros l. apply acts_kept.
Qed.
Lemma C80_found_lemma r k s c : fst (get_solver r k s) = Ret c -> snd (get_solver r k s) = k.
Proof. unfold get_solver. destruct (sget (r_solvers r) s); cbn; auto; discriminate. Qed.

Definition absent : string := "NoSuchSolver"%string.
Definition defs_of : list (bool * cls) := map (fun c => (false, c)) (shipped ++ [c_new]).
Lemma unknown_b cs s : forallb (fun c => forallb (fun n => negb (ci_eqb n s)) (names_of c)) cs = true -> unknown cs s.
Proof.
  intros H c n Hc Hn E. rewrite forallb_forall in H. specialize (H _ Hc). rewrite forallb_forall in H. specialize (H _ Hn).
  unfold ci_eqb, same_ci in *. rewrite E, String.eqb_refl in H. discriminate.
Qed.
Lemma attempts_app l1 : forall l2 r, attempts (l1 ++ l2) r =
  (fst (attempts l1 r) ++ fst (attempts l2 (snd (attempts l1 r))), snd (attempts l2 (snd (attempts l1 r)))).
Proof.
  induction l1 as [|[a c] l1 IH]; intros l2 r; cbn [app attempts].
  - cbn. now destruct (attempts l2 r).
  - destruct (init_subclass a c r) as [o r1]. rewrite IH. destruct (attempts l1 r1) as [os r2]. cbn. reflexivity.
Qed.
Lemma registered_snoc cs r c r' : registered cs r -> init_subclass false c r = (Ret tt, r') -> registered (cs ++ [c]) r'.
Proof.
  intros (l & os & A & S & C) I. exists (l ++ [(false, c)]), (os ++ [Ret tt]). split; [|split].
  - rewrite attempts_app, A. cbn [fst snd attempts]. now rewrite I.
  - apply Forall_app. split; auto.
  - unfold concrete in *. rewrite filter_app, map_app, C. reflexivity.
Qed.
Lemma C80_stale_lemma : exists cs r c r' s, registered cs r /\ init_subclass false c r = (Ret tt, r') /\ registered (cs ++ [c]) r' /\
  unknown (cs ++ [c]) s /\ exists x m, fst (acts [Look s; Define false c; Look s] r None) = [x; (Raise ValueError, Some m)] /\ ~ In (c_name c) m.
Proof.
  assert (E : init_subclass false c_new nb = (Ret tt, snd (init_subclass false c_new nb))).
  { assert (E : fst (init_subclass false c_new nb) = Ret tt) by (vm_compute; reflexivity).
    destruct (init_subclass false c_new nb). cbn in *. now rewrite E. }
  exists shipped, nb, c_new, (snd (init_subclass false c_new nb)), absent. split; [exact nb_registered|]. split; [exact E|].
  pose proof (registered_snoc _ _ _ _ nb_registered E) as R. split; [exact R|].
  assert (U : unknown (shipped ++ [c_new]) absent) by (apply unknown_b; vm_compute; reflexivity). split; [exact U|].
  assert (U0 : unknown shipped absent) by (intros c n H; apply U; apply in_or_app; auto).
  cbn [acts]. rewrite (get_unknown _ _ _ _ nb_registered U0), (get_unknown _ _ _ _ R U).
  eexists _, _. split; [reflexivity|]. apply notin_b. vm_compute. reflexivity.
Qed.
