(** Properties C51-C58: the case-insensitive dictionary, the solver registry and
    the attributes of the module. *)
From Coq Require Import List ZArith QArith Bool Arith Ascii String Lia Permutation.
From Verif Require Import Base Scalar Vec MBuffer MZeros MSteps MApi MDop853 MClasses MRegistry MShipped
  SpecDict PDict SpecReg PReg PReg2.
Import ListNotations.
Local Open Scope nat_scope.
Local Open Scope list_scope.

(** * C51  CaseInsensitiveDict is a map up to case *)
(** Every sequence of operations from the empty dictionary returns what the
    abstract map returns, and items/keys/len/[] agree with it. *)
Theorem C51 : forall {V} (os : list (@op string V)), exists m,
  sem_all String.eqb lower os blank (fst (perform_all String.eqb lower os [])) m /\
  let d := snd (perform_all String.eqb lower os []) in
  lists lower (cid_items d) m /\ cid_keys d = map fst (cid_items d) /\ cid_len d = List.length (cid_items d) /\
  forall k, cid_get String.eqb lower d k = match cell m (lower k) with Some (_, _, v) => @Ret V v | None => Raise KeyError end.
Proof. intros V. exact (C51_lemma String.eqb lower String.eqb_eq). Qed.
Print Assumptions C51.
Example C51_ex :
  let os := [OSet "Abc" 1; OSet "x" 2; OSet "aBC" 3; OIn "ABC"; ODel "X"; OGet "x"; OSet "X" 4; OSetdefault "abc" 9; OPop "q"]%string in
  fst (perform_all String.eqb lower os []) = [RNone; RNone; RNone; RBool true; RNone; RKeyError; RNone; RVal 3; RKeyError] /\
  cid_items (snd (perform_all String.eqb lower os [])) = [("aBC", 3); ("X", 4)]%string.
Proof. vm_compute. auto. Qed.

(** * C52  Equality and copy of CaseInsensitiveDict *)
(** == holds iff every key, in any spelling, has the same value in both (so
    spelling and order of insertion do not matter); it is an equivalence; copy()
    has the same items and is equal to the original. *)
Theorem C52 : forall {V} (veqb : V -> V -> bool), (forall a b, veqb a b = true <-> a = b) ->
  forall d1 d2, reached String.eqb lower d1 -> reached String.eqb lower d2 ->
  cid_eq String.eqb lower veqb d1 (cid_items d2) = true <-> forall k, cid_get String.eqb lower d1 k = cid_get String.eqb lower d2 k.
Proof. intros V veqb VE. exact (C52_eq String.eqb lower String.eqb_eq veqb VE). Qed.
Print Assumptions C52.
Theorem C52_equivalence : forall {V} (veqb : V -> V -> bool), (forall a b, veqb a b = true <-> a = b) ->
  (forall d, reached String.eqb lower d -> cid_eq String.eqb lower veqb d (cid_items d) = true) /\
  (forall d1 d2, reached String.eqb lower d1 -> reached String.eqb lower d2 ->
     cid_eq String.eqb lower veqb d1 (cid_items d2) = cid_eq String.eqb lower veqb d2 (cid_items d1)) /\
  (forall d1 d2 d3, reached String.eqb lower d1 -> reached String.eqb lower d2 -> reached String.eqb lower d3 ->
     cid_eq String.eqb lower veqb d1 (cid_items d2) = true ->
     cid_eq String.eqb lower veqb d2 (cid_items d3) = true -> cid_eq String.eqb lower veqb d1 (cid_items d3) = true).
Proof. intros V veqb VE. exact (C52_equiv String.eqb lower String.eqb_eq veqb VE). Qed.
Print Assumptions C52_equivalence.
Theorem C52_copies : forall {V} (veqb : V -> V -> bool), (forall a b, veqb a b = true <-> a = b) ->
  forall d, reached String.eqb lower d -> reached String.eqb lower (cid_copy String.eqb lower d) /\
  cid_items (cid_copy String.eqb lower d) = cid_items d /\
  (forall k, cid_get String.eqb lower (cid_copy String.eqb lower d) k = cid_get String.eqb lower d k) /\
  cid_eq String.eqb lower veqb (cid_copy String.eqb lower d) (cid_items d) = true.
Proof. intros V veqb VE. exact (C52_copy String.eqb lower String.eqb_eq veqb VE). Qed.
Print Assumptions C52_copies.
(** different spelling, different order: equal; different value: not *)
Example C52_ex :
  let d1 := snd (perform_all String.eqb lower [OSet "A" 1; OSet "b" 2]%string []) in
  let d2 := snd (perform_all String.eqb lower [OSet "B" 2; OSet "a" 1]%string []) in
  let d3 := snd (perform_all String.eqb lower [OSet "B" 2; OSet "a" 7]%string []) in
  cid_eq String.eqb lower Nat.eqb d1 (cid_items d2) = true /\ cid_eq String.eqb lower Nat.eqb d1 (cid_items d3) = false.
Proof. vm_compute. auto. Qed.

(** * C53  get_solver finds every registered name and alias in any case *)
(** [cs]: the concrete classes defined so far, all definitions having succeeded *)
Theorem C53 : forall cs r, registered cs r -> forall cached s,
  (forall c, fst (get_solver r cached s) = Ret c <-> In c cs /\ exists n, In n (names_of c) /\ same_ci n s) /\
  ((forall c n, In c cs -> In n (names_of c) -> ~ same_ci n s) -> fst (get_solver r cached s) = Raise ValueError).
Proof. exact C53_lemma. Qed.
Print Assumptions C53.
(** Any history, including definitions that raised: what get_solver returns was
    defined with that name... *)
Theorem C53_sound : forall l os r, attempts l empty_registry = (os, r) -> forall cached s c,
  fst (get_solver r cached s) = Ret c -> In c (concrete l) /\ exists n, In n (names_of c) /\ same_ci n s.
Proof. exact C53_any. Qed.
Print Assumptions C53_sound.
(** ...and no later definition changes the answer. *)
Theorem C53_stays : forall l r os r' cached cached' s c, attempts l r = (os, r') ->
  fst (get_solver r cached s) = Ret c -> fst (get_solver r' cached' s) = Ret c.
Proof. exact C53_stable. Qed.
Print Assumptions C53_stays.
Example C53_ex : registered shipped nb /\
  map (fun s => match fst (get_solver nb None s) with Ret c => c_name c | _ => ""%string end) ["EULER"; "dop853"; "Runge"]%string
  = ["ForwardEuler"; "DOP853"; ""]%string.
Proof. split; [exact nb_registered|vm_compute; reflexivity]. Qed.

(** * C54  A rejected solver definition leaves the registry unchanged *)
(** False: a taken alias is only noticed after the class name has been registered,
    and an exception of the step builders comes after everything. *)
Theorem C54_refuted : exists cs r c r' c0, registered cs r /\ init_subclass false c r = (Raise DuplicateName, r') /\
  fst (get_solver r None (c_name c)) = Raise ValueError /\ fst (get_solver r' None (c_name c)) = Ret c0.
Proof. exact C54_alias_lemma. Qed.
Print Assumptions C54_refuted.
Theorem C54_builder_refuted : exists cs r c r' c0 e, registered cs r /\ init_subclass false c r = (Raise e, r') /\
  fst (get_solver r None (c_name c)) = Raise ValueError /\ fst (get_solver r' None (c_name c)) = Ret c0 /\
  get_solvers r ["Mine"%string] None None None None = Raise KeyError /\
  get_solvers r' ["Mine"%string] None None None None = Ret [c0].
Proof. exact C54_builder_lemma. Qed.
Print Assumptions C54_builder_refuted.
(** What holds: a bad LEN_HISTORY or a taken class name changes nothing, and a
    duplicate never changes what get_solvers returns. *)
Theorem C54_len_partial : forall c r, (c_len c = None \/ exists n, c_len c = Some n /\ (n < 2)%Z) ->
  init_subclass false c r = (Raise ValueError, r).
Proof. exact C54_len. Qed.
Print Assumptions C54_len_partial.
Theorem C54_name_partial : forall c r r' o, init_subclass false c r = (o, r') -> (exists n, c_len c = Some n /\ (2 <= n)%Z) ->
  (exists c', fst (get_solver r None (c_name c)) = Ret c') -> o = Raise DuplicateName /\ r' = r.
Proof. exact C54_dup_name. Qed.
Print Assumptions C54_name_partial.
Theorem C54_groups_partial : forall c r r', init_subclass false c r = (Raise DuplicateName, r') -> c_builder c = None ->
  forall gs i f rk ms, get_solvers r' gs i f rk ms = get_solvers r gs i f rk ms.
Proof. exact C54_groups. Qed.
Print Assumptions C54_groups_partial.
Example C54_ex :
  fst (init_subclass false (mkcls "bdf1"%string [] "Mine"%string (Some 2%Z) false true false false None) nb) = Raise DuplicateName /\
  fst (init_subclass false (mkcls "New"%string [] "Mine"%string (Some 1%Z) false true false false None) nb) = Raise ValueError /\
  fst (init_subclass false c_dup nb) = Raise DuplicateName.
Proof. vm_compute. auto. Qed.

(** * C55  get_solvers filters correctly *)
Theorem C55 : forall cs r, registered cs r -> forall g gs i f k m,
  ((forall x, In x (g :: gs) -> exists c, In c cs /\ same_ci (c_group c) x) ->
     get_solvers r (g :: gs) i f k m = Ret (flat_map (fun x => filter (fun c => ci_eqb (c_group c) x && passes i f k m c) cs) (g :: gs))) /\
  ((exists x, In x (g :: gs) /\ forall c, In c cs -> ~ same_ci (c_group c) x) -> get_solvers r (g :: gs) i f k m = Raise KeyError).
Proof. exact C55_groups_lemma. Qed.
Print Assumptions C55.
(** without groups: each class once, groups in order of first use *)
Theorem C55_all : forall cs r, registered cs r -> forall i f k m,
  exists l, get_solvers r [] i f k m = Ret l /\ Permutation l (filter (passes i f k m) cs) /\ NoDup l /\
    l = flat_map (fun g => filter (fun c => ci_eqb (c_group c) g && passes i f k m c) cs) (groups_in_order cs []).
Proof. exact C55_all_lemma. Qed.
Print Assumptions C55_all.
Example C55_ex :
  (let! l := get_solvers nb ["EULER"; "runge-kutta"]%string None (Some false) None None in Ret (map c_name l))
    = Ret ["RungeKutta23"; "RungeKutta45"; "DOP853"]%string /\
  get_solvers nb ["Euler"; "Symplectic"]%string None None None None = Raise KeyError /\
  (let! l := get_solvers nb [] None None None (Some true) in Ret (List.length l)) = Ret 18.
Proof. vm_compute. auto. Qed.

(** * C56  implicit=True selects the implicit methods *)
(** False: the attribute is computed the wrong way round (Bn == 0). *)
Theorem C56_refuted {OT : Ops} : exists l c m c' m', get_solvers nb [] (Some true) None None None = Ret l /\
  In c shipped /\ In (c_name c, m) shipped_methods /\ (exists A B, m = ExplMS A B) /\ In c l /\
  In c' shipped /\ In (c_name c', m') shipped_methods /\ (exists A B Bn, m' = ImplMS A B Bn) /\ ~ In c' l.
Proof. exact C56_refuted_lemma. Qed.
Print Assumptions C56_refuted.
(** What is returned: exactly the explicit multistep classes. *)
Theorem C56_inverted {OT : Ops} : exists l, get_solvers nb [] (Some true) None None None = Ret l /\
  (forall c m, In c shipped -> In (c_name c, m) shipped_methods -> (In c l <-> exists A B, m = ExplMS A B)).
Proof. exact C56_inverted_lemma. Qed.
Print Assumptions C56_inverted.

(** * C57  The two values of each filter partition the solvers *)
Theorem C57 : forall (r : registry) gs i f k m,
  (forall u, get_solvers r gs None f k m = Ret u -> exists a b, get_solvers r gs (Some true) f k m = Ret a /\
     get_solvers r gs (Some false) f k m = Ret b /\ splits c_implicit u a b) /\
  (forall u, get_solvers r gs i None k m = Ret u -> exists a b, get_solvers r gs i (Some true) k m = Ret a /\
     get_solvers r gs i (Some false) k m = Ret b /\ splits c_fixed u a b) /\
  (forall u, get_solvers r gs i f None m = Ret u -> exists a b, get_solvers r gs i f (Some true) m = Ret a /\
     get_solvers r gs i f (Some false) m = Ret b /\ splits c_rk u a b) /\
  (forall u, get_solvers r gs i f k None = Ret u -> exists a b, get_solvers r gs i f k (Some true) = Ret a /\
     get_solvers r gs i f k (Some false) = Ret b /\ splits c_ms u a b).
Proof. exact C57_lemma. Qed.
Print Assumptions C57.
Example C57_ex : let n o := match o with Ret l => List.length l | _ => 0 end in
  n (get_solvers nb [] None None None None) = 26 /\
  n (get_solvers nb [] None (Some true) None None) = 23 /\ n (get_solvers nb [] None (Some false) None None) = 3.
Proof. vm_compute. auto. Qed.

(** * C58  Module attribute access, dir and listing agree with the registry *)
(** False of nbkode.euler (the submodule, although get_solver("euler") is
    ForwardEuler) and of a second dir(nbkode) (cached). *)
Theorem C58_refuted : exists c, fst (get_solver nb None "euler"%string) = Ret c /\ forall w, mod_attr nb "euler"%string <> Ret (ASolver c w).
Proof. exact C58_euler_lemma. Qed.
Print Assumptions C58_refuted.
Theorem C58_dir_refuted : exists cs r c r', registered cs r /\ init_subclass false c r = (Ret tt, r') /\
  fst (get_solver r' None (c_name c)) = Ret c /\
  ~ In (c_name c) (fst (mod_dir r' (snd (mod_dir r None)))).
Proof. exact C58_stale_lemma. Qed.
Print Assumptions C58_dir_refuted.
(** What holds: other names are looked up as get_solver does, the warning flag
    is right; the first dir(nbkode) and every list_solvers() are complete. *)
Theorem C58_partial : forall cs r, registered (shipped ++ cs) r -> forall name, ~ In name mod_globals ->
  (forall c w, mod_attr r name = Ret (ASolver c w) <->
     In c (shipped ++ cs) /\ (exists n, In n (names_of c) /\ same_ci n name) /\ (w = true <-> c_name c <> name)) /\
  ((forall c n, In c (shipped ++ cs) -> In n (names_of c) -> ~ same_ci n name) -> mod_attr r name = Raise AttributeError).
Proof. exact C58_attr_lemma. Qed.
Print Assumptions C58_partial.
Theorem C58_dir_partial : forall cs r, registered cs r ->
  Permutation (fst (mod_dir r None)) (["get_groups"; "get_solvers"; "get_solver"; "test"]%string ++ map c_name cs).
Proof. exact C58_dir_lemma. Qed.
Print Assumptions C58_dir_partial.
Theorem C58_listing : forall cs r, registered cs r -> list_solvers false r = map c_name cs /\
  list_solvers true r = flat_map (fun c => c_name c :: map (fun a => (a ++ " (alias of " ++ c_name c ++ ")")%string) (c_aliases c)) cs.
Proof. exact C58_listing_lemma. Qed.
Print Assumptions C58_listing.
Example C58_ex : registered (shipped ++ []) nb /\ ~ In "rungekutta4"%string mod_globals /\
  mod_attr nb "rungekutta4" = Ret (ASolver (rk_cls "RungeKutta4" true) true) /\
  mod_attr nb "RungeKutta4" = Ret (ASolver (rk_cls "RungeKutta4" true) false) /\
  mod_attr nb "RK4" = Raise AttributeError.
Proof.
  split; [rewrite app_nil_r; exact nb_registered|]. split; [apply notin_b; vm_compute; reflexivity|].
  repeat split; vm_compute; reflexivity.
Qed.
