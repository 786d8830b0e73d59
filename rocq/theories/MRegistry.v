(** Model of nbkode/util.py (CaseInsensitiveDict), of the solver registry in
    nbkode/core.py (__init_subclass__, check, get_solvers, get_groups,
    list_solvers, get_solver), of nbkode/__init__.py (__dir__, __getattr__) and of
    nbkode/nbcompat/numbasub.py. *)
From Coq Require Import List ZArith Bool Arith Ascii String.
From Verif Require Import Base.
Import ListNotations.
Local Open Scope list_scope.

(** ** util.py:22-86 CaseInsensitiveDict over keys [K] with [str.lower] *)
Section Cid.
Context {K V : Type} (keqb : K -> K -> bool) (lower : K -> K).

(** _store: an OrderedDict from lowered key to (key, value), in order *)
Definition cid : Type := list (K * (K * V)).

(** OrderedDict.__setitem__: an existing key keeps its position *)
Fixpoint od_set (d : cid) (lk : K) (kv : K * V) : cid :=
  match d with
  | [] => [(lk, kv)]
  | (k', v') :: d' => if keqb k' lk then (k', kv) :: d' else (k', v') :: od_set d' lk kv
  end.
Fixpoint od_get (d : cid) (lk : K) : option (K * V) :=
  match d with
  | [] => None
  | (k', v') :: d' => if keqb k' lk then Some v' else od_get d' lk
  end.
Fixpoint od_del (d : cid) (lk : K) : cid :=
  match d with
  | [] => []
  | (k', v') :: d' => if keqb k' lk then d' else (k', v') :: od_del d' lk
  end.

(** util.py:52-55 __setitem__ *)
Definition cid_set (d : cid) (k : K) (v : V) : cid := od_set d (lower k) (k, v).
(** util.py:57-58 __getitem__ *)
Definition cid_get (d : cid) (k : K) : outcome V :=
  match od_get d (lower k) with Some (_, v) => Ret v | None => Raise KeyError end.
(** Mapping.__contains__ (collections.abc): try self[key] *)
Definition cid_mem (d : cid) (k : K) : bool :=
  match cid_get d k with Ret _ => true | _ => false end.
(** util.py:60-61 __delitem__ *)
Definition cid_del (d : cid) (k : K) : outcome cid :=
  match od_get d (lower k) with Some _ => Ret (od_del d (lower k)) | None => Raise KeyError end.
(** util.py:63-64 __iter__ / keys() *)
Definition cid_keys (d : cid) : list K := map (fun e => fst (snd e)) d.
(** items() *)
Definition cid_items (d : cid) : list (K * V) := map snd d.
(** util.py:66-67 __len__ *)
Definition cid_len (d : cid) : nat := List.length d.
(** util.py:69-71 lower_items *)
Definition cid_lower_items (d : cid) : list (K * V) := map (fun e => (fst e, snd (snd e))) d.
(** util.py:46-50 __init__ / update from a sequence of pairs *)
Definition cid_of (l : list (K * V)) : cid :=
  fold_left (fun d p => cid_set d (fst p) (snd p)) l [].
(** util.py:82-83 copy *)
Definition cid_copy (d : cid) : cid := cid_of (map snd d).

(** collections.abc.MutableMapping: update with a sequence of pairs, pop,
    popitem (removes the first item), clear (popitem until KeyError),
    setdefault *)
Definition cid_update (d : cid) (l : list (K * V)) : cid :=
  fold_left (fun d p => cid_set d (fst p) (snd p)) l d.
Definition cid_pop (d : cid) (k : K) : outcome V * cid :=
  match cid_get d k with
  | Ret v => (Ret v, match cid_del d k with Ret d' => d' | _ => d end)
  | Raise e => (Raise e, d)
  | Loop => (Loop, d)
  end.
Definition cid_popitem (d : cid) : outcome (K * V) * cid :=
  match cid_keys d with
  | [] => (Raise KeyError, d)
  | k :: _ =>
      match cid_get d k with
      | Ret v => (Ret (k, v), match cid_del d k with Ret d' => d' | _ => d end)
      | Raise e => (Raise e, d)
      | Loop => (Loop, d)
      end
  end.
Fixpoint cid_clear (fuel : nat) (d : cid) : cid :=
  match fuel with
  | O => d
  | S f => match cid_popitem d with (Ret _, d') => cid_clear f d' | _ => d end
  end.
Definition cid_setdefault (d : cid) (k : K) (v : V) : outcome V * cid :=
  match cid_get d k with
  | Ret x => (Ret x, d)
  | _ => (Ret v, cid_set d k v)
  end.

(** dict(list of pairs): later pairs win; equality of plain dicts *)
Definition pd_get (l : list (K * V)) (k : K) : option V :=
  fold_left (fun acc p => if keqb (fst p) k then Some (snd p) else acc) l None.
Definition pd_eqb (veqb : V -> V -> bool) (a b : list (K * V)) : bool :=
  let sub x y := forallb (fun p => match pd_get x (fst p), pd_get y (fst p) with
                                   | Some u, Some v => veqb u v
                                   | _, _ => false
                                   end) x in
  sub a b && sub b a.
(** util.py:73-79 __eq__ against a Mapping given by its items *)
Definition cid_eq (veqb : V -> V -> bool) (d : cid) (other : list (K * V)) : bool :=
  pd_eqb veqb (cid_lower_items d) (cid_lower_items (cid_of other)).
End Cid.

(** ** Strings *)
(** str.lower restricted to ASCII (solver and group names are ASCII) *)
Definition lower_ascii (c : ascii) : ascii :=
  let n := nat_of_ascii c in
  if (65 <=? n)%nat && (n <=? 90)%nat then ascii_of_nat (n + 32) else c.
Fixpoint lower (s : string) : string :=
  match s with
  | EmptyString => EmptyString
  | String c s' => String (lower_ascii c) (lower s')
  end.
(** Python's string comparison on ASCII *)
Fixpoint string_leb (a b : string) : bool :=
  match a, b with
  | EmptyString, _ => true
  | String _ _, EmptyString => false
  | String x a', String y b' =>
      if (nat_of_ascii x <? nat_of_ascii y)%nat then true
      else if (nat_of_ascii y <? nat_of_ascii x)%nat then false
      else string_leb a' b'
  end.
(** sorted() *)
Fixpoint insert_str (x : string) (l : list string) : list string :=
  match l with
  | [] => [x]
  | y :: l' => if string_leb x y then x :: l else y :: insert_str x l'
  end.
Definition sort_str (l : list string) : list string := fold_right insert_str [] l.

(** ** The registry *)
(** A Solver subclass as seen by core.py:143-184 and 709-726: __name__, ALIASES,
    GROUP, LEN_HISTORY (None when it is not an int), IMPLICIT, FIXED_STEP,
    whether it derives from RungeKutta / Multistep, and what its
    _fixed_step_builder / _step_builder raise, if anything. *)
Record cls : Type := mkcls {
  c_name : string;
  c_aliases : list string;
  c_group : string;
  c_len : option Z;
  c_implicit : bool;
  c_fixed : bool;
  c_rk : bool;
  c_ms : bool;
  c_builder : option exn }.

(** core.py:71-72 SOLVERS and SOLVERS_BY_GROUP *)
Record registry : Type := mkreg {
  r_solvers : @cid string cls;
  r_groups : @cid string (list cls) }.
Definition empty_registry : registry := mkreg [] [].

Definition sget (d : @cid string cls) k := cid_get String.eqb lower d k.
Definition smem (d : @cid string cls) k := cid_mem String.eqb lower d k.
Definition sset (d : @cid string cls) k v := cid_set String.eqb lower d k v.
Definition gget (d : @cid string (list cls)) k := cid_get String.eqb lower d k.
Definition gmem (d : @cid string (list cls)) k := cid_mem String.eqb lower d k.
Definition gset (d : @cid string (list cls)) k v := cid_set String.eqb lower d k v.

(** core.py:161-167: names are inserted one by one; a duplicate raises after the
    earlier ones have been inserted. *)
Fixpoint register_names (c : cls) (names : list string) : M registry unit :=
  match names with
  | [] => ret tt
  | n :: rest =>
      fun r =>
        if smem (r_solvers r) n then (Raise DuplicateName, r)
        else register_names c rest (mkreg (sset (r_solvers r) n c) (r_groups r))
  end.

(** core.py:143-184 __init_subclass__: registration, then the step builders *)
Definition init_subclass (abstract : bool) (c : cls) : M registry unit :=
  if abstract then ret tt
  else
    match c_len c with
    | None => raise ValueError
    | Some n =>
        if (n <? 2)%Z then raise ValueError
        else
          do _ <- register_names c (c_name c :: c_aliases c) ;;
          fun r =>
            let g := if gmem (r_groups r) (c_group c) then r_groups r
                     else gset (r_groups r) (c_group c) [] in
            match gget g (c_group c) with
            | Ret l =>
                (* list.append mutates the stored list; key and position stay *)
                (match c_builder c with None => Ret tt | Some e => Raise e end,
                 mkreg (r_solvers r)
                   (map (fun e => if String.eqb (fst e) (lower (c_group c))
                                  then (fst e, (fst (snd e), l ++ [c])) else e) g))
            | Raise e => (Raise e, r)
            | Loop => (Loop, r)
            end
    end.

(** core.py:709-726 check *)
Definition opt_ok (o : option bool) (b : bool) : bool :=
  match o with None => true | Some x => Bool.eqb b x end.
Definition check (c : cls) (implicit fixed rk ms : option bool) : bool :=
  opt_ok implicit (c_implicit c) && opt_ok fixed (c_fixed c)
  && opt_ok rk (c_rk c) && opt_ok ms (c_ms c).

(** core.py:729-763 get_solvers *)
Definition get_solvers (r : registry) (groups : list string)
    (implicit fixed rk ms : option bool) : outcome (list cls) :=
  let groups := match groups with [] => cid_keys (r_groups r) | _ => groups end in
  let! ls := omapM (fun g => let! l := gget (r_groups r) g in
                             Ret (filter (fun c => check c implicit fixed rk ms) l)) groups in
  Ret (List.concat ls).

(** core.py:766-768 get_groups *)
Definition get_groups (r : registry) : list string := sort_str (cid_keys (r_groups r)).

(** core.py:774-785 list_solvers; [fmt name cls] and [alias_fmt name cls] are the
    two format strings *)
Definition list_solvers_gen {A} (fmt alias_fmt : string -> cls -> A) (include_alias : bool)
    (r : registry) : list A :=
  flat_map (fun kv => let '(k, v) := kv in
              if String.eqb k (c_name v) then [fmt k v]
              else if include_alias then [alias_fmt k v] else [])
           (cid_items (r_solvers r)).
Definition list_solvers (include_alias : bool) (r : registry) : list string :=
  list_solvers_gen (fun _ c => c_name c)
    (fun k c => append k (append " (alias of " (append (c_name c) ")"))) include_alias r.

(** core.py:788-800 get_solver.  The state also holds the module global
    _VALID_NAME_ALIAS (the names listed in the error message, computed once). *)
Definition get_solver (r : registry) (cached : option (list string)) (name : string)
  : outcome cls * option (list string) :=
  match sget (r_solvers r) name with
  | Ret c => (Ret c, cached)
  | _ =>
      (Raise ValueError,
       match cached with
       | Some l => Some l
       | None => Some (sort_str (list_solvers true r))
       end)
  end.

(** __init__.py:62-75 module __getattr__: the class and whether a warning is
    emitted *)
Definition mod_getattr (r : registry) (name : string) : outcome (cls * bool) :=
  match fst (get_solver r None name) with
  | Ret c => Ret (c, negb (String.eqb (c_name c) name))
  | _ => Raise AttributeError
  end.

(** nbkode.<name>: a global of the module is found first, __getattr__ is called
    for the other names.  [mod_globals] are the globals __init__.py binds (imports
    at lines 15-18, submodules imported along the way, test, the dunder names);
    the three solver classes imported by name are themselves. *)
Inductive attr : Type := ASolver (c : cls) (warned : bool) | AOther.
Definition mod_globals : list string :=
  ["euler"; "core"; "get_groups"; "get_solver"; "get_solvers"; "list_solvers";
   "multistep"; "adams_bashforth"; "adams_moulton"; "bdf"; "runge_kutta";
   "buffer"; "event_handler"; "nbcompat"; "util"; "test"; "_SOLVERS_NAMES";
   "__version__"; "__dir__"; "__getattr__"; "__name__"; "__doc__"; "__file__";
   "__path__"; "__package__"; "__loader__"; "__spec__"; "__builtins__";
   "__cached__"]%string.
Definition mod_attr (r : registry) (name : string) : outcome attr :=
  if existsb (String.eqb name) mod_globals then Ret AOther
  else if existsb (String.eqb name) ["DOP853"; "RungeKutta23"; "RungeKutta45"]%string
  then match sget (r_solvers r) name with Ret c => Ret (ASolver c false) | _ => Raise AttributeError end
  else let! p := mod_getattr r name in Ret (ASolver (fst p) (snd p)).

(** __init__.py:51-59 module __dir__ with its cache *)
Definition mod_dir (r : registry) (cached : option (list string)) : list string * option (list string) :=
  match cached with
  | Some ((_ :: _) as l) => (l, cached)
  | _ =>
      let l := sort_str (["get_groups"; "get_solvers"; "get_solver"; "test"]%string
                         ++ list_solvers false r) in
      (l, Some l)
  end.

(** ** The shipped classes in definition order (import order of
    nbkode/__init__.py:15-18: adams_bashforth, adams_moulton, euler, bdf,
    explicit).  IMPLICIT of multistep classes is [Bn == 0] (multistep/core.py:29-31)
    and False for ERK (explicit.py:12). *)
Definition ms_cls name aliases group order (bn_zero : bool) : cls :=
  mkcls name aliases group (Some (Z.max order 2)) bn_zero true false true None.
Definition rk_cls name (fixed : bool) : cls :=
  mkcls name [] "Runge-Kutta" (Some 2%Z) false fixed true false None.
Local Open Scope string_scope.
Definition shipped : list cls :=
  [ms_cls "AdamsBashforth1" [] "Adams-Bashforth" 1 true;
   ms_cls "AdamsBashforth2" [] "Adams-Bashforth" 2 true;
   ms_cls "AdamsBashforth3" [] "Adams-Bashforth" 3 true;
   ms_cls "AdamsBashforth4" [] "Adams-Bashforth" 4 true;
   ms_cls "AdamsBashforth5" [] "Adams-Bashforth" 5 true;
   ms_cls "AdamsMoulton1" [] "Adams-Moulton" 1 false;
   ms_cls "AdamsMoulton2" [] "Adams-Moulton" 1 false;
   ms_cls "AdamsMoulton3" [] "Adams-Moulton" 2 false;
   ms_cls "AdamsMoulton4" [] "Adams-Moulton" 3 false;
   ms_cls "AdamsMoulton5" [] "Adams-Moulton" 4 false;
   ms_cls "ForwardEuler" ["Euler"] "Euler" 1 true;
   ms_cls "BackwardEuler" [] "Euler" 1 false;
   ms_cls "BDF1" [] "BDF" 1 false;
   ms_cls "BDF2" [] "BDF" 2 false;
   ms_cls "BDF3" [] "BDF" 3 false;
   ms_cls "BDF4" [] "BDF" 4 false;
   ms_cls "BDF5" [] "BDF" 5 false;
   ms_cls "BDF6" [] "BDF" 6 false;
   rk_cls "Runge2" true;
   rk_cls "Runge3" true;
   rk_cls "Heun3" true;
   rk_cls "RungeKutta4" true;
   rk_cls "RungeKutta3_8" true;
   rk_cls "RungeKutta23" false;
   rk_cls "RungeKutta45" false;
   rk_cls "DOP853" false]%list.

(** importing nbkode: class statements executed in order *)
Fixpoint define_all (cs : list cls) : M registry unit :=
  match cs with
  | []%list => ret tt
  | (c :: rest)%list => do _ <- init_subclass false c ;; define_all rest
  end.
Definition nbkode_registry : outcome unit * registry := define_all shipped empty_registry.

(** ** numbasub.py:18-31: optional_arg_decorator applied to __noop.  A Python
    value is a callable or something else. *)
Inductive pyval : Type := Callable (id : nat) | Other (id : nat).
Definition is_callable (v : pyval) : bool := match v with Callable _ => true | _ => false end.
(** decorating: the first application either returns the function itself or a
    decorator to be applied to the decoratee *)
Inductive deco_result : Type := Decorated (f : pyval) | NeedsFunction (args : list pyval) (nkw : nat).
(** numbasub.py:18-29 with fn = __noop (34-36) *)
Definition noop_wrapped (args : list pyval) (nkw : nat) : deco_result :=
  match args, nkw with
  | [f]%list, O => if is_callable f then Decorated f else NeedsFunction args nkw
  | _, _ => NeedsFunction args nkw
  end.
(** the inner real_decorator: __noop(decoratee, ...) returns its first argument *)
Definition real_decorator (args : list pyval) (nkw : nat) (decoratee : pyval) : pyval := decoratee.
(** [@deco] and [@deco(...)] applied to a function *)
Definition decorate_bare (f : pyval) : option pyval :=
  match noop_wrapped [f] 0 with Decorated g => Some g | NeedsFunction _ _ => None end.
Definition decorate_with (args : list pyval) (nkw : nat) (f : pyval) : option pyval :=
  match noop_wrapped args nkw with
  | Decorated g => None     (* g(f) is a call of the user's callable *)
  | NeedsFunction a k => Some (real_decorator a k f)
  end.
