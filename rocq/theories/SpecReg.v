(** Vocabulary about solver registries. *)
From Coq Require Import List ZArith Bool Arith Ascii String Permutation.
From Verif Require Import Base MRegistry.
Import ListNotations.
Local Open Scope list_scope.

(** class statements executed one after the other, exceptions being caught:
    (abstract, class) in, outcome of each out *)
Fixpoint attempts (l : list (bool * cls)) (r : registry) : list (outcome unit) * registry :=
  match l with
  | [] => ([], r)
  | (a, c) :: l' =>
      let '(o, r1) := init_subclass a c r in
      let '(os, r2) := attempts l' r1 in (o :: os, r2)
  end.
(** the concrete classes of a history *)
Definition concrete (l : list (bool * cls)) : list cls := map snd (filter (fun p => negb (fst p)) l).
(** every class statement succeeded *)
Definition succeeded (os : list (outcome unit)) : Prop := Forall (fun o => o = Ret tt) os.
(** a registry produced by class statements that all succeeded; [cs] are the
    concrete classes in order *)
Definition registered (cs : list cls) (r : registry) : Prop :=
  exists l os, attempts l empty_registry = (os, r) /\ succeeded os /\ concrete l = cs.

(** the names a class answers to *)
Definition names_of (c : cls) : list string := c_name c :: c_aliases c.
(** equality up to case *)
Definition same_ci (a b : string) : Prop := lower a = lower b.
Definition ci_eqb (a b : string) : bool := String.eqb (lower a) (lower b).
(** the groups in order of first use *)
Fixpoint groups_in_order (cs : list cls) (seen : list string) : list string :=
  match cs with
  | [] => []
  | c :: cs' => if existsb (ci_eqb (c_group c)) seen then groups_in_order cs' seen
                else c_group c :: groups_in_order cs' (c_group c :: seen)
  end.
(** a class passes the filters *)
Definition passes (implicit fixed rk ms : option bool) (c : cls) : bool :=
  match implicit with Some b => Bool.eqb (c_implicit c) b | None => true end &&
  match fixed with Some b => Bool.eqb (c_fixed c) b | None => true end &&
  match rk with Some b => Bool.eqb (c_rk c) b | None => true end &&
  match ms with Some b => Bool.eqb (c_ms c) b | None => true end.
(** [a] holds the members of [u] with the flag, [b] those without *)
Definition splits (flag : cls -> bool) (u a b : list cls) : Prop :=
  Permutation (a ++ b) u /\ (forall c, In c a -> flag c = true) /\ (forall c, In c b -> flag c = false).
