(** Vocabulary about failed look-ups by name. *)
From Coq Require Import List ZArith Bool Arith Ascii String Permutation.
From Verif Require Import Base MRegistry SpecReg.
Import ListNotations.
Local Open Scope list_scope.
Local Open Scope string_scope.

(** lexicographic order on characters *)
Definition str_le (a b : string) : Prop :=
  exists p x y, a = p ++ x /\ b = p ++ y /\
    match x, y with
    | EmptyString, _ => True
    | String c _, String d _ => (nat_of_ascii c < nat_of_ascii d)%nat
    | String _ _, EmptyString => False
    end.
Inductive ordered : list string -> Prop :=
| ord_nil : ordered []
| ord_cons : forall x l, (forall y, In y l -> str_le x y) -> ordered l -> ordered (x :: l).

(** the entries a class contributes to the listing *)
Definition entries (c : cls) : list string :=
  c_name c :: map (fun a => a ++ " (alias of " ++ c_name c ++ ")") (c_aliases c).
(** [l] is the complete sorted listing of the classes [cs] *)
Definition listing (cs : list cls) (l : list string) : Prop :=
  ordered l /\ Permutation l (flat_map entries cs).
(** [s] is no name or alias of [cs] *)
Definition unknown (cs : list cls) (s : string) : Prop :=
  forall c n, In c cs -> In n (names_of c) -> ~ same_ci n s.

(** a program: class statements (exceptions caught) and look-ups *)
Inductive act := Define (abstract : bool) (c : cls) | Look (s : string).
(** outcome of each look-up with the names its message lists (in [Some _] when
    it fails); the state is the registry and the names kept for the message *)
Fixpoint acts (l : list act) (r : registry) (k : option (list string))
  : list (outcome cls * option (list string)) * (registry * option (list string)) :=
  match l with
  | [] => ([], (r, k))
  | Define a c :: l' => acts l' (snd (init_subclass a c r)) k
  | Look s :: l' =>
      let '(o, k') := get_solver r k s in
      let '(os, z) := acts l' r k' in ((o, k') :: os, z)
  end.
(** the message of a failed look-up lists [m] *)
Definition fails_listing (x : outcome cls * option (list string)) (m : list string) : Prop :=
  x = (Raise ValueError, Some m).
