(** What a case-insensitive dictionary is: a partial function on lowered keys
    whose cells remember when they came into being, the last spelling and the
    value. *)
From Coq Require Import List Arith Sorted Bool.
From Verif Require Import Base MRegistry.
Import ListNotations.

Section SpecDict.
Context {K V : Type} (keqb : K -> K -> bool) (lower : K -> K).

Inductive op : Type :=
| OSet (k : K) (v : V) | ODel (k : K) | OGet (k : K) | OIn (k : K) | OPop (k : K) | OPopitem
| OClear | OSetdefault (k : K) (v : V) | OUpdate (l : list (K * V)).
Inductive res : Type := RNone | RVal (v : V) | RItem (k : K) (v : V) | RBool (b : bool) | RKeyError.

(** the operations of the class *)
Definition res_of {A} (f : A -> res) (o : outcome A) : res := match o with Ret a => f a | _ => RKeyError end.
Definition perform (o : op) (d : @cid K V) : res * cid :=
  match o with
  | OSet k v => (RNone, cid_set keqb lower d k v)
  | ODel k => match cid_del keqb lower d k with Ret d' => (RNone, d') | _ => (RKeyError, d) end
  | OGet k => (res_of RVal (cid_get keqb lower d k), d)
  | OIn k => (RBool (cid_mem keqb lower d k), d)
  | OPop k => let '(r, d') := cid_pop keqb lower d k in (res_of RVal r, d')
  | OPopitem => let '(r, d') := cid_popitem keqb lower d in (res_of (fun p => RItem (fst p) (snd p)) r, d')
  | OClear => (RNone, cid_clear keqb lower (S (cid_len d)) d)
  | OSetdefault k v => let '(r, d') := cid_setdefault keqb lower d k v in (res_of RVal r, d')
  | OUpdate l => (RNone, cid_update keqb lower d l)
  end.
Fixpoint perform_all (os : list op) (d : @cid K V) : list res * cid :=
  match os with
  | [] => ([], d)
  | o :: os' => let '(r, d1) := perform o d in let '(rs, d2) := perform_all os' d1 in (r :: rs, d2)
  end.

(** the abstract map: cell lk = Some (birth, spelling, value) *)
Record amap : Type := mkamap { clock : nat; cell : K -> option (nat * K * V) }.
Definition blank : amap := mkamap 0 (fun _ => None).
Definition write (m : amap) (k : K) (v : V) : amap :=
  mkamap (S (clock m))
    (fun lk => if keqb lk (lower k)
               then Some (match cell m lk with Some (b, _, _) => b | None => clock m end, k, v)
               else cell m lk).
Definition erase (m : amap) (lk0 : K) : amap :=
  mkamap (clock m) (fun lk => if keqb lk lk0 then None else cell m lk).

(** the meaning of an operation: result and new map *)
Inductive sem : op -> amap -> res -> amap -> Prop :=
| sem_set k v m : sem (OSet k v) m RNone (write m k v)
| sem_del k m b k' v : cell m (lower k) = Some (b, k', v) -> sem (ODel k) m RNone (erase m (lower k))
| sem_del_no k m : cell m (lower k) = None -> sem (ODel k) m RKeyError m
| sem_get k m b k' v : cell m (lower k) = Some (b, k', v) -> sem (OGet k) m (RVal v) m
| sem_get_no k m : cell m (lower k) = None -> sem (OGet k) m RKeyError m
| sem_in k m b k' v : cell m (lower k) = Some (b, k', v) -> sem (OIn k) m (RBool true) m
| sem_in_no k m : cell m (lower k) = None -> sem (OIn k) m (RBool false) m
| sem_pop k m b k' v : cell m (lower k) = Some (b, k', v) -> sem (OPop k) m (RVal v) (erase m (lower k))
| sem_pop_no k m : cell m (lower k) = None -> sem (OPop k) m RKeyError m
| sem_popitem m lk b k v : cell m lk = Some (b, k, v) ->
    (forall lk' b' k' v', cell m lk' = Some (b', k', v') -> b <= b') ->
    sem OPopitem m (RItem k v) (erase m lk)
| sem_popitem_no m : (forall lk, cell m lk = None) -> sem OPopitem m RKeyError m
| sem_clear m m' : (forall lk, cell m' lk = None) -> sem OClear m RNone m'
| sem_setdefault k v m b k' v' : cell m (lower k) = Some (b, k', v') -> sem (OSetdefault k v) m (RVal v') m
| sem_setdefault_no k v m : cell m (lower k) = None -> sem (OSetdefault k v) m (RVal v) (write m k v)
| sem_update l m : sem (OUpdate l) m RNone (fold_left (fun m p => write m (fst p) (snd p)) l m).
Inductive sem_all : list op -> amap -> list res -> amap -> Prop :=
| sem_nil m : sem_all [] m [] m
| sem_cons o os m r m1 rs m2 : sem o m r m1 -> sem_all os m1 rs m2 -> sem_all (o :: os) m (r :: rs) m2.

(** [items] lists exactly the cells of [m], in order of birth *)
Definition lists (items : list (K * V)) (m : amap) : Prop :=
  exists bs, length bs = length items /\ StronglySorted lt bs /\
    (forall i k v, nth_error items i = Some (k, v) ->
       exists b, nth_error bs i = Some b /\ cell m (lower k) = Some (b, k, v)) /\
    (forall lk b k v, cell m lk = Some (b, k, v) -> lk = lower k /\ In (k, v) items).
(** dictionaries obtained by operations from the empty one *)
Definition reached (d : cid) : Prop := exists os, d = snd (perform_all os []).
End SpecDict.
