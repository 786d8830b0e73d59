(** What a Runge-Kutta step is, without the mutable stage array. *)
From Coq Require Import List ZArith Bool Arith.
From Verif Require Import Base Scalar Vec MBuffer MZeros MSteps MApi MClasses Spec SpecInst.
Import ListNotations.
Local Open Scope sc_scope.

Section SpecRK.
Context {OT : Ops}.

(** [stages_of rhs t y h rows nodes K K']: starting from the stages [K], the
    remaining rows of the tableau produce the stages [K'];
    k_i = rhs(t + h c_i, y + h sum_{j<i} a_ij k_j). *)
Inductive stages_of (rhs : rhs_t) (t : T) (y : vec) (h : T)
  : list (list T) -> list T -> list vec -> list vec -> Prop :=
| stg_nil K : stages_of rhs t y h [] [] K K
| stg_cons a rows c cs K k K' :
    rhs (t + h * c) (vadd y (vscale h (lincomb (length y) (firstn (length K) a) K))) = Ret k ->
    stages_of rhs t y h rows cs (K ++ [k]) K' ->
    stages_of rhs t y h (a :: rows) (c :: cs) K K'.

(** y + sum_j (h b_j) k_j *)
Definition rk_combine (y : vec) (h : T) (B : list T) (K : list vec) : vec :=
  vadd y (lincomb (length y) (map (mul h) B) K).

(** one explicit Runge-Kutta step from (t, y), f being rhs(t, y) *)
Definition rk_step (rhs : rhs_t) (A : list (list T)) (B C : list T) (t : T) (y f : vec) (h : T)
    (K : list vec) (y' : vec) : Prop :=
  stages_of rhs t y h (skipn 1 A) (skipn 1 C) [f] K /\ y' = rk_combine y h B K.

(** tableaux of consistent shape *)
Definition shaped (m : meth) : Prop :=
  match m with
  | Erk A B C => length C = length A /\ A <> []
  | Fsal A B C _ _ _ | Dop A B C _ _ _ _ _ _ => length C = length A /\ A <> []
  | _ => True
  end.
(** right-hand sides that keep the dimension *)
Definition keeps_dim (n : nat) (rhs : rhs_t) : Prop :=
  forall t y f, length y = n -> rhs t y = Ret f -> length f = n.
(** all recorded vectors have dimension [n] *)
Definition dims (n : nat) (s : st) : Prop :=
  Forall (fun y => length y = n) (ys (cache s)) /\ Forall (fun f => length f = n) (fs (cache s)).
(** np.linalg.solve returns a vector as long as its right-hand side *)
Definition solve_dim {E : Env} : Prop :=
  forall cols b x, np_solve cols b = Ret x -> length x = length b.
End SpecRK.
