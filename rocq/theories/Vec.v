(** One-dimensional float arrays as lists; the numpy operators the code uses.
    Simplification: shapes are not checked (numpy would broadcast or raise on a
    mismatch); theorems that depend on shapes say so. *)
From Coq Require Import List ZArith QArith.
From Verif Require Import Base Scalar.
Import ListNotations.

Section Vec.
Context {OT : Ops}.
Definition vec : Type := list T.

Fixpoint map2 {A B C} (f : A -> B -> C) (a : list A) (b : list B) : list C :=
  match a, b with
  | x :: a', y :: b' => f x y :: map2 f a' b'
  | _, _ => []
  end.

Definition vadd : vec -> vec -> vec := map2 add.
Definition vsub : vec -> vec -> vec := map2 sub.
Definition vscale (c : T) (v : vec) : vec := map (mul c) v.
Definition vopp : vec -> vec := map opp.
Definition vzero (n : nat) : vec := repeat zero n.

(** [c @ K] for a 1-d array [c] and a 2-d array [K] with rows of length [n]:
    sum over j of c[j] * K[j].  BLAS may sum in another order or fuse; the
    model sums left to right. *)
Fixpoint lincomb_acc (acc : vec) (c : list T) (K : list vec) : vec :=
  match c, K with
  | x :: c', k :: K' => lincomb_acc (vadd acc (vscale x k)) c' K'
  | _, _ => acc
  end.
Definition lincomb (n : nat) (c : list T) (K : list vec) : vec :=
  lincomb_acc (vzero n) c K.

Definition vsum (v : vec) : T := fold_left add v zero.
(** np.mean *)
Definition vmean (v : vec) : T := div (vsum v) (ofnat (length v)).
(** np.linalg.norm(v, ord=2) *)
Definition vnorm2 (v : vec) : T := sqrtT (vsum (map (fun x => mul x x) v)).
End Vec.
