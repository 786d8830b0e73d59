(** Vocabulary of the theorems on corresponding problems, continued: the maps. *)
From Coq Require Import List ZArith Bool Arith Reals.
From Verif Require Import Base Scalar Vec MBuffer MZeros MSteps MApi MClasses Spec SpecEqv PVecR.
Import ListNotations.

(** the components of [v] with the indices [idx], in that order *)
Definition pick {OT : Ops} (idx : list nat) (v : vec) : vec := map (fun i => nth i v zero) idx.

(** another origin of time *)
Definition later (c t : R) : R := (t + c)%R.
(** the matrix with rows [A] applied to [v] *)
Definition matvec (A : list (list R)) (v : list R) : list R := map (fun row => dot row v) A.

(** nothing happens to the states; any state is meant *)
Definition same {OT : Ops} (v : vec) : vec := v.
Definition any {OT : Ops} (v : vec) : Prop := True.
Definition now_as_is {OT : Ops} (t : T) : T := t.
Definition has_dim {OT : Ops} (n : nat) (v : vec) : Prop := length v = n.
Definition any_class {OT : Ops} (m : meth) : Prop := True.
