(** Floating point formats: binary64 ([SFops]) among those of any precision and range. *)
From Coq Require Import List ZArith QArith Bool Arith Reals SpecFloat.
From Verif Require Import Base Scalar Vec MBuffer MZeros MSteps MApi MClasses Spec SpecInst PVecR SpecRK SpecConv.
Import ListNotations.

(** correctly rounded quotient of two integers (as [sf_of_Q]) *)
Definition sf_of_Q_at (prec emax : Z) (q : Q) : spec_float :=
  match Qnum q with
  | Z0 => S754_zero false
  | Zpos n =>
      let '(m, e, l) := SFdiv_core_binary prec emax (Zpos n) 0 (Zpos (Qden q)) 0 in
      binary_round_aux prec emax false m e l
  | Zneg n =>
      let '(m, e, l) := SFdiv_core_binary prec emax (Zpos n) 0 (Zpos (Qden q)) 0 in
      binary_round_aux prec emax true m e l
  end.
(** the IEEE arithmetic with [prec] bits and exponents below [emax] *)
Definition SFops_at (prec emax : Z) (pw : spec_float -> spec_float -> spec_float) : Ops := {|
  T := spec_float;
  lit := sf_of_Q_at prec emax;
  add := SFadd prec emax; sub := SFsub prec emax;
  mul := SFmul prec emax; div := SFdiv prec emax;
  opp := SFopp; absT := SFabs; sqrtT := SFsqrt prec emax; powT := pw;
  ltb := SFltb; leb := SFleb; eqb := SFeqb |}.

Open Scope R_scope.
(** the number a finite float stands for *)
Definition val (x : spec_float) : R :=
  match x with
  | S754_finite s m e => (if s then - IZR (Zpos m) else IZR (Zpos m)) * powerRZ 2 e
  | _ => 0
  end.
(** a float of the format that is neither infinite nor NaN *)
Definition fin (prec emax : Z) (x : spec_float) : Prop :=
  valid_binary prec emax x = true /\ match x with S754_zero _ | S754_finite _ _ _ => True | _ => False end.
(** the unit roundoff *)
Definition uro (prec : Z) : R := powerRZ 2 (- prec).

(** every entry at most [X] in size *)
Definition within (X : R) (v : list R) : Prop := Forall (fun x => Rabs x <= X) v.
(** the mathematical right-hand side: Lipschitz in y and in t; defined and at most
    [F] in size for times and states up to X + 1 in size *)
Definition tame (rhs : @rhs_t Rops) (n : nat) (L X F : R) : Prop :=
  lipschitz n L rhs /\
  (forall s t y u v, length y = n -> rhs s y = Ret u -> rhs t y = Ret v -> near (L * Rabs (s - t)) u v) /\
  0 <= F /\
  forall t y, Rabs t <= X + 1 -> length y = n -> within (X + 1) y -> exists f, rhs t y = Ret f /\ within F f.
(** the right-hand side the program evaluates: on floats, with an error of at most [eps] *)
Definition computed (prec emax : Z) (pw : spec_float -> spec_float -> spec_float)
    (rhsF : @rhs_t (SFops_at prec emax pw)) (rhs : @rhs_t Rops) (n : nat) (X eps : R) : Prop :=
  forall t y, fin prec emax t -> Forall (fin prec emax) y -> length y = n ->
    Rabs (val t) <= X + 1 -> within (X + 1) (map val y) ->
    exists k f, rhsF t y = Ret k /\ Forall (fin prec emax) k /\ rhs (val t) (map val y) = Ret f /\ near eps (map val k) f.
(** a format in which numbers of the size that occurs do not overflow; [eps] is at
    least the unit roundoff *)
Definition roomy (prec emax : Z) (X F eps : R) : Prop :=
  (1 < prec < emax)%Z /\ X + 8 * F + 8 <= powerRZ 2 (emax - 1) /\ uro prec <= eps.
(** the fixed step Runge-Kutta classes, in any arithmetic, and their orders *)
Definition rk_classes : list ((forall OT : Ops, @meth OT) * nat) :=
  [(@Runge2, 2%nat); (@Runge3, 3%nat); (@Heun3, 3%nat); (@RungeKutta4, 4%nat); (@RungeKutta3_8, 4%nat)].

(** the smallest positive float *)
Definition tiny (prec emax : Z) : R := powerRZ 2 (3 - emax - prec).
(** the program [fn] computes the float function [g], with finite values, at the finite floats of [l, r] *)
Definition evaluatesF (prec emax : Z) (pw : spec_float -> spec_float -> spec_float) {St} (Inv : St -> Prop)
    (fn : @T (SFops_at prec emax pw) -> M St (@T (SFops_at prec emax pw))) (g : spec_float -> spec_float) (l r : spec_float) : Prop :=
  forall t s, fin prec emax t -> val l <= val t <= val r -> Inv s -> exists s', fn t s = (Ret (g t), s') /\ Inv s' /\ fin prec emax (g t).
(** what bisect may return after n halvings: a point where |g| <= tol, or an end of
    a bracket of a sign change that is 2^n times shorter up to a few roundings *)
Definition bis_resultF (prec emax : Z) (g : spec_float -> spec_float) (tol : R) (n : nat) (l r m : spec_float) : Prop :=
  fin prec emax m /\ val l <= val m <= val r /\
  (Rabs (val (g m)) <= tol \/
   exists a b, fin prec emax a /\ fin prec emax b /\ val l <= val a /\ val a <= val m <= val b /\ val b <= val r /\
     val b - val a <= (val r - val l) / 2 ^ n + (4 * (uro prec * Rmax (Rabs (val l)) (Rabs (val r))) + tiny prec emax) /\
     val (g a) * val (g b) < 0).
