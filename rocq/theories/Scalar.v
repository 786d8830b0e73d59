(** Scalar arithmetic as a record of operations without laws, so that the model
    can be read over the reals, over exact rationals and over IEEE binary64. *)
From Coq Require Import ZArith QArith Qcanon Reals Bool Floats.SpecFloat.
Open Scope bool_scope.

(** Python/numpy float operations used by nbkode.  [lit] is a numeric literal;
    in the source every coefficient is an exact quotient of integers or a
    decimal literal, whose float value is the correctly rounded rational. *)
Class Ops : Type := {
  T : Type;
  lit : Q -> T;
  add : T -> T -> T;
  sub : T -> T -> T;
  mul : T -> T -> T;
  div : T -> T -> T;
  opp : T -> T;
  absT : T -> T;
  sqrtT : T -> T;
  powT : T -> T -> T;
  ltb : T -> T -> bool;
  leb : T -> T -> bool;
  eqb : T -> T -> bool
}.

Declare Scope sc_scope.
Delimit Scope sc_scope with sc.
Infix "+" := add : sc_scope.
Infix "-" := sub : sc_scope.
Infix "*" := mul : sc_scope.
Infix "/" := div : sc_scope.
Notation "- x" := (opp x) : sc_scope.
Infix "<?" := ltb : sc_scope.
Infix "<=?" := leb : sc_scope.
Infix "=?" := eqb : sc_scope.
Notation "x >? y" := (ltb y x) (at level 70, only parsing) : sc_scope.
Notation "x >=? y" := (leb y x) (at level 70, only parsing) : sc_scope.

Section Derived.
Context {OT : Ops}.
Definition zero : T := lit 0%Q.
Definition one : T := lit 1%Q.
Definition two : T := lit 2%Q.
Definition ofZ (z : Z) : T := lit (inject_Z z).
Definition ofnat (n : nat) : T := ofZ (Z.of_nat n).
(** Python's builtin max/min: the second argument wins only if strictly larger
    / smaller. *)
Definition pymax (a b : T) : T := if ltb a b then b else a.
Definition pymin (a b : T) : T := if ltb b a then b else a.
(** numpy's max is NaN-propagating. *)
Definition npmax (a b : T) : T :=
  if ltb a b || negb (eqb b b) then b else a.
(** np.sign(a) == np.sign(b)  (NaN compares unequal). *)
Definition same_sign (a b : T) : bool :=
  (ltb zero a && ltb zero b) || (ltb a zero && ltb b zero)
  || (eqb a zero && eqb b zero).
End Derived.

(** A time bound: a float or np.inf (kept apart so that the exact instances,
    which have no infinity, still have the default t_bound = np.inf). *)
Inductive ext {OT : Ops} : Type := Fin (t : T) | PInf.
(** [x > b] *)
Definition gt_ext {OT : Ops} (x : T) (b : ext) : bool :=
  match b with Fin t => ltb t x | PInf => false end.

(** ** Instances *)

(** Reals. *)
Definition Rltb (x y : R) : bool := if Rlt_dec x y then true else false.
Definition Rleb (x y : R) : bool := if Rle_dec x y then true else false.
Definition Reqb (x y : R) : bool := if Req_EM_T x y then true else false.
Definition Rops : Ops := {|
  T := R;
  lit q := (IZR (Qnum q) / IZR (Zpos (Qden q)))%R;
  add := Rplus; sub := Rminus; mul := Rmult; div := Rdiv; opp := Ropp;
  absT := Rabs; sqrtT := sqrt; powT := Rpower;
  ltb := Rltb; leb := Rleb; eqb := Reqb |}.

(** Canonical rationals: exact and executable.  They have no square root and no
    power; those two operations are a parameter (they are used only by the
    error norm of the variable step methods and by the norm in newton_hd). *)
Definition Qcltb (x y : Qc) : bool := negb (Qle_bool y x).
Definition Qcleb (x y : Qc) : bool := Qle_bool x y.
Definition Qceqb (x y : Qc) : bool := Qeq_bool x y.
Definition Qcabs (x : Qc) : Qc := if Qcltb x 0%Qc then Qcopp x else x.
Definition Qcops (sq : Qc -> Qc) (pw : Qc -> Qc -> Qc) : Ops := {|
  T := Qc;
  lit := Q2Qc;
  add := Qcplus; sub := Qcminus; mul := Qcmult; div := Qcdiv; opp := Qcopp;
  absT := Qcabs; sqrtT := sq; powT := pw;
  ltb := Qcltb; leb := Qcleb; eqb := Qceqb |}.

(** IEEE 754 binary64, by the specification in the standard library
    (Coq.Floats.SpecFloat, no axioms).  [pow] is libm's and stays a parameter. *)
Definition f_prec : Z := 53.
Definition f_emax : Z := 1024.
Definition sf_neg (x : spec_float) : spec_float := SFopp x.
(** correctly rounded quotient of two integers, of any size *)
Definition sf_of_Q (q : Q) : spec_float :=
  match Qnum q with
  | Z0 => S754_zero false
  | Zpos n =>
      let '(m, e, l) := SFdiv_core_binary f_prec f_emax (Zpos n) 0 (Zpos (Qden q)) 0 in
      binary_round_aux f_prec f_emax false m e l
  | Zneg n =>
      let '(m, e, l) := SFdiv_core_binary f_prec f_emax (Zpos n) 0 (Zpos (Qden q)) 0 in
      binary_round_aux f_prec f_emax true m e l
  end.
Definition SFops (pw : spec_float -> spec_float -> spec_float) : Ops := {|
  T := spec_float;
  lit := sf_of_Q;
  add := SFadd f_prec f_emax; sub := SFsub f_prec f_emax;
  mul := SFmul f_prec f_emax; div := SFdiv f_prec f_emax;
  opp := SFopp; absT := SFabs; sqrtT := SFsqrt f_prec f_emax; powT := pw;
  ltb := SFltb; leb := SFleb; eqb := SFeqb |}.
