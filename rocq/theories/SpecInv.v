(** Vocabulary of the conservation theorems. *)
From Coq Require Import List ZArith Bool Arith Reals.
From Verif Require Import Base Scalar Vec MBuffer MZeros MSteps MApi MDop853 MClasses Spec SpecInst PVecR SpecRK PBound.
Import ListNotations.
Open Scope R_scope.

(** on the hyperplane w . y = c the right-hand side is parallel to it *)
Definition tangent (n : nat) (w : list R) (c : R) (rhs : @rhs_t Rops) : Prop :=
  keeps_dim (OT := Rops) n rhs /\
  forall t y f, length y = n -> dot w y = c -> rhs t y = Ret f -> dot w f = 0.

(** the classes without an implicit equation whose tableaux have the right shapes;
    Adams-Bashforth with at least one coefficient *)
Definition explicit_class (m : @meth Rops) : Prop :=
  match m with
  | ExplMS A B => B <> [] /\ A = @adams_A Rops B
  | ImplMS _ _ _ => False
  | Dop A _ C _ _ _ _ Af Cf => length C = length A /\ A <> [] /\ length A = dop_n_stages /\ length Cf = length Af
  | Erk A _ C => length C = length A /\ A <> []
  | Fsal A _ C _ _ _ => length C = length A /\ A <> []
  end.

(** [explicit_instance rhs y0 m s]: [s] is what the constructor of the explicit
    class [m] returns for the initial state [y0]; a first stepper is an instance of an
    explicit Runge-Kutta class, of fixed or of variable step (with factors that keep
    the step positive) *)
Inductive explicit_instance {E : @Env Rops} (rhs : @rhs_t Rops) (y0 : list R) : @meth Rops -> @st Rops -> Prop :=
| ei_rk m g t0 h s : is_erk m -> garbage_ok m g -> init_rk m g rhs t0 y0 h = Ret s ->
    explicit_instance rhs y0 m s
| ei_var m g t0 o sel first s : is_fixed m = false -> garbage_ok m g ->
    init_var m g rhs t0 y0 o sel first = Ret s -> explicit_instance rhs y0 m s
| ei_ms m g t0 h fuel s : is_multistep m -> garbage_ok m g ->
    init_ms (E := E) m g rhs t0 y0 h FSNone fuel = Ret s -> explicit_instance rhs y0 m s
| ei_ms_fixed m g t0 h fuel s m1 g1 s1 h1 fuel1 o1 : is_multistep m -> garbage_ok m g ->
    is_erk m1 -> explicit_class m1 -> garbage_ok m1 g1 -> init_rk m1 g1 rhs t0 y0 h1 = Ret s1 ->
    init_ms (E := E) m g rhs t0 y0 h (FSFixed (fun _ _ _ => Ret (solver_of (E := E) m1 fuel1 o1 rhs PInf, s1))) fuel = Ret s ->
    explicit_instance rhs y0 m s
| ei_ms_var m g t0 h fuel s m1 g1 s1 o1 sel first fuel1 : is_multistep m -> garbage_ok m g ->
    is_fixed m1 = false -> explicit_class m1 -> sane o1 -> garbage_ok m1 g1 ->
    init_var m1 g1 rhs t0 y0 o1 sel first = Ret s1 -> 0 <= hstep s1 -> (forall x, h = Some x -> 0 < x) ->
    init_ms (E := E) m g rhs t0 y0 h (FSVar (fun _ _ => Ret (solver_of (E := E) m1 fuel1 o1 rhs PInf, s1))) fuel = Ret s ->
    explicit_instance rhs y0 m s.
