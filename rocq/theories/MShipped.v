(** Which integration method each registered class of nbkode runs: the classes of
    multistep/adams_bashforth.py, multistep/adams_moulton.py, euler.py,
    multistep/bdf.py and runge_kutta/explicit.py with their class attributes. *)
From Coq Require Import List ZArith QArith Bool Arith String.
From Verif Require Import Base Scalar Vec MBuffer MZeros MSteps MApi MDop853 MClasses MRegistry.
Import ListNotations.
Local Open Scope list_scope.
Local Open Scope string_scope.

Section Shipped.
Context {OT : Ops}.

(** class name, method *)
Definition shipped_methods : list (string * meth) :=
  [("AdamsBashforth1", AB1);            (* adams_bashforth.py:17-20 *)
   ("AdamsBashforth2", AB2);            (* adams_bashforth.py:23-31 *)
   ("AdamsBashforth3", AB3);            (* adams_bashforth.py:34-44 *)
   ("AdamsBashforth4", AB4);            (* adams_bashforth.py:47-57 *)
   ("AdamsBashforth5", AB5);            (* adams_bashforth.py:60-70 *)
   ("AdamsMoulton1", AM1);              (* adams_moulton.py:34-36 *)
   ("AdamsMoulton2", AM2);              (* adams_moulton.py:39-41 *)
   ("AdamsMoulton3", AM3);              (* adams_moulton.py:44-46 *)
   ("AdamsMoulton4", AM4);              (* adams_moulton.py:49-51 *)
   ("AdamsMoulton5", AM5);              (* adams_moulton.py:54-56 *)
   ("ForwardEuler", ForwardEuler);      (* euler.py:19-27 *)
   ("BackwardEuler", BackwardEuler);    (* euler.py:30-37 *)
   ("BDF1", BDF1);                      (* bdf.py:15-17 *)
   ("BDF2", BDF2);                      (* bdf.py:20-22 *)
   ("BDF3", BDF3);                      (* bdf.py:25-27 *)
   ("BDF4", BDF4);                      (* bdf.py:30-32 *)
   ("BDF5", BDF5);                      (* bdf.py:35-37 *)
   ("BDF6", BDF6);                      (* bdf.py:40-42 *)
   ("Runge2", Runge2);                  (* explicit.py:102-105 *)
   ("Runge3", Runge3);                  (* explicit.py:108-111 *)
   ("Heun3", Heun3);                    (* explicit.py:114-117 *)
   ("RungeKutta4", RungeKutta4);        (* explicit.py:120-123 *)
   ("RungeKutta3_8", RungeKutta3_8);    (* explicit.py:126-129 *)
   ("RungeKutta23", RungeKutta23);      (* explicit.py:132-165 *)
   ("RungeKutta45", RungeKutta45);      (* explicit.py:168-253 *)
   ("DOP853", DOP853)]%list.            (* explicit.py:282-... *)

(** multistep/core.py:29-31 and explicit.py:12: the class attribute IMPLICIT.
    ExplicitMultistep sets Bn = 0 (core.py:88). *)
Definition implicit_attr (m : meth) : bool :=
  match m with
  | ExplMS _ _ => eqb zero zero
  | ImplMS _ _ Bn => eqb Bn zero
  | _ => false
  end.
End Shipped.
