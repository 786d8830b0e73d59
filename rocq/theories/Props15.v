(** C80. *)
From Coq Require Import List ZArith QArith Bool Arith Ascii String Lia Permutation.
From Verif Require Import Base Scalar Vec MBuffer MZeros MSteps MApi MDop853 MClasses MRegistry MShipped SpecInst SpecReg PReg PReg2 SpecNames PNames.
Import ListNotations.
Local Open Scope list_scope.

(** * C80  The error of a failed look-up lists the available solvers *)
(** False: look up an unknown name, define a solver, look up again; the new
    solver is not listed. *)
Theorem C80_refuted : exists cs r c r' s, registered cs r /\ init_subclass false c r = (Ret tt, r') /\ registered (cs ++ [c]) r' /\
  unknown (cs ++ [c]) s /\ exists x m, fst (acts [Look s; Define false c; Look s] r None) = [x; (Raise ValueError, Some m)] /\ ~ In (c_name c) m.
Proof. exact C80_stale_lemma. Qed.
Print Assumptions C80_refuted.
(** What holds: the first failed look-up lists, in order, every name and alias
    available then; every later one, whatever is defined or looked up in
    between, lists the same names. *)
Theorem C80_partial : forall cs r s, registered cs r -> unknown cs s -> exists m, listing cs m /\ fails_listing (get_solver r None s) m /\
  forall l, Forall (fun x => (exists c, x = (Ret c, Some m)) \/ fails_listing x m) (fst (acts l r (snd (get_solver r None s)))).
Proof. exact C80_lemma. Qed.
Print Assumptions C80_partial.
(** a look-up that succeeds does not touch the names kept *)
Theorem C80_found : forall r k s c, fst (get_solver r k s) = Ret c -> snd (get_solver r k s) = k.
Proof. exact C80_found_lemma. Qed.
Print Assumptions C80_found.
Example C80_ex : registered shipped nb /\ unknown shipped "RK5"%string /\
  (exists c, fst (get_solver nb None "rungekutta4"%string) = Ret c) /\
  match snd (get_solver nb None "RK5"%string) with
  | Some (a :: b :: _) => a = "AdamsBashforth1"%string /\ b = "AdamsBashforth2"%string | _ => False end.
Proof.
  split; [exact nb_registered|]. split; [apply unknown_b; vm_compute; reflexivity|].
  split; [eexists; vm_compute; reflexivity|]. vm_compute. auto.
Qed.
