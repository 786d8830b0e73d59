(** C82. *)
From Coq Require Import List ZArith QArith Bool Arith Lia Reals Lra.
From Verif Require Import Base Scalar Vec MBuffer MZeros MSteps MApi MClasses MAdaptive MImplicit Laws Spec SpecInst SpecRK SpecDense SpecMS SpecCtl SpecAd PAd PExAd.
Import ListNotations.
Open Scope R_scope.

(** * C82  Adaptive Runge-Kutta classes that are not FSAL can take steps *)
(** A concrete subclass of Fehlberg45: step() raises TypeError although the
    bound is infinite and the right-hand side never fails. *)
Theorem C82_refuted : exists rhs (s : @st Rops), (forall t y, exists f, rhs t y = Ret f) /\ ~ would_pass (@PInf Rops) s /\ 0 < hstep s /\
  forall (E : @Env Rops) fuelc o fuel,
    step (@adaptive_solver Rops E fuelc Fehlberg45_A Fehlberg45_B Fehlberg45_C Fehlberg45_B2 4 o rhs (@PInf Rops)) fuel None None s = (Raise TypeError, s).
Proof.
  exists ad_rhs, ad_s. split; [intros t y; eexists; reflexivity|]. assert (W : ~ would_pass (@PInf Rops) ad_s) by (unfold would_pass; discriminate).
  split; [exact W|]. split; [cbn; lra|]. intros E fuelc o fuel. now apply C82_never_lemma.
Qed.
Print Assumptions C82_refuted.
(** No such class ever takes a step: whatever the tableau, the arithmetic, the
    state and the call, step and skip leave the instance as it is and step
    returns no row. *)
Theorem C82_never {OT : Ops} {E : Env} : forall fuelc A B C B2 order o rhs tb s, let sv := adaptive_solver fuelc A B C B2 order o rhs tb in
  (~ would_pass tb s -> forall fuel, step sv fuel None None s = (Raise TypeError, s)) /\
  (forall fuel n u, snd (step sv fuel n u s) = s /\ snd (skip sv fuel n u s) = s /\
     forall r, fst (step sv fuel n u s) = Ret r -> r = RNone \/ r = RMany []).
Proof. exact C82_never_lemma. Qed.
Print Assumptions C82_never.
(** What the step function does when it is given t_bound, as its signature asks. *)
Theorem C82_partial {E : @Env Rops} : forall fuelc A B C B2 order (o : @options Rops) rhs b n (s : @st Rops), (0 <= order)%Z -> length C = length A -> A <> [] -> length B = length B2 ->
  keeps_dim (OT := Rops) n rhs -> two_entries s -> length (stages s) = length A -> length (state s) = n -> length (deriv s) = n ->
  let call := @adaptive_step Rops E fuelc A B C B2 order [@PyBound Rops b; @PyRhs Rops rhs; @PyCache Rops; @PyH Rops; @PyK Rops; @PyOptions Rops o] s in
  (would_pass b s -> call = (Ret false, s)) /\
  (~ would_pass b s -> forall s', call = (Ret true, s') -> exists l, 
     trials rhs A B C B2 o order (now s) (state s) (deriv s) (hstep s) l (state s') (deriv s') (hstep s') /\
     now s' = now s + last_h l /\ (length l <= fuelc)%nat) /\
  (~ would_pass b s -> forall l y' f' h', trials rhs A B C B2 o order (now s) (state s) (deriv s) (hstep s) l y' f' h' -> (length l <= fuelc)%nat ->
     exists s', call = (Ret true, s') /\ now s' = now s + last_h l /\ state s' = y' /\ deriv s' = f' /\ hstep s' = h').
Proof. exact C82_partial_lemma. Qed.
Print Assumptions C82_partial.
Example C82_partial_ex : keeps_dim (OT := Rops) 1 ad_rhs /\ two_entries ad_s /\ length (stages ad_s) = length ad_A /\ length (state ad_s) = 1%nat /\ length (deriv ad_s) = 1%nat /\
  ~ would_pass (@PInf Rops) ad_s /\
  trials ad_rhs ad_A ad_B ad_C ad_B2 ad_opts 1 (now ad_s) (state ad_s) (deriv ad_s) (hstep ad_s) [(1, 1 * 1); (9 / 10, 9 / 10 * (9 / 10))] [9 / 10 * (9 / 10)] [2 * (0 + 9 / 10)] (9 / 10).
Proof.
  split; [intros t y f _ [= <-]; reflexivity|]. split; [repeat split|]. split; [reflexivity|]. split; [reflexivity|]. split; [reflexivity|]. split; [unfold would_pass; discriminate|exact ad_trials].
Qed.
