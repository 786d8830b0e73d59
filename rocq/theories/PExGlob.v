(** Examples for C73. *)
From Coq Require Import List ZArith QArith Bool Arith Lia Reals Lra.
From Verif Require Import Base Scalar Vec MBuffer MZeros MSteps MApi MDop853 MClasses Laws Spec SpecInst SpecRK SpecMS PMS PMS3 PMS6 PMS7 SpecGlob PGlob.
Import ListNotations.
Open Scope R_scope.

(** AdamsBashforth3 on y' = 2t from 0 with h = 1/10: after ten more steps the
    solver holds 0.84 at t = 1.2, where the solution is 1.44 *)
Lemma ab3_ex {E : @Env Rops} : exists s0, started_rk4 (E := E) (rhs_poly [[0; 0; 1]]) AB3 0 (1 / 10) [peval [0; 0; 1] 0] s0 /\
  let s := session (E := E) (solver_of (E := E) AB3 0 default_options (rhs_poly [[0; 0; 1]]) PInf) 0 (repeat (CStep None None) 10) s0 in
  now s = 12 / 10 /\ state s = [84 / 100].
Proof.
  assert (HP : degree_le 2 [0; 0; 1]) by (unfold degree_le; cbn; lia).
  assert (Hin : In (@AB3 Rops, 6) adams_defects) by (unfold adams_defects; apply in_cons, in_eq).
  destruct (started_exists (E := E) AB3 [[0; 0; 1]] 0 (1 / 10) I ltac:(cbn; lia)) as (s0 & Hs).
  { constructor; [unfold degree_le; cbn; lia|constructor]. }
  exists s0. split; [exact Hs|]. cbv zeta.
  destruct (adams_start AB3 6 [0; 0; 1] _ 0 (1 / 10) s0 (adams_spec _ _ Hin) HP (rhs_poly_quad _) Hs) as (G0 & D0 & H0 & F0 & _ & N0).
  pose proof (n_steps AB3 6 [0; 0; 1] _ (1 / 10) 0 default_options (adams_spec _ _ Hin) HP (rhs_poly_quad _) 10 s0 G0 D0 H0 F0) as Nw.
  destruct (C73_lemma AB3 6 [0; 0; 1] (rhs_poly [[0; 0; 1]]) 0 (1 / 10) 0 default_options PInf 0 (repeat (CStep None None) 10) s0 _ Hin HP (rhs_poly_quad _) Hs eq_refl) as (n & Nn & Sw).
  match type of Nw with now ?x = _ => set (s := x) in * end. clearbody s.
  change (ms_order AB3 - 1)%nat with 2%nat in *. rewrite N0 in Nw. rewrite plus_INR in Nn.
  assert (I10 : INR 10 = 10) by (cbn; lra). assert (I2 : INR 2 = 2) by (cbn; lra). rewrite I10, I2 in *.
  assert (Nw' : now s = 12 / 10) by (refine (eq_trans Nw _); change (@eq R (0 + 2 * (1 / 10) + 10 * (1 / 10)) (12 / 10)); lra).
  split; [exact Nw'|]. rewrite Nw' in Nn, Sw. change (@eq R (12 / 10) (0 + (2 + INR n) * (1 / 10))) in Nn.
  assert (In_ : INR n = 10) by lra. rewrite In_ in Sw. rewrite Sw. f_equal. cbn [peval nth]. change (@eq R (0 + 12 / 10 * (0 + 12 / 10 * (1 + 12 / 10 * 0)) - 6 * 1 * (1 / 10) * (10 * (1 / 10))) (84 / 100)). lra.
Qed.
(** BDF3 on y = t^3 - t + 1 *)
Lemma bdf3_ex {E : @Env Rops} : let p := [1; -1; 0; 1] in exists s0, built (E := E) (rhs_poly [p]) BDF3 s0 /\ dims 1 s0 /\ hstep s0 = 1 / 4 /\
  tracks (length (A_of BDF3)) [p] s0 /\ affine1 (rhs_poly [p]) (fun _ => 0) (peval (pder p)) /\ solves (rhs_poly [p]) [p] /\ degree_le 3 p /\
  (forall t : R, 1 - hstep s0 * new_weight BDF3 * (fun _ => 0) t <> 0).
Proof.
  intros p. assert (HP : Forall (degree_le 4) [p]) by (repeat constructor; unfold degree_le; cbn; lia).
  destruct (started_exists (E := E) BDF3 [p] 2 (1/4) I ltac:(cbn; lia) HP) as (s & Hs).
  destruct (started_spec _ BDF3 _ _ _ s I ltac:(cbn; lia) (rhs_poly_quad _) HP Hs) as (Bu & Hh & _ & Tr & D).
  exists s. split; [exact Bu|]. split; [exact D|]. split; [exact Hh|]. split; [exact Tr|].
  split; [intros t y; unfold rhs_poly, slope; cbn [map]; do 2 f_equal; ring|]. split; [intros t; reflexivity|]. split; [unfold degree_le; cbn; lia|].
  intros t. lra.
Qed.
