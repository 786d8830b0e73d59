(** C87, C88: what the constructors check, and what they leave unchecked. *)
From Coq Require Import List ZArith QArith Bool Arith Lia Reals Lra Floats.SpecFloat.
From Verif Require Import Base Scalar Vec MBuffer MZeros MSteps MApi MDop853 MClasses Laws Spec SpecInst SpecInit PVecR SpecRK SpecCtl SpecMS SpecConv SpecLive
  PBound PTop1 Ex PExR PC5 PInit.
Import ListNotations.

(** * C87  Constructors
    [fresh s t0 y0 f0 h]: t, y, f are t0, y0, f0 and the step size is h.
    Fixed step Runge-Kutta classes: the right-hand side is evaluated at (t0, y0);
    h is 1 unless given *)
Theorem C87_start {OT : Ops} : forall m g rhs t0 y0 h, garbage_ok m g ->
  (forall e, rhs t0 y0 = Raise e -> init_rk m g rhs t0 y0 h = Raise e) /\
  (forall f0, rhs t0 y0 = Ret f0 -> exists s, init_rk m g rhs t0 y0 h = Ret s /\ fresh s t0 y0 f0 (match h with Some x => x | None => one end)).
Proof. exact C87_start_lemma. Qed.
Print Assumptions C87_start.
(** variable step classes: an exception of the right-hand side first, then invalid
    options raise ValueError *)
Theorem C87_invalid {OT : Ops} : forall m g rhs t0 y0 o sel first, is_fixed m = false -> garbage_ok m g ->
  (forall e, rhs t0 y0 = Raise e -> init_var m g rhs t0 y0 o sel first = Raise e) /\
  (forall f0, rhs t0 y0 = Ret f0 -> ~ valid_options o -> init_var m g rhs t0 y0 o sel first = Raise ValueError).
Proof. exact C87_invalid_lemma. Qed.
Print Assumptions C87_invalid.
(** RungeKutta23 and RungeKutta45 (any FSAL pair) accept valid options; the first
    step size is first_step or what scipy selects *)
Theorem C87_valid {OT : Ops} : forall A B C Ew order P g rhs t0 y0 o sel f0, garbage_ok (Fsal A B C Ew order P) g -> rhs t0 y0 = Ret f0 -> valid_options o ->
  (forall h, exists s, init_var (Fsal A B C Ew order P) g rhs t0 y0 o sel (Some h) = Ret s /\ fresh s t0 y0 f0 h) /\
  (forall h, sel t0 y0 f0 = Ret h -> exists s, init_var (Fsal A B C Ew order P) g rhs t0 y0 o sel None = Ret s /\ fresh s t0 y0 f0 h) /\
  (forall e, sel t0 y0 f0 = Raise e -> init_var (Fsal A B C Ew order P) g rhs t0 y0 o sel None = Raise e).
Proof. exact (@C87_valid_lemma OT). Qed.
Print Assumptions C87_valid.
(** DOP853 likewise, in exact arithmetic ... *)
Theorem C87_partial : forall A B C E5 E3 order D Af Cf g (rhs : @rhs_t Rops) t0 y0 (o : @options Rops) sel f0, let m := @Dop Rops A B C E5 E3 order D Af Cf in
  garbage_ok m g -> garbage_dim (length y0) g -> rhs t0 y0 = Ret f0 -> length f0 = length y0 -> valid_options o ->
  (forall h, exists s, init_var m g rhs t0 y0 o sel (Some h) = Ret s /\ fresh s t0 y0 f0 h) /\
  (forall h, sel t0 y0 f0 = Ret h -> exists s, init_var m g rhs t0 y0 o sel None = Ret s /\ fresh s t0 y0 f0 h) /\
  (forall e, sel t0 y0 f0 = Raise e -> init_var m g rhs t0 y0 o sel None = Raise e).
Proof. exact C87_dop_lemma. Qed.
Print Assumptions C87_partial.
(** ... but not in binary64: the interpolator is updated while K is uninitialised;
    0 * NaN = NaN, so a right-hand side that returns for every state except NaN
    can make the constructor raise *)
Theorem C87_refuted : forall pw, let FI := SFops pw in exists (rhs : @rhs_t FI) (g : @garbage FI),
  garbage_ok (@DOP853 FI) g /\ garbage_dim (OT := FI) 1 g /\ valid_options (@default_options FI) /\
  (forall t x, x <> S754_nan -> rhs t [x] = Ret [x]) /\
  forall sel, init_var (@DOP853 FI) g rhs (@zero FI) [@one FI] (@default_options FI) sel (Some (@one FI)) = Raise ValueError.
Proof. intros pw FI. exists (rhs_picky pw), (nan_garb pw). exact (C87_nan pw). Qed.
Print Assumptions C87_refuted.
Example C87_ex : valid_options (@default_options Rops) /\ garbage_ok (@RungeKutta23 Rops) (garb RungeKutta23) /\ 
  (let g := mkgarb (g_buf (garb (@DOP853 Rops))) (repeat [5%R] 13) in garbage_ok (@DOP853 Rops) g /\ garbage_dim (OT := Rops) 1 g) /\ ~ valid_options (mkopts (@lit Rops (-1)) (@one Rops) one PInf one one one) /\
  ~ valid_options (mkopts (@one Rops) (@one Rops) one (Fin (@zero Rops)) one one one).
Proof.
  split; [split; [discriminate|apply tol_pos]|]. split; [apply garb_ok|]. split; [split; [repeat split|repeat constructor]|]. split.
  - intros (_ & H). cbn [atol] in H. apply Rltb_false in H. rewrite zero_R, lit_R in H. cbn in H. lra.
  - intros (H & _). specialize (H _ eq_refl). apply Bool.diff_true_false. rewrite <- H. symmetry. apply Rleb_true. lra.
Qed.

(** * C88  Accepted options make progress
    Refuted: min_factor = 1 is accepted; with it a rejected trial is repeated for
    ever.  RungeKutta23, y' = 24 t^2, first_step = 1: no call of step() returns *)
Theorem C88_refuted : exists (o : @options Rops) rhs g sel s, valid_options o /\ tolerances o /\ garbage_ok RungeKutta23 g /\
  lipschitz 1 0 rhs /\ defined_on 1 rhs /\ init_var (@RungeKutta23 Rops) g rhs 0%R [0%R] o sel (Some 1%R) = Ret s /\
  forall fuelc fuel r s', step (solver_of (E := ER) RungeKutta23 fuelc o rhs PInf) fuel None None s <> (Ret r, s').
Proof. exact C88_refuted_lemma. Qed.
Print Assumptions C88_refuted.
(** first_step <= 0 is accepted too; a call with a later time then never returns *)
Theorem C88_first_step {E : @Env Rops} : forall m fuelc (o : @options Rops) rhs tb (s : @st Rops) x fuel r s', reachable (E := E) rhs m fuelc o tb s -> is_fixed m = false ->
  (0 <= min_factor o)%R -> (0 <= max_factor o)%R -> (hstep s <= 0)%R -> (now s <= x)%R -> @gt_ext Rops x tb = false ->
  step (solver_of (E := E) m fuelc o rhs tb) fuel None (Some (@Fin Rops x)) s <> (Ret r, s').
Proof. exact C88_neg_lemma. Qed.
Print Assumptions C88_first_step.
Example C88_ex : exists s, init_var (@RungeKutta23 Rops) (garb RungeKutta23) rhs_sq 0%R [0%R] default_options (fun _ _ _ => Ret one) (Some 0%R) = Ret s /\
  reachable (E := ER) rhs_sq RungeKutta23 0 default_options PInf s /\ hstep s = 0%R /\ now s = 0%R /\
  (0 <= min_factor (@default_options Rops))%R /\ (0 <= max_factor (@default_options Rops))%R.
Proof. exact C88_ex_lemma. Qed.
