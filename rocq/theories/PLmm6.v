(** What the root finders leave of the equation of an implicit multistep step. *)
From Coq Require Import List ZArith QArith Bool Arith Lia Reals Lra.
From Verif Require Import Base Scalar Vec MBuffer MZeros MSteps MApi MClasses Laws Spec SpecInst PStep PKeeps PCore PHist PBound PVecR SpecRK PDim PTerm SpecZeros PZeros PZeros2 SpecMS PMS PMS2 PRK2 PMS5
  SpecConv PConv1 SpecConv3 SpecVar PGlob PLmm1 PLmm2 SpecLmm PLmm4 PLmm5.
Import ListNotations.
Open Scope R_scope.

(** ** the secant method on a Lipschitz function *)
Section Secant.
Variables (func : R -> outcome R) (LF tol : R).
Hypothesis HF : forall a b u v, func a = Ret u -> func b = Ret v -> Rabs (u - v) <= LF * Rabs (a - b).
Hypothesis HLF : 0 <= LF.
Hypothesis Htol : 0 < tol.
Let g (p : R) : R := match func p with Ret v => v | _ => 0 end.
Lemma g_func p v : func p = Ret v -> g p = v.
Proof. unfold g. now intros ->. Qed.

Lemma secant_residual todo : forall k a b qa qb calls r v, a <> b -> func a = Ret qa -> func b = Ret qb ->
  @secant_loop Rops func tol (@zero Rops) todo k a qa b qb calls = Ret (r, OK) -> func (root r) = Ret v -> Rabs v <= 2 * (LF * tol).
Proof.
  induction todo as [|todo IH]; intros k a b qa qb calls r v Hab Ha Hb H Hv; cbn [secant_loop] in H.
  - destruct k; discriminate.
  - change (@eqb Rops qb qa) with (Reqb qb qa) in H. destruct (Reqb qb qa) eqn:e.
    + change (@eqb Rops b a) with (Reqb b a) in H. rewrite (proj2 (Reqb_false b a)) in H by auto. discriminate.
    + apply Reqb_false in e. rewrite <- (g_func a qa Ha), <- (g_func b qb Hb) in H, e.
      assert (e' : g a <> g b) by auto. pose proof (chord_code g a b e') as CC. rewrite CC in H. clear CC.
      destruct (@isclose Rops (chord g a b) b tol (@zero Rops)) eqn:ec.
      * apply isclose_R in ec. rewrite zero_R, Rmult_0_l, Rplus_0_r in ec. injection H as <-. cbn [root] in Hv.
        assert (Eb : Rabs (g b) <= LF * tol).
        { assert (Hd : g b - g a <> 0) by lra. assert (Hq : b - a <> 0) by lra.
          assert (F : Rabs (g b) * Rabs (b - a) = Rabs (chord g a b - b) * Rabs (g b - g a)).
          { rewrite <- !Rabs_mult. unfold chord. replace ((b - g b * (b - a) / (g b - g a) - b) * (g b - g a)) with (- (g b * (b - a))) by (field; lra). now rewrite Rabs_Ropp. }
          apply (Rmult_le_reg_r (Rabs (b - a))); [now apply Rabs_pos_lt|]. rewrite F.
          pose proof (HF b a qb qa Hb Ha) as HL. rewrite <- (g_func a qa Ha), <- (g_func b qb Hb) in HL.
          eapply Rle_trans; [apply Rmult_le_compat; [apply Rabs_pos|apply Rabs_pos|exact ec|exact HL]|]. right. ring. }
        pose proof (HF _ _ _ _ Hv Hb) as HL. rewrite <- (g_func b qb Hb) in HL.
        assert (LF * Rabs (chord g a b - b) <= LF * tol) by (apply Rmult_le_compat_l; auto).
        replace v with ((v - g b) + g b) by ring. pose proof (Rabs_triang (v - g b) (g b)). lra.
      * apply isclose_R_false in ec. rewrite zero_R, Rmult_0_l, Rplus_0_r in ec.
        destruct (func (chord g a b)) as [q| |] eqn:eq; try discriminate. cbn [obind] in H. rewrite (g_func b qb Hb) in H.
        refine (IH _ _ _ _ _ _ _ _ _ Hb eq H Hv). intros c. rewrite <- c in ec. rewrite Rminus_diag_eq, Rabs_R0 in ec by auto. lra.
Qed.

Lemma j_newton_residual (x0 : R) n p v : @j_newton Rops func x0 None None None tol (@zero Rops) n = Ret p -> func p = Ret v -> Rabs v <= 2 * (LF * tol).
Proof.
  unfold j_newton, newton_. intros H Hv. replace (@mul Rops one x0) with x0 in H by (change (x0 = @one Rops * x0); rewrite one_R; lra).
  rewrite second_model in H. cbn [obind] in H. pose proof (second_ne x0) as Hne. set (x1 := second x0 None) in *.
  destruct (func x0) as [q0| |] eqn:e0; try discriminate. cbn [obind] in H. destruct (func x1) as [q1| |] eqn:e1; try discriminate. cbn [obind] in H.
  destruct (@ltb Rops _ _).
  - destruct (secant_loop _ _ _ _ _ _ _ _ _ _) as [[r fl]| |] eqn:es; try discriminate. cbn [obind snd fst] in H. destruct fl; try discriminate. injection H as <-.
    apply (secant_residual _ _ _ _ _ _ _ _ _ Hne e1 e0 es Hv).
  - destruct (secant_loop _ _ _ _ _ _ _ _ _ _) as [[r fl]| |] eqn:es; try discriminate. cbn [obind snd fst] in H. destruct fl; try discriminate. injection H as <-.
    apply (secant_residual _ _ _ _ _ _ _ _ _ (not_eq_sym Hne) e0 e1 es Hv).
Qed.
End Secant.

Section Resid.
Context {E : @Env Rops}.
Variables (rhs : @rhs_t Rops) (n : nat) (L : R) (A B : list R) (Bn : R).
Hypothesis HL : lipschitz n L rhs.
Hypothesis LAB : length A = length B.
Hypothesis Sd : solve_dim (E := E).
Notation M := (@ImplMS Rops A B Bn).

(** a scalar step *)
Lemma implicit_scalar fuelc o tb (s s' : @st Rops) : n = 1%nat -> wf M s -> dims 1 s ->
  took_step (solver_of (E := E) M fuelc o rhs tb) s s' ->
  length (state s') = 1%nat /\
  Rabs (cmp 0 (lm_residual A B Bn s (state s') (deriv s'))) <= 2 * ((1 + L * Rabs (hstep s * Bn)) * (148 / 10000000000)).
Proof.
  intros Hn W D H. pose proof (wf_state_dim _ _ _ W D) as Hs. destruct HL as (PL & Kd & Lp). rewrite Hn in *.
  destruct (impl_step_gen A B Bn fuelc o rhs tb s s' (proj1 W) H) as (Ht & Er & Pu & Ei).
  unfold impl_ms_fixed_step, ysize in Ei. change (buf_y (cache s)) with (state s) in Ei. rewrite Hs in Ei. cbn [Nat.eqb] in Ei.
  set (K := @ms_combination Rops A B (cache s) (hstep s)) in *.
  assert (LK : length K = 1%nat) by (now apply ms_comb_len).
  change (@add Rops (buf_t (cache s)) (hstep s)) with (now s + hstep s) in Ei. set (t := now s + hstep s) in *.
  assert (PF : 0 <= 1 + L * Rabs (hstep s * Bn)). { apply Rplus_le_le_0_compat; [lra|]. apply Rmult_le_pos; [exact PL|apply Rabs_pos]. }
  assert (Ptol : 0 < @default_tol Rops) by (unfold default_tol; rewrite lit_R; cbn; lra).
  match type of Ei with context [j_newton ?F ?x _ _ _ _ _ _] => pose proof (j_newton_residual F (1 + L * Rabs (hstep s * Bn)) (@default_tol Rops)) as NR; 
    destruct (j_newton F x None None None default_tol (@zero Rops) 50) as [p| |] eqn:ej; try discriminate end.
  cbn [obind] in Ei. injection Ei as Es. rewrite <- Es in *. split; [reflexivity|].
  match type of NR with ?P -> _ => assert (HP : P) end.
  { intros a b u v Ha Hb. unfold implicit_root in Ha, Hb.
    match type of Ha with context [rhs ?x ?z] => destruct (rhs x z) as [fa| |] eqn:ea; try discriminate end. match type of Hb with context [rhs ?x ?z] => destruct (rhs x z) as [fb| |] eqn:eb; try discriminate end. cbn [obind] in Ha, Hb.
    assert (Hab : near (Rabs (a - b)) [a] [b]). { split; [reflexivity|]. cbn [length]. intros i Hi. replace i with 0%nat by lia. cbn [nth]. lra. }
    destruct (Lp t [a] [b] fa fb _ eq_refl eq_refl Hab ea eb) as (Q1 & Q2).
    pose proof (Kd t [a] fa eq_refl ea) as La'. pose proof (Kd t [b] fb eq_refl eb) as Lb'. specialize (Q2 0%nat (eq_ind_r (fun q => (0 < q)%nat) Nat.lt_0_1 La')).
    destruct fa as [|wa [|? ?]]; try discriminate. destruct fb as [|wb [|? ?]]; try discriminate.
    assert (Hk : exists kk, K = [kk]) by (exists (nth 0 K 0); exact (len1 K 0 LK)). destruct Hk as (kk & Hk). rewrite Hk in Ha, Hb. cbn [nth] in Q2. cbn in Ha, Hb. injection Ha as <-. injection Hb as <-.
    replace (a - hstep s * Bn * wa - kk - (b - hstep s * Bn * wb - kk)) with ((a - b) + - (hstep s * Bn * (wa - wb))) by rring.
    eapply Rle_trans; [apply Rabs_triang|]. rewrite Rabs_Ropp, Rabs_mult.
    assert (Rabs (hstep s * Bn) * Rabs (wa - wb) <= Rabs (hstep s * Bn) * (L * Rabs (a - b))) by (apply Rmult_le_compat_l; [apply Rabs_pos|exact Q2]). lra. }
  specialize (NR HP PF Ptol _ _ _ (cmp 0 (lm_residual A B Bn s [p] (deriv s'))) ej).
  assert (Et : @default_tol Rops = 148 / 10000000000) by (unfold default_tol; rewrite lit_R; reflexivity).
  rewrite Et in NR. apply NR.
  match goal with |- obind ?X _ = _ => assert (e : X = Ret (lm_residual A B Bn s [p] (deriv s'))) end.
  { apply (root_residual A B Bn rhs s 1); auto. exact (Kd _ [p] _ eq_refl Er). }
  rewrite e. cbn [obind]. apply f_equal. exact (f_equal (fun z => @nth R 0 (lm_residual A B Bn s [p] (deriv s')) z) zero_R).
Qed.

Lemma sq_pos (v : list R) : 0 <= fold_right (fun x a => x * x + a) 0 v.
Proof. induction v as [|x v IH]; cbn; [lra|]. pose proof (Rle_0_sqr x). unfold Rsqr in *. lra. Qed.
Lemma norm2_cmp i (v : list R) : Rabs (cmp i v) <= norm2 v.
Proof.
  unfold norm2. rewrite <- sqrt_Rsqr_abs. apply sqrt_le_1_alt. unfold Rsqr. revert i. induction v as [|x v IH]; intros [|i]; cbn [nth fold_right]; try lra.
  - pose proof (sq_pos v). lra.
  - specialize (IH i). pose proof (Rle_0_sqr x). unfold Rsqr in *. lra.
Qed.
Definition step_solves (fuelc : nat) (o : @options Rops) (h rho : R) : Prop := forall x x' : @st Rops,
  good rhs (@ImplMS Rops A B Bn) x -> dims n x -> hstep x = h -> core_of (E := E) (@ImplMS Rops A B Bn) fuelc o rhs x = (Ret tt, x') ->
  pushed x x' /\ length (state x') = n /\ rhs (now x') (state x') = Ret (deriv x') /\
  (forall i, (i < n)%nat -> Rabs (cmp i (lm_residual A B Bn x (state x') (deriv x'))) <= rho).
Lemma step_solves_to te fuelc o h rho s0 : step_solves fuelc o h rho -> solves_to (E := E) rhs n te A B Bn fuelc o h rho s0.
Proof. intros H. exists (fun _ => True). split; [exact I|]. split; [auto|]. intros x x' _ G D Hx Hc _. exact (H x x' G D Hx Hc). Qed.
(** every step of the class solves its equation up to three times 1.48e-8 *)
Lemma steps_any fuelc o h : 0 < h -> h * (L * Rabs Bn) <= 1 / 2 -> step_solves fuelc o h (444 / 10000000000).
Proof.
  intros Hh Hb x x' (Wx & _) Dx Hx Hc. pose proof (core_took' _ _ _ _ _ _ Hc) as St.
  pose proof (wf_state_dim _ _ _ Wx Dx) as Hn.
  destruct (impl_step_gen A B Bn fuelc o rhs PInf x x' (proj1 Wx) St) as (Ht & Er & Pu & _).
  destruct (Nat.eq_dec n 1) as [e|e].
  - assert (Dx1 : dims 1 x) by (rewrite <- e; exact Dx). destruct (implicit_scalar fuelc o PInf x x' e Wx Dx1 St) as (Ls & Rs).
    split; [exact Pu|]. split; [exact (eq_trans Ls (eq_sym e))|]. split; [rewrite Ht; exact Er|]. intros i Hi. replace i with 0%nat by lia.
    eapply Rle_trans; [exact Rs|]. rewrite Hx. rewrite Rabs_mult, (Rabs_pos_eq h) by lra. lra.
  - destruct (implicit_hd A B Bn fuelc o rhs PInf x x' n Wx LAB Dx e (proj1 (proj2 HL)) Sd St) as (_ & Ls & _ & _ & Nr).
    split; [exact Pu|]. split; [exact Ls|]. split; [rewrite Ht; exact Er|]. intros i Hi.
    eapply Rle_trans; [apply norm2_cmp|]. eapply Rle_trans; [exact Nr|]. lra.
Qed.
Lemma solves_any te fuelc o h s0 : 0 < h -> h * (L * Rabs Bn) <= 1 / 2 -> solves_to (E := E) rhs n te A B Bn fuelc o h (444 / 10000000000) s0.
Proof. intros H1 H2. apply step_solves_to. now apply steps_any. Qed.
(** up to rho if that is what the steps leave *)
Lemma solves_leaves te fuelc o h rho s0 : 0 < h -> h * (L * Rabs Bn) <= 1 / 2 ->
  leaves_at_most rho te (@ImplMS Rops A B Bn) (solver_of (E := E) (@ImplMS Rops A B Bn) fuelc o rhs PInf) s0 -> solves_to (E := E) rhs n te A B Bn fuelc o h rho s0.
Proof.
  intros H1 H2 Hl. set (sv := solver_of (E := E) (@ImplMS Rops A B Bn) fuelc o rhs PInf) in *. exists (stepped sv s0).
  split; [constructor|]. split; [intros x Hx; apply (stepped_next sv s0 x Hx); discriminate|].
  intros x x' Hs G D Hx Hc Hn. destruct (steps_any fuelc o h H1 H2 x x' G D Hx Hc) as (Q1 & Q2 & Q3 & _).
  split; [exact Q1|]. split; [exact Q2|]. split; [exact Q3|]. intros i Hi.
  assert (Cm : completes sv (s_bound sv) x x') by (split; [intros F; discriminate F|exact Hc]).
  pose proof (Hl x x' Hs Cm Hn) as F. rewrite Forall_forall in F. apply F. apply nth_In.
  unfold lm_residual. rewrite map_length, seq_length. exact (eq_ind_r (fun q => (i < q)%nat) Hi (wf_state_dim _ _ _ (proj1 G) D)).
Qed.
(** and exactly if the problem is scalar and affine *)
Lemma steps_affine fuelc o h a b : n = 1%nat -> affine1 rhs a b -> 0 < h -> h * (L * Rabs Bn) <= 1 / 2 -> step_solves fuelc o h 0.
Proof.
  intros Hn Af Hh Hb x x' (Wx & _) Dx Hx Hc. pose proof (core_took' _ _ _ _ _ _ Hc) as St. assert (Dx1 : dims 1 x) by (rewrite <- Hn; exact Dx).
  pose proof (wf_state_dim _ _ _ Wx Dx1) as Hs.
  assert (Ha : forall t, Rabs (a t) <= L).
  { intros t. destruct HL as (_ & _ & Lp). assert (N1 : near 1 [1] [0]) by (split; [reflexivity|]; intros i Hi; cbn [length] in Hi; replace i with 0%nat by lia; cbn [nth]; rewrite Rminus_0_r, Rabs_R1; lra).
    destruct (Lp t [1] [0] _ _ 1 ltac:(now rewrite Hn) ltac:(now rewrite Hn) N1 (Af t 1) (Af t 0)) as (_ & Q). specialize (Q 0%nat ltac:(cbn; lia)). cbn [nth] in Q.
    replace (a t * 1 + b t - (a t * 0 + b t)) with (a t) in Q by ring. lra. }
  assert (Hne : 1 - hstep x * Bn * a (now x + hstep x) <> 0).
  { rewrite Hx. set (t := now x + h). assert (Q : Rabs (h * Bn * a t) <= 1 / 2).
    { rewrite !Rabs_mult, (Rabs_pos_eq h) by lra. rewrite Rmult_assoc. eapply Rle_trans; [|exact Hb]. apply Rmult_le_compat_l; [lra|]. rewrite Rmult_comm. apply Rmult_le_compat_r; [apply Rabs_pos|apply Ha]. }
    intros c. replace (h * Bn * a t) with 1 in Q by lra. rewrite Rabs_R1 in Q. lra. }
  destruct (implicit_affine A B Bn fuelc o rhs PInf x x' a b Wx LAB Dx1 Af Hne St) as (Nt & Ls & Pu & De & Rl).
  split; [exact Pu|]. split; [exact (eq_trans Ls (eq_sym Hn))|]. split.
  - rewrite De. rewrite (len1 (state x') 0 Ls) at 1. apply Af.
  - intros i Hi. replace i with 0%nat by lia. clear i Hi.
    assert (Q : lm_relation A B Bn x (state x') (deriv x')).
    { rewrite De. rewrite (len1 (state x') 0 Ls). cbn [nth]. apply Rl. apply len1. exact Ls. }
    unfold lm_residual. rewrite Hs. cbn [seq map nth]. specialize (Q 0%nat ltac:(rewrite Hs; lia)). 
    match goal with |- Rabs ?z <= 0 => replace z with 0; [rewrite Rabs_R0; lra|] end. symmetry. apply Rminus_diag_eq. exact Q.
Qed.
Lemma solves_affine te fuelc o h s0 a b : n = 1%nat -> affine1 rhs a b -> 0 < h -> h * (L * Rabs Bn) <= 1 / 2 -> solves_to (E := E) rhs n te A B Bn fuelc o h 0 s0.
Proof. intros H1 H2 H3 H4. apply step_solves_to. now apply (steps_affine fuelc o h a b). Qed.
End Resid.
