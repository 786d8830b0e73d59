(** Dense output is continuously differentiable (C40). *)
From Coq Require Import List ZArith QArith Bool Arith Lia Reals Lra.
From Verif Require Import Base Scalar Vec MBuffer MZeros MSteps MApi MDop853 MClasses Laws Spec SpecInst SpecRK SpecDense SpecMS
  PStep PKeeps PClean PCore PHist PBound PVecR PRun PFwd PInterp PRK PDim PDense SpecZeros PZeros PZeros2 PMS PMS2 PRK2 PMS3.
Import ListNotations.
Open Scope R_scope.

Lemma stages_det {OT : Ops} rhs t y h rows cs K K1 : stages_of rhs t y h rows cs K K1 -> forall K2, stages_of rhs t y h rows cs K K2 -> K1 = K2.
Proof.
  induction 1 as [|a rows c cs K k K' Hk _ IH]; intros K2 H2; inversion H2; subst; auto.
  apply IH. match goal with H : rhs _ _ = Ret ?k0 |- _ => assert (k0 = k) as -> by congruence end. assumption.
Qed.
Lemma Rsum_add f g n : Rsum (fun k => f k + g k) n = Rsum f n + Rsum g n.
Proof. revert f g. induction n; intros f g; [unfold Rsum; cbn; lra|]. rewrite !Rsum_S, (IHn (fun k => f (S k)) (fun k => g (S k))). lra. Qed.
Lemma Rsum_scal c f n : Rsum (fun k => c * f k) n = c * Rsum f n.
Proof. revert f. induction n; intros f; [unfold Rsum; cbn; lra|]. rewrite !Rsum_S, (IHn (fun k => f (S k))). lra. Qed.
Lemma Rsum_zero f n : (forall k, (k < n)%nat -> f k = 0) -> Rsum f n = 0.
Proof.
  intros H. transitivity (Rsum (fun k => 0 * f k) n).
  - apply Rsum_ext. intros k Hk. rewrite H by exact Hk. ring.
  - rewrite Rsum_scal. ring.
Qed.
Lemma Rsum_swap f n p : Rsum (fun j => Rsum (fun k => f j k) n) p = Rsum (fun k => Rsum (fun j => f j k) p) n.
Proof.
  revert f. induction p as [|p IH]; intros f.
  - rewrite (Rsum_zero (fun k => Rsum (fun j => f j k) 0)); [reflexivity|]. intros. reflexivity.
  - rewrite Rsum_S, (IH (fun j k => f (S j) k)), <- Rsum_add. apply Rsum_ext. intros k _. now rewrite Rsum_S.
Qed.
Lemma Rsum_delta a (f : nat -> R) n : (a < n)%nat -> Rsum (fun k => (if Nat.eqb k a then 1 else 0) * f k) n = f a.
Proof.
  revert a f. induction n as [|n IH]; intros a f H; [lia|]. rewrite Rsum_S. destruct a as [|a].
  - cbn [Nat.eqb]. rewrite Rsum_zero; [lra|]. intros k _. cbn. ring.
  - cbn [Nat.eqb]. rewrite (IH a (fun k => f (S k))) by lia. lra.
Qed.
Lemma Rsum_derive (f f' : nat -> R -> R) n t : (forall k, (k < n)%nat -> derivable_pt_lim (f k) t (f' k t)) ->
  derivable_pt_lim (fun u => Rsum (fun k => f k u) n) t (Rsum (fun k => f' k t) n).
Proof.
  revert f f'. induction n as [|n IH]; intros f f' H.
  - unfold Rsum. cbn. apply derivable_pt_lim_const.
  - rewrite Rsum_S. apply derivable_pt_lim_ext with (f := fun u => f 0%nat u + Rsum (fun k => f (S k) u) n).
    + intros u. now rewrite Rsum_S.
    + apply derivable_pt_lim_plus; [apply H; lia|]. apply (IH (fun k => f (S k)) (fun k => f' (S k))). intros k Hk. apply H. lia.
Qed.

(** the shape of the interpolation matrices of RungeKutta23 and 45: [p] rows *)
Definition P_ok (P : list (list R)) (B : list R) (p : nat) : Prop :=
  (0 < length (hd [] P))%nat /\ (1 < p)%nat /\ (length B < p)%nat /\
  forall k, (k < p)%nat -> let row := nth k P [] in let w := length (hd [] P) in
    nth 0 row 0 = (if Nat.eqb k 0 then 1 else 0) /\
    Rsum (fun j => nth j row 0) w = nth k B 0 /\
    Rsum (fun j => INR (S j) * nth j row 0) w = (if Nat.eqb k (p - 1) then 1 else 0).

Section RK.
Variables (P : list (list R)) (B : list R) (tp h : R) (yp : list R) (K : list (list R)).
Hypothesis Hh : h <> 0.
Hypothesis HP : P_ok P B (length K).

Lemma dense_cmp i t : (i < length yp)%nat -> cmp i (rk_dense P tp yp h K t) =
  cmp i yp + h * Rsum (fun j => ((t - tp) / h) ^ (S j) * Rsum (fun k => nth j (nth k P []) 0 * cmp i (nth k K [])) (length K)) (length (hd [] P)).
Proof. intros Hi. unfold rk_dense. now rewrite nth_map_seq. Qed.
Lemma dense_start i : (i < length yp)%nat -> cmp i (rk_dense P tp yp h K tp) = cmp i yp.
Proof.
  intros Hi. rewrite dense_cmp by exact Hi. rewrite Rsum_zero; [lra|]. intros k _.
  replace ((tp - tp) / h) with 0 by (field; exact Hh). rewrite pow_ne_zero by discriminate. ring.
Qed.
Lemma dense_end i : (i < length yp)%nat ->
  cmp i (rk_dense P tp yp h K (tp + h)) = cmp i yp + h * Rsum (fun k => nth k B 0 * cmp i (nth k K [])) (length K).
Proof.
  intros Hi. rewrite dense_cmp by exact Hi. replace ((tp + h - tp) / h) with 1 by (field; exact Hh). f_equal. f_equal.
  rewrite (Rsum_ext _ (fun j => Rsum (fun k => nth j (nth k P []) 0 * cmp i (nth k K [])) (length K))) by (intros; rewrite pow1; ring).
  rewrite Rsum_swap. apply Rsum_ext. intros k Hk.
  destruct HP as (_ & _ & _ & H). destruct (H k Hk) as (_ & H2 & _). cbv zeta in H2. rewrite <- H2.
  rewrite (Rsum_ext _ (fun j => cmp i (nth k K []) * nth j (nth k P []) 0)) by (intros; ring). rewrite Rsum_scal. ring.
Qed.
Lemma dense_slope i t : (i < length yp)%nat ->
  derivable_pt_lim (fun t => cmp i (rk_dense P tp yp h K t)) t
   (Rsum (fun j => INR (S j) * ((t - tp) / h) ^ j * Rsum (fun k => nth j (nth k P []) 0 * cmp i (nth k K [])) (length K)) (length (hd [] P))).
Proof.
  intros Hi. eapply derivable_pt_lim_ext; [intros u; symmetry; apply dense_cmp; exact Hi|].
  set (Q := fun j => Rsum (fun k => nth j (nth k P []) 0 * cmp i (nth k K [])) (length K)).
  set (w := length (hd [] P)).
  replace (Rsum (fun j => INR (S j) * ((t - tp) / h) ^ j * Rsum (fun k => nth j (nth k P []) 0 * cmp i (nth k K [])) (length K)) w)
    with (0 + h * Rsum (fun j => (INR (S j) * ((t - tp) / h) ^ j * (1 / h)) * Q j) w).
  2:{ rewrite Rplus_0_l, <- Rsum_scal. apply Rsum_ext. intros j _. fold (Q j). field. exact Hh. }
  apply derivable_pt_lim_plus; [apply derivable_pt_lim_const|].
  apply (derivable_pt_lim_scal (fun u => Rsum (fun j => ((u - tp) / h) ^ S j * Q j) w)).
  apply (Rsum_derive (fun j u => ((u - tp) / h) ^ S j * Q j) (fun j u => INR (S j) * ((u - tp) / h) ^ j * (1 / h) * Q j)).
  intros j _. 
  replace (INR (S j) * ((t - tp) / h) ^ j * (1 / h) * Q j) with (INR (S j) * ((t - tp) / h) ^ j * (1 / h) * Q j + ((t - tp) / h) ^ S j * 0) by ring.
  apply (derivable_pt_lim_mult (fun u => ((u - tp) / h) ^ S j) (fun _ => Q j)); [|apply derivable_pt_lim_const].
  apply (derivable_pt_lim_comp (fun u => (u - tp) / h) (fun x => x ^ S j)).
  - apply derivable_pt_lim_ext with (f := fun u => (1 / h) * (u - tp)); [intros u; field; exact Hh|].
    assert (D1 : derivable_pt_lim (fun u => u - tp) t (1 - 0)) by (apply (derivable_pt_lim_minus (fun u => u) (fun _ => tp)); [apply derivable_pt_lim_id | apply derivable_pt_lim_const]).
    pose proof (derivable_pt_lim_scal (fun u => u - tp) (1 / h) t (1 - 0) D1) as D2.
    replace (1 / h * (1 - 0)) with (1 / h) in D2 by ring. exact D2.
  - apply derivable_pt_lim_pow_pos. lia.
Qed.
Lemma slope_start i : (i < length yp)%nat -> derivable_pt_lim (fun t => cmp i (rk_dense P tp yp h K t)) tp (cmp i (nth 0 K [])).
Proof.
  intros Hi. pose proof (dense_slope i tp Hi) as D.
  match type of D with derivable_pt_lim _ _ ?v => replace (cmp i (nth 0 K [])) with v; [exact D|] end.
  replace ((tp - tp) / h) with 0 by (field; exact Hh).
  destruct HP as (H0 & H1 & _ & H). destruct (length (hd [] P)) as [|w]; [lia|]. rewrite Rsum_S.
  rewrite (Rsum_zero (fun k => INR (S (S k)) * _ * _)).
  2:{ intros j _. rewrite pow_ne_zero by discriminate. ring. }
  rewrite (Rsum_ext (fun k => nth 0 (nth k P []) 0 * cmp i (nth k K [])) (fun k => (if Nat.eqb k 0 then 1 else 0) * cmp i (nth k K []))).
  2:{ intros k Hk. destruct (H k Hk) as (E1 & _). cbv zeta in E1. now rewrite E1. }
  rewrite (Rsum_delta 0 (fun k => cmp i (nth k K []))) by lia. cbn [INR pow]. ring.
Qed.
Lemma slope_end i : (i < length yp)%nat -> derivable_pt_lim (fun t => cmp i (rk_dense P tp yp h K t)) (tp + h) (cmp i (nth (length K - 1) K [])).
Proof.
  intros Hi. pose proof (dense_slope i (tp + h) Hi) as D.
  match type of D with derivable_pt_lim _ _ ?v => replace (cmp i (nth (length K - 1) K [])) with v; [exact D|] end.
  replace ((tp + h - tp) / h) with 1 by (field; exact Hh).
  destruct HP as (H0 & H1 & _ & H). 
  rewrite (Rsum_ext _ (fun j => Rsum (fun k => (INR (S j) * nth j (nth k P []) 0) * cmp i (nth k K [])) (length K))).
  2:{ intros j _. rewrite pow1, <- Rsum_scal. apply Rsum_ext. intros k _. ring. }
  rewrite Rsum_swap.
  rewrite (Rsum_ext _ (fun k => (if Nat.eqb k (length K - 1) then 1 else 0) * cmp i (nth k K []))).
  2:{ intros k Hk. destruct (H k Hk) as (_ & _ & E3). cbv zeta in E3. rewrite <- E3.
      rewrite (Rsum_ext _ (fun j => cmp i (nth k K []) * (INR (S j) * nth j (nth k P []) 0))) by (intros; ring). rewrite Rsum_scal. ring. }
  rewrite (Rsum_delta (length K - 1) (fun k => cmp i (nth k K []))) by lia. reflexivity.
Qed.
End RK.

Lemma P_ok_23 : match @RungeKutta23 Rops with Fsal A B _ _ _ P => P_ok P B (length A + 1) | _ => False end.
Proof.
  cbv [RungeKutta23 rk23_B litm P_ok]. rewrite ?Rops_lits, ?Rops_over, ?lit_R. cbn [map length hd Nat.add Nat.sub].
  rewrite ?Rops_lits. cbn [map length hd Nat.add Nat.sub Qnum Qden].
  split; [lia|]. split; [lia|]. split; [lia|].
  intros k Hk. do 4 (destruct k as [|k]; [cbv [Rsum]; cbn; repeat split; lra|]). lia.
Qed.
Lemma P_ok_45 : match @RungeKutta45 Rops with Fsal A B _ _ _ P => P_ok P B (length A + 1) | _ => False end.
Proof.
  cbv [RungeKutta45 litm P_ok]. rewrite ?Rops_lits, ?Rops_over, ?lit_R. cbn [map length hd Nat.add Nat.sub].
  rewrite ?Rops_lits. cbn [map length hd Nat.add Nat.sub Qnum Qden].
  split; [lia|]. split; [lia|]. split; [lia|].
  intros k Hk. do 7 (destruct k as [|k]; [cbv [Rsum]; cbn; repeat split; lra|]). lia.
Qed.

(** ** DOP853 *)
Lemma alt_derive l x : exists d, derivable_pt_lim (fun x => alt x l) x d.
Proof.
  induction l as [|f r (d & IH)]; cbn [alt].
  - exists 0. apply derivable_pt_lim_const.
  - assert (D1 : derivable_pt_lim (fun x => f + alt x r) x (0 + d)) by (apply derivable_pt_lim_plus; [apply derivable_pt_lim_const | exact IH]).
    destruct (Nat.even (length r)).
    + eexists. apply (derivable_pt_lim_mult (fun x => f + alt x r) (fun x => x)); [exact D1 | apply derivable_pt_lim_id].
    + eexists. apply (derivable_pt_lim_mult (fun x => f + alt x r) (fun x => 1 - x)); [exact D1|].
      apply (derivable_pt_lim_minus (fun _ => 1) (fun x => x)); [apply derivable_pt_lim_const | apply derivable_pt_lim_id].
Qed.
Section Alt.
Variables (a b c : R) (r : list R).
Hypothesis Hr : Nat.even (length r) = true.
Lemma alt_odd x l : Nat.even (length l) = true -> alt x (c :: l) = (c + alt x l) * x.
Proof. intros H. cbn [alt]. now rewrite H. Qed.
Lemma alt_even1 l : Nat.even (length l) = true -> alt 1 l = 0.
Proof. destruct l as [|d l]; [reflexivity|]. cbn [alt length]. rewrite Nat.even_succ, <- Nat.negb_even. destruct (Nat.even (length l)); [discriminate|]. intros _. ring. Qed.
Lemma alt3 x : alt x (a :: b :: c :: r) = (a + (b + (c + alt x r) * x) * (1 - x)) * x.
Proof.
  cbn [alt length]. rewrite !Nat.even_succ, Nat.odd_succ, <- Nat.negb_even, Hr. reflexivity.
Qed.
Lemma alt3_0 : alt 0 (a :: b :: c :: r) = 0. Proof. rewrite alt3. ring. Qed.
Lemma alt3_1 : alt 1 (a :: b :: c :: r) = a. Proof. rewrite alt3. ring. Qed.
Lemma alt3_slope x d : derivable_pt_lim (fun x => alt x r) x d ->
  derivable_pt_lim (fun x => alt x (a :: b :: c :: r)) x
   ((((0 + d) * x + (c + alt x r) * 1) * (1 - x) - (b + (c + alt x r) * x)) * x + (a + (b + (c + alt x r) * x) * (1 - x))).
Proof.
  intros Hd. eapply derivable_pt_lim_ext; [intros u; symmetry; apply alt3|].
  assert (D1 : derivable_pt_lim (fun x => c + alt x r) x (0 + d)) by (apply derivable_pt_lim_plus; [apply derivable_pt_lim_const | exact Hd]).
  assert (D2 : derivable_pt_lim (fun x => (c + alt x r) * x) x ((0 + d) * x + (c + alt x r) * 1)).
  { apply (derivable_pt_lim_mult (fun x => c + alt x r) (fun x => x)); [exact D1 | apply derivable_pt_lim_id]. }
  assert (D3 : derivable_pt_lim (fun x => b + (c + alt x r) * x) x (0 + ((0 + d) * x + (c + alt x r) * 1))).
  { apply derivable_pt_lim_plus; [apply derivable_pt_lim_const | exact D2]. }
  assert (D4 : derivable_pt_lim (fun x => 1 - x) x (0 - 1)).
  { apply (derivable_pt_lim_minus (fun _ => 1) (fun x => x)); [apply derivable_pt_lim_const | apply derivable_pt_lim_id]. }
  pose proof (derivable_pt_lim_mult _ _ _ _ _ D3 D4) as D5.
  assert (D6 : derivable_pt_lim (fun x => a + (b + (c + alt x r) * x) * (1 - x)) x
     (0 + ((0 + ((0 + d) * x + (c + alt x r) * 1)) * (1 - x) + (b + (c + alt x r) * x) * (0 - 1)))).
  { apply derivable_pt_lim_plus; [apply derivable_pt_lim_const | exact D5]. }
  pose proof (derivable_pt_lim_mult _ _ _ _ _ D6 (derivable_pt_lim_id x)) as D7. unfold mult_fct, id in D7.
  match type of D7 with derivable_pt_lim _ _ ?v => match goal with |- derivable_pt_lim _ _ ?w => replace w with v by ring end end. exact D7.
Qed.
Lemma alt3_slope0 : derivable_pt_lim (fun x => alt x (a :: b :: c :: r)) 0 (a + b).
Proof.
  destruct (alt_derive r 0) as (d & Hd). pose proof (alt3_slope 0 d Hd) as D.
  match type of D with derivable_pt_lim _ _ ?v => replace (a + b) with v by ring end. exact D.
Qed.
Lemma alt3_slope1 : derivable_pt_lim (fun x => alt x (a :: b :: c :: r)) 1 (a - b - c).
Proof.
  destruct (alt_derive r 1) as (d & Hd). pose proof (alt3_slope 1 d Hd) as D. rewrite (alt_even1 r Hr) in D.
  match type of D with derivable_pt_lim _ _ ?v => replace (a - b - c) with v by ring end. exact D.
Qed.
End Alt.

Section Dop.
Variables (D : list (list R)) (tp h : R) (yp y f : list R) (K : list (list R)).
Hypothesis Hh : h <> 0.
Hypothesis HD : Nat.even (length D) = true.
Lemma dop_cmp i t : (i < length yp)%nat -> cmp i (dop_dense D tp yp y f h K t) = cmp i yp + alt ((t - tp) / h) (dop_coeffs D yp y f h K i).
Proof. intros Hi. unfold dop_dense. now rewrite nth_map_seq. Qed.
Lemma dop_len t : length (dop_dense D tp yp y f h K t) = length yp.
Proof. unfold dop_dense. now rewrite map_length, seq_length. Qed.
Lemma dop_derive i t d : (i < length yp)%nat -> derivable_pt_lim (fun x => alt x (dop_coeffs D yp y f h K i)) ((t - tp) / h) (d * h) ->
  derivable_pt_lim (fun t => cmp i (dop_dense D tp yp y f h K t)) t d.
Proof.
  intros Hi Hd. eapply derivable_pt_lim_ext; [intros u; symmetry; apply dop_cmp; exact Hi|].
  replace d with (0 + d * h * (1 / h)) by (field; exact Hh). apply derivable_pt_lim_plus; [apply derivable_pt_lim_const|].
  apply (derivable_pt_lim_comp (fun u => (u - tp) / h) (fun x => alt x (dop_coeffs D yp y f h K i))); [|exact Hd].
  apply derivable_pt_lim_ext with (f := fun u => (1 / h) * (u - tp)); [intros u; field; exact Hh|].
  assert (D1 : derivable_pt_lim (fun u => u - tp) t (1 - 0)) by (apply (derivable_pt_lim_minus (fun u => u) (fun _ => tp)); [apply derivable_pt_lim_id | apply derivable_pt_lim_const]).
  pose proof (derivable_pt_lim_scal (fun u => u - tp) (1 / h) t (1 - 0) D1) as D2.
  replace (1 / h * (1 - 0)) with (1 / h) in D2 by ring. exact D2.
Qed.
Lemma dop_even i : Nat.even (length (map (fun row => h * Rsum (fun k => nth k row 0 * cmp i (nth k K [])) (length K)) D)) = true.
Proof. now rewrite map_length. Qed.
Lemma dop_facts i : (i < length yp)%nat ->
  cmp i (dop_dense D tp yp y f h K tp) = cmp i yp /\ cmp i (dop_dense D tp yp y f h K (tp + h)) = cmp i y /\
  derivable_pt_lim (fun t => cmp i (dop_dense D tp yp y f h K t)) tp (cmp i (nth 0 K [])) /\
  derivable_pt_lim (fun t => cmp i (dop_dense D tp yp y f h K t)) (tp + h) (cmp i f) /\
  forall t, exists d, derivable_pt_lim (fun t => cmp i (dop_dense D tp yp y f h K t)) t d.
Proof.
  intros Hi. split; [|split; [|split; [|split]]].
  - rewrite dop_cmp by exact Hi. replace ((tp - tp) / h) with 0 by (field; exact Hh). unfold dop_coeffs. cbn [app]. rewrite alt3_0 by apply dop_even. ring.
  - rewrite dop_cmp by exact Hi. replace ((tp + h - tp) / h) with 1 by (field; exact Hh). unfold dop_coeffs. cbn [app]. rewrite alt3_1 by apply dop_even. ring.
  - apply dop_derive; [exact Hi|]. replace ((tp - tp) / h) with 0 by (field; exact Hh). unfold dop_coeffs. cbn [app].
    match goal with |- derivable_pt_lim (fun x => alt x (?a :: ?b :: _)) _ ?v => replace v with (a + b) by ring end. apply alt3_slope0, dop_even.
  - apply dop_derive; [exact Hi|]. replace ((tp + h - tp) / h) with 1 by (field; exact Hh). unfold dop_coeffs. cbn [app].
    match goal with |- derivable_pt_lim (fun x => alt x (?a :: ?b :: ?c :: _)) _ ?v => replace v with (a - b - c) by ring end. apply alt3_slope1, dop_even.
  - intros t. destruct (alt_derive (dop_coeffs D yp y f h K i) ((t - tp) / h)) as (d & Hd). exists (d / h). apply dop_derive; [exact Hi|].
    replace (d / h * h) with d by (field; exact Hh). exact Hd.
Qed.
End Dop.

Section Top.
Context {E : @Env Rops}.
Lemma joins_rk rhs A B C P (s : @st Rops) h K n : P_ok P B (length A + 1) -> length C = length A -> length B = length A -> keeps_dim (OT := Rops) n rhs ->
  length (prev_y s) = n -> length (prev_f s) = n -> length (deriv s) = n -> A <> [] ->
  @last_step Rops rhs A B C s h K -> prev_t s < now s -> joins s (rk_dense P (prev_t s) (prev_y s) h (K ++ [deriv s])).
Proof.
  intros HP HC HB Hk Ly Lf Ld HA (St & Hn) Hlt. change (now s = prev_t s + h) in Hn.
  assert (Hh : h <> 0) by lra.
  destruct (rk_step_dim n rhs Hk A B C _ _ _ h K (state s) Ly Lf St) as (Lsv & HK).
  assert (Ls : length (state s) = n) by exact Lsv.
  destruct St as (Sg & Ey). pose proof (stages_len _ _ _ _ _ _ _ _ Sg) as (LK & _).
  assert (LKA : length (K ++ [deriv s]) = (length A + 1)%nat).
  { rewrite app_length, LK. cbn [length]. rewrite skipn_length. destruct A; [congruence|]. cbn. lia. }
  rewrite <- LKA in HP.
  assert (K0 : nth 0 (K ++ [deriv s]) [] = prev_f s).
  { assert (Q : forall rows cs K1 K2 t y, @stages_of Rops rhs t y h rows cs K1 K2 -> K1 <> [] -> nth 0 K2 [] = nth 0 K1 []).
    { intros rows cs K1 K2 t y Hs. induction Hs as [|a rows c cs K1 k K' Hk' _ IH]; intros N; [reflexivity|]. rewrite IH.
      - destruct K1; [congruence|reflexivity].
      - destruct K1; discriminate. }
    assert (K <> []) by (intros ->; cbn in LK; lia).
    rewrite app_nth1 by (destruct K; [congruence|cbn; lia]). rewrite (Q _ _ _ _ _ _ Sg) by discriminate. reflexivity. }
  unfold joins. rewrite Hn.
  split; [|split].
  - apply (vec_ext n); [unfold rk_dense; now rewrite map_length, seq_length | exact Ly |]. intros i Hi. apply dense_start; [exact Hh|exact (eq_ind_r (fun x => (i < x)%nat) Hi Ly)].
  - apply (vec_ext n); [unfold rk_dense; now rewrite map_length, seq_length | exact Ls |]. intros i Hi.
    rewrite (dense_end P B); [|exact Hh|exact HP|exact (eq_ind_r (fun x => (i < x)%nat) Hi Ly)]. rewrite Ey. unfold rk_combine.
    rewrite (vadd_cmp n) by (auto; rewrite ?Ly; apply lincomb_len; exact HK).
    f_equal. rewrite Ly. rewrite (lincomb_cmp n) by auto.
    rewrite (dot_map_Rsum (fun k => cmp i k) K []).
    assert (LB : length B = length K).
    { rewrite HB, LK. cbn [length]. rewrite skipn_length. destruct A; [congruence|]. cbn. lia. }
    rewrite app_length. cbn [length]. rewrite Nat.add_1_r. unfold Rsum at 1. rewrite seq_S, map_app, fold_right_app. cbn [map fold_right Nat.add].
    rewrite (nth_overflow B) by (rewrite LB; lia). rewrite Rmult_0_l, Rplus_0_l. fold (Rsum (fun k => nth k B 0 * cmp i (nth k (K ++ [deriv s]) [])) (length K)).
    transitivity (h * Rsum (fun k => nth k B 0 * cmp i (nth k (K ++ [deriv s]) [])) (length K)); [reflexivity|]. rewrite <- Rsum_scal. apply Rsum_ext. intros k Hk'. rewrite app_nth1 by exact Hk'.
    rewrite (nth_map_lt _ B k 0) by (rewrite LB; exact Hk'). change (@mul Rops) with Rmult. rring.
  - intros i Hi. assert (Hi' : (i < @length R (prev_y s))%nat) by (refine (eq_ind_r (fun x => (i < x)%nat) _ Ly); exact (eq_ind _ (fun x => (i < x)%nat) Hi _ Ls)).
    split; [|split].
    + rewrite <- K0. apply (slope_start P B); auto.
    + assert (Kl : nth (length (K ++ [deriv s]) - 1) (K ++ [deriv s]) [] = deriv s).
      { rewrite app_length. cbn [length]. rewrite Nat.add_sub, app_nth2, Nat.sub_diag by lia. reflexivity. }
      pose proof (slope_end P B (prev_t s) h (prev_y s) (K ++ [deriv s]) Hh HP i Hi') as Q. exact (eq_ind _ (fun v : list R => derivable_pt_lim _ _ (cmp i v)) Q _ Kl).
    + intros t. eexists. apply dense_slope; auto.
Qed.
End Top.
