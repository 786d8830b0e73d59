(** Runge-Kutta steps of y' = f(t) and y' = lambda y over the reals. *)
From Coq Require Import List ZArith QArith Bool Arith Lia Reals Lra.
From Verif Require Import Base Scalar Vec MBuffer MZeros MSteps MApi MClasses Laws Spec SpecInst
  PStep PCore PHist PBound PVecR SpecRK PRK PDim SpecMS PMS PMS2.
Import ListNotations.
Open Scope R_scope.
Ltac rring := match goal with |- @eq _ ?a ?b => change (@eq R a b) end; change (@vec Rops) with (list R); change (@T Rops) with R;
  change (@add Rops) with Rplus; change (@mul Rops) with Rmult; ring.

Lemma map_app_one {A B} (f : A -> B) l x : map f (l ++ [x]) = map f l ++ [f x].
Proof. apply map_app. Qed.
(** ** y' = f(t) *)
Lemma stages_time (g : R -> list R) (rhs : @rhs_t Rops) t y h (Hr : forall t y, rhs t y = Ret (g t)) rows cs K K' :
  stages_of (OT := Rops) rhs t y h rows cs K K' -> K' = K ++ map (fun c => g (t + h * c)) cs.
Proof.
  induction 1 as [K|a rows c cs K k K' Hk _ IH]; [now rewrite app_nil_r|].
  pose proof (eq_trans (eq_sym Hk) (Hr _ _)) as e. injection e as ->. rewrite IH, <- app_assoc. reflexivity.
Qed.
Lemma dot_map_ext {A} (f g : A -> R) B l : (forall x, f x = g x) -> dot B (map f l) = dot B (map g l).
Proof. intros H. f_equal. now apply map_ext. Qed.
Lemma rk_time (g : R -> list R) (rhs : @rhs_t Rops) A B c C t y h n K y' (Hr : forall t y, rhs t y = Ret (g t)) :
  (forall t, length (g t) = n) -> length y = n ->
  rk_step (OT := Rops) rhs A B (c :: C) t y (g (t + h * c)) h K y' ->
  length y' = n /\ forall i, (i < n)%nat -> cmp i y' = cmp i y + h * dot B (map (fun c => cmp i (g (t + h * c))) (c :: C)).
Proof.
  intros Hg Hy (Hs & ->). apply (stages_time g) in Hs; auto. cbn [skipn] in Hs. subst K. unfold rk_combine.
  assert (F : Forall (fun k => length k = n) ([g (t + h * c)] ++ map (fun c => g (t + h * c)) C)).
  { apply Forall_app. split; [constructor; auto|]. apply Forall_map, Forall_forall. auto. }
  rewrite Hy. split.
  - apply vadd_len; auto. now apply lincomb_len.
  - intros i Hi. rewrite (vadd_cmp n) by (auto; now apply lincomb_len). rewrite (lincomb_cmp n) by auto.
    change (@mul Rops) with Rmult. rewrite dot_scale. rewrite map_app, map_map. reflexivity.
Qed.

(** ** y' = lambda y *)
Fixpoint lin_stages (z : R) (rows : list (list R)) (r : list R) : list R :=
  match rows with
  | [] => r
  | a :: rows' => lin_stages z rows' (r ++ [1 + z * dot (firstn (length r) a) r])
  end.
Lemma vscale_vscale (a b : R) v : @vscale Rops a (@vscale Rops b v) = @vscale Rops (a * b) v.
Proof. unfold vscale. rewrite map_map. apply map_ext. intros x. change (a * (b * x) = a * b * x). rring. Qed.
Lemma lincomb_scaled n c y : length y = n -> forall r, @lincomb Rops n c (map (fun q => @vscale Rops q y) r) = @vscale Rops (dot c r) y.
Proof.
  intros Hy r. assert (F : Forall (fun k => length k = n) (map (fun q => @vscale Rops q y) r)).
  { apply Forall_map, Forall_forall. intros q _. now apply vscale_len. }
  apply (vec_ext n); [now apply lincomb_len|now apply vscale_len|].
  intros i Hi. rewrite (lincomb_cmp n) by auto. rewrite vscale_cmp, map_map.
  revert r F. induction c as [|x c IH]; intros [|q r] F; cbn [map dot]; try (rewrite Rmult_0_l; reflexivity).
  rewrite IH by (inversion F; auto). rewrite vscale_cmp. rring.
Qed.
Lemma vadd_scale1 (a : R) y : @vadd Rops y (@vscale Rops a y) = @vscale Rops (1 + a) y.
Proof.
  apply (vec_ext (length y)); [now apply vadd_len; [|apply vscale_len]|now apply vscale_len|].
  intros i Hi. rewrite (vadd_cmp (length y)) by (auto; now apply vscale_len). rewrite !vscale_cmp. rring.
Qed.
Lemma stages_lin (lam : R) (rhs : @rhs_t Rops) t y h (Hr : forall t y, rhs t y = Ret (@vscale Rops lam y)) rows cs K K' :
  stages_of (OT := Rops) rhs t y h rows cs K K' -> forall r, K = map (fun q => @vscale Rops q y) (map (Rmult lam) r) ->
  K' = map (fun q => @vscale Rops q y) (map (Rmult lam) (lin_stages (h * lam) rows r)).
Proof.
  induction 1 as [K|a rows c cs K k K' Hk _ IH]; intros r e; [exact e|].
  cbn [lin_stages]. apply IH. pose proof (eq_trans (eq_sym Hk) (Hr _ _)) as ek. injection ek as ->. rewrite e, !map_app. f_equal. cbn [map]. f_equal.
  rewrite lincomb_scaled by reflexivity. rewrite vscale_vscale, vadd_scale1, vscale_vscale.
  rewrite !map_length. f_equal.
  assert (Dl : forall c r, dot c (map (Rmult lam) r) = lam * dot c r).
  { induction c0 as [|x c0 IHc]; intros [|q r0]; cbn; try rring. rewrite IHc. rring. }
  rewrite Dl. rring.
Qed.
Lemma rk_lin (lam : R) (rhs : @rhs_t Rops) A B C t y h K y' (Hr : forall t y, rhs t y = Ret (@vscale Rops lam y)) :
  rk_step (OT := Rops) rhs A B C t y (@vscale Rops lam y) h K y' ->
  y' = @vscale Rops (1 + h * lam * dot B (lin_stages (h * lam) (skipn 1 A) [1])) y.
Proof.
  intros (Hs & ->). apply (stages_lin lam) with (r := [1]) in Hs; auto.
  2:{ cbn [map]. now rewrite Rmult_1_r. }
  subst K. unfold rk_combine. rewrite lincomb_scaled by reflexivity. rewrite vadd_scale1. f_equal. f_equal.
  change (@mul Rops) with Rmult. rewrite dot_scale.
  assert (Dl : forall c r, dot c (map (Rmult lam) r) = lam * dot c r).
  { induction c as [|x c IHc]; intros [|q r0]; cbn; try rring. rewrite IHc. rring. }
  rewrite Dl. rring.
Qed.
